(** * Props_Residue.v -- C93: residues of polynomials in coordinates.

    The formulas are in ResidueSpec.v; [lists] there is [poly_of]: the vector lists the
    coefficients up to the leading one. *)

From mathcomp Require Import all_ssreflect all_algebra zify ssrZ.
From Coq Require Import ZArith.
From Verif Require Import Rust Traits MInts MConstr Spec PropSpec RingSpec HomLaw EvalLaw.
From Verif Require Import PInts PCases PFrac ResidueSpec PResidue Refuted.

Import GRing.Theory.
Local Open Scope ring_scope.

(** Modulo x^2 + s x + t: products, and inverses by the norm. *)
Theorem C93_quadratic : forall (cfg : Cfg) (p : Prop) (E : Type) (F : fieldType)
    (rep : E -> F -> Prop) (A : FieldAlg E),
  field_alg_spec cfg p rep A ->
  forall (s t : F) (modulo : seq E), poly_of rep modulo (quad s t) ->
  quadratic_laws p rep s t (QuotientField cfg (PolyEucl A) modulo).
Proof. exact quadratic_ok. Qed.
Print Assumptions C93_quadratic.
(** Over the rational numbers modulo x^2 - 2: (1 + x)(3 + 2 x) = 7 + 5 x,
    1 / (3 + x) = 3/7 - 1/7 x, (1 + x) / (3 + x) = 1/7 + 2/7 x; modulo x^2 - 1, 1 + x has norm
    zero. *)
Example C93_quadratic_case cfg :
  let K := QuotientField debug64 (PolyEucl (QQ debug64)) [:: (-2, 1); (0, 1); (1, 1)]%Z in
  let L := QuotientField debug64 (PolyEucl (QQ debug64)) [:: (-1, 1); (0, 1); (1, 1)]%Z in
  [/\ field_alg_spec cfg False qq_rep (QQ cfg) &
      poly_of qq_rep [:: (-2, 1); (0, 1); (1, 1)]%Z (quad 0 (- (1 + 1)))] /\
  [/\ returns (mul K [:: (1, 1); (1, 1)]%Z [:: (3, 1); (2, 1)]%Z) [:: (7, 1); (5, 1)]%Z,
      returns (finv K [:: (3, 1); (1, 1)]%Z) [:: (3, 7); (-1, 7)]%Z,
      returns (fdiv K [:: (1, 1); (1, 1)]%Z [:: (3, 1); (1, 1)]%Z) [:: (1, 7); (2, 7)]%Z &
      panics (finv L [:: (1, 1); (1, 1)]%Z)].
Proof.
split; last by split; run 60%nat.
split; first exact: qq_field.
apply: quad_of; [exact: qq_1|exact: qq_minus2|exact: qq_0].
Qed.

Theorem C93_quadratic_ring : forall (cfg : Cfg) (p : Prop) (E : Type) (F : fieldType)
    (rep : E -> F -> Prop) (A : FieldAlg E),
  field_alg_spec cfg p rep A ->
  forall (s t : F) (modulo : seq E), poly_of rep modulo (quad s t) ->
  quadratic_ring_laws p rep s t (QuotientRing cfg (PolyEucl A) modulo).
Proof. exact quadratic_ring_ok. Qed.
Print Assumptions C93_quadratic_ring.
(** Modulo x^2 - 1 the inverse of 3 + x is 3/8 - 1/8 x; 1 + x has none. *)
Example C93_quadratic_ring_case :
  let L := QuotientRing debug64 (PolyEucl (QQ debug64)) [:: (-1, 1); (0, 1); (1, 1)]%Z in
  poly_of qq_rep [:: (-1, 1); (0, 1); (1, 1)]%Z (quad 0 (-1)) /\
  returns (try_inv L [:: (3, 1); (1, 1)]%Z) (Some [:: (3, 8); (-1, 8)]%Z) /\
  returns (try_inv L [:: (1, 1); (1, 1)]%Z) None.
Proof.
split; last by split; run 60%nat.
apply: quad_of; [exact: qq_1|exact: qq_minus1|exact: qq_0].
Qed.

(** Modulo x^n: truncated power series.  A series is invertible exactly if its constant
    term is not zero. *)
Theorem C93_series : forall (cfg : Cfg) (p : Prop) (E : Type) (F : fieldType)
    (rep : E -> F -> Prop) (A : FieldAlg E),
  field_alg_spec cfg p rep A ->
  forall (n : nat) (modulo : seq E), (0 < n)%nat -> poly_of rep modulo 'X^n ->
  series_laws p rep n (QuotientRing cfg (PolyEucl A) modulo).
Proof. exact series_ok. Qed.
Print Assumptions C93_series.
(** 1 / (1 - x - x^2) = 1 + x + 2 x^2 + 3 x^3 + 5 x^4, the Fibonacci numbers; x has no
    inverse; the product of 1 + x^3 and 1 + x^4 is cut off. *)
Example C93_series_case :
  let m := [:: (0, 1); (0, 1); (0, 1); (0, 1); (0, 1); (1, 1)]%Z in
  let S := QuotientRing debug64 (PolyEucl (QQ debug64)) m in
  poly_of qq_rep m 'X^5 /\
  [/\ returns (try_inv S [:: (1, 1); (-1, 1); (-1, 1)]%Z)
        (Some [:: (1, 1); (1, 1); (2, 1); (3, 1); (5, 1)]%Z),
      returns (try_inv S [:: (0, 1); (1, 1)]%Z) None &
      returns (mul S [:: (1, 1); (0, 1); (0, 1); (1, 1)]%Z
                     [:: (1, 1); (0, 1); (0, 1); (0, 1); (1, 1)]%Z)
        [:: (1, 1); (0, 1); (0, 1); (1, 1); (1, 1)]%Z].
Proof.
split; last by split; run 80%nat.
exact: (Xn_of qq_0 qq_1 5).
Qed.

(** Modulo x^n - 1: cyclic convolution. *)
Theorem C93_cyclic : forall (cfg : Cfg) (p : Prop) (E : Type) (F : fieldType)
    (rep : E -> F -> Prop) (A : FieldAlg E),
  field_alg_spec cfg p rep A ->
  forall (n : nat) (modulo : seq E), (0 < n)%nat -> poly_of rep modulo ('X^n - 1) ->
  cyclic_law p rep n (QuotientRing cfg (PolyEucl A) modulo).
Proof. exact cyclic_ok. Qed.
Print Assumptions C93_cyclic.
(** (1 + 2 x + 3 x^2) (x^2) = 2 + 3 x + x^2 modulo x^3 - 1. *)
Example C93_cyclic_case :
  let m := [:: (-1, 1); (0, 1); (0, 1); (1, 1)]%Z in
  let S := QuotientRing debug64 (PolyEucl (QQ debug64)) m in
  poly_of qq_rep m ('X^3 - 1) /\
  returns (mul S [:: (1, 1); (2, 1); (3, 1)]%Z [:: (0, 1); (0, 1); (1, 1)]%Z)
    [:: (2, 1); (3, 1); (1, 1)]%Z.
Proof.
split; last by run 60%nat.
exact: (cyclic_of qq_0 qq_1 (n := 3%nat) (erefl true) qq_minus1).
Qed.

(** Modulo x^2: the value of a polynomial at a + b x is its value at a, with the derivative
    at a times b as the coefficient of x. *)
Theorem C93_derivative : forall (cfg : Cfg) (p : Prop) (E : Type) (F : fieldType)
    (rep : E -> F -> Prop) (A : FieldAlg E),
  field_alg_spec cfg p rep A ->
  forall modulo : seq E, poly_of rep modulo 'X^2 ->
  derivative_law p rep A (QuotientRing cfg (PolyEucl A) modulo).
Proof. exact derivative_ok. Qed.
Print Assumptions C93_derivative.
(** 1 + 5 x + x^3 at 2 + x: the value at 2 is 19 and the derivative 17. *)
Example C93_derivative_case :
  let m := [:: (0, 1); (0, 1); (1, 1)]%Z in
  let S := QuotientRing debug64 (PolyEucl (QQ debug64)) m in
  poly_of qq_rep m 'X^2 /\
  returns (let! u := mapM (to_constant (QQ debug64)) [:: (1, 1); (5, 1); (0, 1); (1, 1)]%Z in
           value S u [:: (2, 1); (1, 1)]%Z) [:: (19, 1); (17, 1)]%Z.
Proof.
split; last by run 60%nat.
exact: (Xn_of qq_0 qq_1 2).
Qed.
