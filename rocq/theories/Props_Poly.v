(** * Props_Poly.v -- the properties of PolynomialAlgebra (C20 - C23).

    [poly_of rep v P] (RingSpec.v): the vector [v] lists members denoting the
    coefficients of the polynomial [P] of the library, from the constant one up to
    the leading one. So a vector denoting a polynomial has no leading zeros.
    [ring_methods] lists what the methods return. *)

From mathcomp Require Import all_ssreflect all_algebra zify ssrZ.
From Coq Require Import ZArith.
From Verif Require Import Rust Traits MInts MConstr Spec PropSpec RingSpec NumSpec Laws.
From Verif Require Import PCases Wp.
From Verif Require Import PInts POrders PPolyA PPoly PPolyProps Refuted.

Import GRing.Theory.
Local Open Scope ring_scope.

(** ** C20: the ring of polynomials over an integral domain *)

Theorem C20_methods : forall (cfg : Cfg) (p : Prop) (E : Type) (R : idomainType)
    (rep : E -> R -> Prop) (A : RingAlg E),
  ring_alg_spec cfg p rep *%R 1 A ->
  ring_methods p (poly_of rep) cfg *%R 1 (PolyRing A).
Proof. exact polynomial_methods. Qed.
Print Assumptions C20_methods.
(** This and the next theorems, for polynomials with integer coefficients. *)
Example C20_methods_case cfg : ring_methods False (poly_of zz_rep) cfg *%R 1 (PolyRing ZZ).
Proof. exact: (C20_methods _ _ _ _ _ _ (zz_ring cfg)). Qed.
(** The contract of Spec.v, on which other constructions can be built. *)
Theorem C20_contract : forall (cfg : Cfg) (p : Prop) (E : Type) (R : idomainType)
    (rep : E -> R -> Prop) (A : RingAlg E),
  ring_alg_spec cfg p rep *%R 1 A ->
  ring_alg_spec cfg p (poly_of rep) *%R 1 (PolyRing A).
Proof. exact PolyRing_ok. Qed.
Print Assumptions C20_contract.
Example C20_contract_case cfg :
  ring_alg_spec cfg False (poly_of (poly_of zz_rep)) *%R 1 (PolyRing (PolyRing ZZ)).
Proof. exact: (C20_contract _ _ _ _ _ _ (C20_contract _ _ _ _ _ _ (zz_ring cfg))). Qed.
(** The additive part, over any abelian group: finitely supported sequences. *)
Theorem C20_additive : forall (cfg : Cfg) (p : Prop) (E : Type) (V : zmodType)
    (rep : E -> V -> Prop) (A : AbelianAlg E),
  abelian_alg_spec cfg p rep A -> abelian_alg_spec cfg p (fs_rep rep) (PolyAbelian A).
Proof. exact PolyAbelian_ok. Qed.
Print Assumptions C20_additive.
Example C20_additive_case cfg :
  abelian_alg_spec cfg False (fs_rep zz_rep) (PolyAbelian (ring_abelian ZZ)).
Proof. exact: (C20_additive _ _ _ _ _ _ (zz_abelian cfg)). Qed.
(** The laws of a commutative ring, as statements about calls of the methods. *)
Theorem C20_laws : forall (cfg : Cfg) (p : Prop) (E : Type) (R : idomainType)
    (rep : E -> R -> Prop) (A : RingAlg E),
  ring_alg_spec cfg p rep *%R 1 A -> Z.le 2 (ptr_bits cfg) ->
  ring_alg_laws p (fun x => exists P, poly_of rep x P) cfg (PolyRing A) /\
  mul_commutes p (fun x => exists P, poly_of rep x P) (PolyRing A) (PolyRing A).
Proof. exact polynomial_laws. Qed.
Print Assumptions C20_laws.
Example C20_laws_case :
  ring_alg_laws False (fun x => exists P, poly_of zz_rep x P) debug64 (PolyRing ZZ).
Proof. by have [|] := C20_laws _ _ _ _ _ _ (zz_ring debug64). Qed.
Theorem C20_degree : forall (E : Type) (R : idomainType) (rep : E -> R -> Prop)
    (x : seq E) (P : {poly R}), poly_of rep x P ->
  poly_degree x = if P == 0 then None else Some (size P).-1.
Proof. exact poly_degree_ok. Qed.
Print Assumptions C20_degree.
(** 1 + 2 X + 3 X^2. *)
Example C20_degree_case :
  poly_of zz_rep [:: 1; 2; 3]%Z (Poly [:: 1; 2; 3]%Z) /\ poly_degree [:: 1; 2; 3]%Z = Some 2%nat.
Proof. by split; first exact: zz_poly. Qed.
Theorem C20_leading_coef : forall (p : Prop) (E : Type) (R : idomainType)
    (rep : E -> R -> Prop) (x : seq E) (P : {poly R}), poly_of rep x P ->
  ensures p (poly_leading_coef x) (fun o =>
    match o with None => P = 0 | Some a => P <> 0 /\ rep a (lead_coef P) end).
Proof. exact poly_leading_coef_ok. Qed.
Print Assumptions C20_leading_coef.
Example C20_leading_coef_case :
  poly_of zz_rep [:: 1; 2; 3]%Z (Poly [:: 1; 2; 3]%Z) /\
  returns (poly_leading_coef [:: 1; 2; 3]%Z) (Some 3%Z).
Proof. by split; [exact: zz_poly|run 10%nat]. Qed.
(** [contains] accepts exactly the vectors without leading zeros. *)
Theorem C20_contains : forall (cfg : Cfg) (p : Prop) (E : Type) (R : idomainType)
    (rep : E -> R -> Prop) (A : RingAlg E),
  ring_alg_spec cfg p rep *%R 1 A -> contains_exact p rep A ->
  contains_exact p (poly_of rep) (PolyRing A).
Proof. exact PolyRing_contains. Qed.
Print Assumptions C20_contains.

(** The integers are an integral domain meeting the contract; [-1; 0; 3] denotes
    3x^2 - 1; (x - 1)(x + 1) = x^2 - 1; (x^2 + 1) - (x^2 - x) = x + 1. *)
Example C20_base cfg : ring_alg_spec cfg False zz_rep *%R 1 ZZ.
Proof. exact (id_ring_ok (eu_idom_ok (ZZ_ok cfg False))). Qed.
Example C20_case cfg :
  [/\ returns (mul (PolyRing ZZ) [:: -1; 1]%Z [:: 1; 1]%Z) [:: -1; 0; 1]%Z,
      returns (sub (PolyRing ZZ) [:: 1; 0; 1]%Z [:: 0; -1; 1]%Z) [:: 1; 1]%Z,
      returns (ztimes (PolyRing ZZ) (-2) [:: 1; 0; 3]%Z) [:: -2; 0; -6]%Z,
      returns (try_inv (PolyRing ZZ) [:: -1]%Z) (Some [:: -1]%Z) &
      returns (contains (PolyRing ZZ) [:: 1; 0]%Z) false] /\
  [/\ returns (ztimes (PolyRing (GF2 cfg)) 2 [:: 1; 0; 1]%Z) [::],
      poly_degree [:: 1; 0; 1]%Z = Some 2%nat &
      returns (int (PolyRing (GF2 cfg)) 3) [:: 1]%Z].
Proof. by split; split=> //; run 20%nat. Qed.

(** ** C21: division with remainder over a field *)

Theorem C21_quo_rem : forall (cfg : Cfg) (p : Prop) (E : Type) (F : fieldType)
    (rep : E -> F -> Prop) (A : FieldAlg E), field_alg_spec cfg p rep A ->
  forall x P y U, poly_of rep x P -> poly_of rep y U ->
  (U <> 0 -> ensures p (quo_rem (PolyEucl A) x y) (fun z => exists Q N,
     [/\ poly_of rep z.1 Q, poly_of rep z.2 N, P = Q * U + N & (size N < size U)%nat])) /\
  (U = 0 -> panics (quo_rem (PolyEucl A) x y)).
Proof. exact polynomial_quo_rem. Qed.
Print Assumptions C21_quo_rem.
(** X^2 + 1 and X + 1 over the field with two elements. *)
Example C21_quo_rem_case :
  [/\ poly_of bb_rep [:: true; false; true] (Poly [:: 1; 0; 1]),
      poly_of bb_rep [:: true; true] (Poly [:: 1; 1]) &
      returns (quo_rem (PolyEucl BB) [:: true; false; true] [:: true; true])
        ([:: true; true], [::])].
Proof.
by split; [rewrite /poly_of (PolyK (c := 1)) //; repeat constructor..|run 20%nat].
Qed.
Theorem C21_unique : forall (F : fieldType) (U Q N Q' N' : {poly F}),
  (size N < size U)%nat -> (size N' < size U)%nat ->
  Q * U + N = Q' * U + N' -> Q = Q' /\ N = N'.
Proof. exact quo_rem_unique. Qed.
Print Assumptions C21_unique.
Example C21_unique_case (F : fieldType) (U N' Q : {poly F}) : U = 'X^2 -> (size N' < size U)%nat ->
  Q * U + N' = 'X * U + 1 -> Q = 'X /\ N' = 1.
Proof.
by move=> UE hN h; apply: (C21_unique _ U) hN _ h; rewrite UE size_polyXn size_poly1.
Qed.
(** All methods of a Euclidean domain, with the library's division of polynomials. *)
Theorem C21_contract : forall (cfg : Cfg) (p : Prop) (E : Type) (F : fieldType)
    (rep : E -> F -> Prop) (A : FieldAlg E), field_alg_spec cfg p rep A ->
  eucl_alg_spec cfg p (R := poly_idomainType F) (poly_of rep) (poly_assoc (field_assoc F))
    (poly_estruct F) (PolyEucl A).
Proof. exact PolyEucl_ok. Qed.
Print Assumptions C21_contract.
Example C21_contract_case cfg :
  eucl_alg_spec cfg False (R := poly_idomainType _) (poly_of qq_rep) (poly_assoc (field_assoc _))
    (poly_estruct _) (PolyEucl (QQ cfg)).
Proof. exact: (C21_contract _ _ _ _ _ _ (qq_field cfg)). Qed.
Theorem C21_gcd : forall (cfg : Cfg) (p : Prop) (E : Type) (F : fieldType)
    (rep : E -> F -> Prop) (A : FieldAlg E), field_alg_spec cfg p rep A ->
  [/\ gcd_correct p (R := poly_idomainType F) (poly_of rep) (gcd (PolyEucl A)),
      extended_gcd_correct p (R := poly_idomainType F) (poly_of rep) (extended_gcd (PolyEucl A)),
      lcm_correct p (R := poly_idomainType F) (poly_of rep) (lcm (PolyEucl A)) &
      relative_primes_correct p (R := poly_idomainType F) (poly_of rep)
        (relative_primes (PolyEucl A))].
Proof. exact polynomial_gcd. Qed.
Print Assumptions C21_gcd.
Example C21_gcd_case :
  gcd_correct False (R := poly_idomainType _) (poly_of qq_rep) (gcd (PolyEucl (QQ debug64))).
Proof. by have [] := C21_gcd _ _ _ _ _ _ (qq_field debug64). Qed.
Theorem C21_laws : forall (cfg : Cfg) (p : Prop) (E : Type) (F : fieldType)
    (rep : E -> F -> Prop) (A : FieldAlg E), field_alg_spec cfg p rep A ->
  Z.le 2 (ptr_bits cfg) ->
  eucl_alg_laws p (fun x => exists P, poly_of rep x P) cfg (PolyEucl A).
Proof. exact polynomial_eucl_laws. Qed.
Print Assumptions C21_laws.
(** Over the rationals, 2x^3 + x = (x^2 - x/2 + 3/4) (2x + 1) - 3/4;
    over the field with two elements, x^3 + 1 = (x + 1) (x^2 + x + 1). *)
Example C21_case cfg :
  [/\ returns (quo_rem (PolyEucl (QQ cfg)) [:: (0, 1); (1, 1); (0, 1); (2, 1)]%Z
        [:: (1, 1); (2, 1)]%Z) ([:: (3, 4); (-1, 2); (1, 1)], [:: (-3, 4)])%Z,
      returns (quo_rem (PolyEucl BB) [:: true; false; false; true] [:: true; true; true])
        ([:: true; true], [::]) &
      panics (quo_rem (PolyEucl BB) [:: true] [::])].
Proof. by split; run 30%nat. Qed.

(** ** C22: exact division over an integral domain *)

Theorem C22_try_div : forall (cfg : Cfg) (p : Prop) (E : Type) (R : idomainType)
    (rep : E -> R -> Prop) (S : assoc_struct R) (A : IDomAlg E), idom_alg_spec cfg p rep S A ->
  forall x P y U, poly_of rep x P -> poly_of rep y U ->
  (U <> 0 -> ensures p (try_div (PolyIDom A) x y) (fun o =>
     match o with
     | Some z => exists2 Q, poly_of rep z Q & P = Q * U
     | None => ~ exists Q, P = Q * U
     end)) /\
  (U = 0 -> panics (try_div (PolyIDom A) x y)).
Proof. exact polynomial_try_div. Qed.
Print Assumptions C22_try_div.
(** X^2 - 1 by X + 1 and by 2 X + 2. *)
Example C22_try_div_case :
  [/\ poly_of zz_rep [:: -1; 0; 1]%Z (Poly [:: -1; 0; 1]%Z),
      poly_of zz_rep [:: 2; 2]%Z (Poly [:: 2; 2]%Z),
      returns (try_div (PolyIDom ZZ) [:: -1; 0; 1]%Z [:: 1; 1]%Z) (Some [:: -1; 1]%Z) &
      returns (try_div (PolyIDom ZZ) [:: -1; 0; 1]%Z [:: 2; 2]%Z) None].
Proof. by split; [exact: zz_poly|exact: zz_poly|run 20%nat|run 20%nat]. Qed.
Theorem C22_divisible : forall (cfg : Cfg) (p : Prop) (E : Type) (R : idomainType)
    (rep : E -> R -> Prop) (S : assoc_struct R) (A : IDomAlg E), idom_alg_spec cfg p rep S A ->
  forall x P y U, poly_of rep x P -> poly_of rep y U ->
  decides p (divisible (PolyIDom A) x y) (exists Q, P = Q * U) /\
  decides p (associates (PolyIDom A) x y) ((exists Q, P = Q * U) /\ (exists Q, U = Q * P)).
Proof. exact polynomial_divisible. Qed.
Print Assumptions C22_divisible.
Example C22_divisible_case :
  decides False (divisible (PolyIDom ZZ) [:: -1; 0; 1]%Z [:: 2; 2]%Z)
    (exists Q : {poly Z}, Poly [:: -1; 0; 1]%Z = Q * Poly [:: 2; 2]%Z) /\
  returns (divisible (PolyIDom ZZ) [:: -1; 0; 1]%Z [:: 2; 2]%Z) false.
Proof.
split; last run 20%nat.
by have [] := C22_divisible _ _ _ _ _ _ _ (zz_idom debug64) [:: -1; 0; 1]%Z _ [:: 2; 2]%Z _
  (zz_poly _) (zz_poly _).
Qed.
Theorem C22_associates : forall (cfg : Cfg) (p : Prop) (E : Type) (R : idomainType)
    (rep : E -> R -> Prop) (S : assoc_struct R) (A : IDomAlg E), idom_alg_spec cfg p rep S A ->
  associates_correct p (R := poly_idomainType R) (poly_of rep) (PolyIDom A).
Proof. exact polynomial_associates. Qed.
Print Assumptions C22_associates.
Example C22_associates_case :
  associates_correct False (R := poly_idomainType _) (poly_of zz_rep) (PolyIDom ZZ).
Proof. exact: (C22_associates _ _ _ _ _ _ _ (zz_idom debug64)). Qed.
Theorem C22_contract : forall (cfg : Cfg) (p : Prop) (E : Type) (R : idomainType)
    (rep : E -> R -> Prop) (A : IDomAlg E) (S : assoc_struct R), idom_alg_spec cfg p rep S A ->
  idom_alg_spec cfg p (R := poly_idomainType R) (poly_of rep) (poly_assoc S) (PolyIDom A).
Proof. exact PolyIDom_ok. Qed.
Print Assumptions C22_contract.
Example C22_contract_case cfg :
  idom_alg_spec cfg False (R := poly_idomainType _) (poly_of zz_rep) (poly_assoc Z_assoc)
    (PolyIDom ZZ).
Proof. exact: (C22_contract _ _ _ _ _ _ _ (zz_idom cfg)). Qed.
Theorem C22_laws : forall (cfg : Cfg) (p : Prop) (E : Type) (R : idomainType)
    (rep : E -> R -> Prop) (S : assoc_struct R) (A : IDomAlg E), idom_alg_spec cfg p rep S A ->
  Z.le 2 (ptr_bits cfg) ->
  idom_alg_laws p (fun x => exists P, poly_of rep x P) cfg (PolyIDom A).
Proof. exact polynomial_idom_laws. Qed.
Print Assumptions C22_laws.
(** (2x^2 - 2) / (x + 1) = 2x - 2; x^2 + 1 is not divisible by x + 1, nor 2x + 1 by 2;
    the representative of the associates of 1 - 2x is 2x - 1. *)
Example C22_case :
  [/\ returns (try_div (PolyIDom ZZ) [:: -2; 0; 2]%Z [:: 1; 1]%Z) (Some [:: -2; 2]%Z),
      returns (try_div (PolyIDom ZZ) [:: 1; 0; 1]%Z [:: 1; 1]%Z) None,
      returns (divisible (PolyIDom ZZ) [:: 1; 2]%Z [:: 2]%Z) false,
      returns (associate_repr (PolyIDom ZZ) [:: 1; -2]%Z) [:: -1; 2]%Z &
      panics (try_div (PolyIDom ZZ) [:: 1]%Z [::])].
Proof. by split; run 30%nat. Qed.

(** ** C23: base rings with zero divisors

    False: over Z/6 the product of the members 2x and 3x is returned as 0 + 0x + 0x^2,
    which is not a member. *)
Theorem C23_mul_refuted : forall cfg : Cfg,
  [/\ returns (contains (PolyRing (QuotientRing cfg ZZ 6%Z)) [:: 0; 2]%Z) true,
      returns (contains (PolyRing (QuotientRing cfg ZZ 6%Z)) [:: 0; 3]%Z) true,
      returns (mul (PolyRing (QuotientRing cfg ZZ 6%Z)) [:: 0; 2]%Z [:: 0; 3]%Z) [:: 0; 0; 0]%Z &
      returns (contains (PolyRing (QuotientRing cfg ZZ 6%Z)) [:: 0; 0; 0]%Z) false].
Proof. exact poly_mul_Z6. Qed.
Print Assumptions C23_mul_refuted.
(** Over Z/4, 1 + 2x is its own inverse, but try_inv does not find it. *)
Theorem C23_try_inv_refuted : forall cfg : Cfg,
  [/\ returns (contains (PolyRing (QuotientRing cfg ZZ 4%Z)) [:: 1; 2]%Z) true,
      returns (mul (PolyRing (QuotientRing cfg ZZ 4%Z)) [:: 1; 2]%Z [:: 1; 2]%Z) [:: 1; 0; 0]%Z &
      returns (try_inv (PolyRing (QuotientRing cfg ZZ 4%Z)) [:: 1; 2]%Z) None].
Proof. exact poly_inv_Z4. Qed.
Print Assumptions C23_try_inv_refuted.
(** What holds over every ring: the coefficients of the product are right, and there
    are no leading zeros if the product of the leading coefficients is not zero;
    missing: that case. *)
Theorem C23_mul_partial : forall (cfg : Cfg) (p : Prop) (E : Type) (R : ringType)
    (rep : E -> R -> Prop) (A : RingAlg E), ring_alg_spec cfg p rep *%R 1 A ->
  forall v P u Q, poly_of rep v P -> poly_of rep u Q ->
  ensures p (mul (PolyRing A) v u) (fun w =>
    (exists2 r : seq R, List.Forall2 rep w r & forall i, r`_i = (P * Q)`_i) /\
    (lead_coef P * lead_coef Q <> 0 -> poly_of rep w (P * Q))).
Proof. exact poly_mul_any. Qed.
Print Assumptions C23_mul_partial.
Example C23_mul_partial_case :
  [/\ poly_of zz_rep [:: 1; 2]%Z (Poly [:: 1; 2]%Z), poly_of zz_rep [:: 0; 3]%Z (Poly [:: 0; 3]%Z) &
      returns (mul (PolyRing ZZ) [:: 1; 2]%Z [:: 0; 3]%Z) [:: 0; 3; 6]%Z].
Proof. by split; [exact: zz_poly|exact: zz_poly|run 20%nat]. Qed.
(** An inverse that is returned is one; missing: the others. *)
Theorem C23_try_inv_partial : forall (cfg : Cfg) (p : Prop) (E : Type) (R : ringType)
    (rep : E -> R -> Prop) (A : RingAlg E), ring_alg_spec cfg p rep *%R 1 A ->
  forall v P, (1 : R) != 0 -> poly_of rep v P ->
  ensures p (try_inv (PolyRing A) v) (fun o =>
    match o with
    | Some w => exists Q, [/\ poly_of rep w Q, P * Q = 1 & Q * P = 1]
    | None => True
    end).
Proof. exact poly_try_inv_any. Qed.
Print Assumptions C23_try_inv_partial.
(** (1 + 2x)(1 + 5x) = 1 + x + 4x^2 over Z/6; 5 is its own inverse. *)
Example C23_case cfg :
  returns (mul (PolyRing (Z6 cfg)) [:: 1; 2]%Z [:: 1; 5]%Z) [:: 1; 1; 4]%Z /\
  returns (try_inv (PolyRing (Z6 cfg)) [:: 5]%Z) (Some [:: 5]%Z).
Proof. by split; run 30%nat. Qed.
