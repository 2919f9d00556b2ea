(** * Props_Sqf.v -- C104: derivatives and repeated factors of polynomials. *)

From mathcomp Require Import all_ssreflect all_algebra ssrZ.
From Coq Require Import ZArith List.
From Verif Require Import Rust Traits MInts MConstr Spec PropSpec RingSpec TowerSpec Quotient FFSpec Laws.
From Verif Require Import PCases PIrrEx SqfSpec PSqf PSqf2 PSqfEx Refuted.

(** [derivative] and [squarefree_test] are the client programs of SqfSpec.v. *)
Theorem C104_derivative : forall (cfg : Cfg) (p : Prop) (E : Type) (F : fieldType)
    (rep : E -> F -> Prop) (A : FieldAlg E),
  field_alg_spec cfg p rep A ->
  forall (v : list E) (P : {poly F}), poly_of rep v P ->
  gives p (poly_of rep) (derivative A v) (deriv P).
Proof. exact derivative_ok. Qed.
Print Assumptions C104_derivative.
(** (x^3 + x^2 + 1)' = x^2 over GF(2), (x^2 + 1)' = 2 x over the rationals. *)
Example C104_derivative_case : field_alg_spec debug64 False f2_rep (field2 debug64) /\
  (exists P, poly_of f2_rep (1 :: 0 :: 1 :: 1 :: nil)%Z P) /\
  returns (derivative (field2 debug64) (1 :: 0 :: 1 :: 1 :: nil)%Z) (0 :: 0 :: 1 :: nil)%Z /\
  returns (derivative (QQ debug64) ((1, 1) :: (0, 1) :: (1, 1) :: nil)%Z) ((0, 1) :: (2, 1) :: nil)%Z.
Proof.
split; first exact: f2_contract.
split; first exact: cubic_of.
by split; run 100%nat.
Qed.

(** The rule for products. *)
Theorem C104_product : forall (cfg : Cfg) (p : Prop) (E : Type) (F : fieldType)
    (rep : E -> F -> Prop) (A : FieldAlg E),
  field_alg_spec cfg p rep A ->
  forall (v : list E) (P : {poly F}) (w : list E) (Q : {poly F}),
  poly_of rep v P -> poly_of rep w Q ->
  holds p (same (PolyEucl A)
    (let! a := mul (PolyEucl A) v w in derivative A a)
    (let! d := derivative A v in let! e := derivative A w in
     let! s := mul (PolyEucl A) d w in let! t := mul (PolyEucl A) v e in add (PolyEucl A) s t)).
Proof. exact derivative_product. Qed.
Print Assumptions C104_product.
Example C104_product_case : field_alg_spec debug64 False f2_rep (field2 debug64) /\
  (exists P, poly_of f2_rep (1 :: 0 :: 1 :: 1 :: nil)%Z P) /\
  (exists P, poly_of f2_rep (1 :: 1 :: 1 :: nil)%Z P) /\
  returns (let! a := mul (PolyEucl (field2 debug64)) (1 :: 0 :: 1 :: 1 :: nil)%Z (1 :: 1 :: 1 :: nil)%Z in
           derivative (field2 debug64) a) (1 :: 0 :: 0 :: 0 :: 1 :: nil)%Z.
Proof.
split; first exact: f2_contract.
split; first exact: cubic_of.
split; first exact: quadratic_of.
by run 100%nat.
Qed.

(** Over every field, a polynomial that passes the test is not divisible by the square of
    a polynomial of positive degree. *)
Theorem C104_passed : forall (cfg : Cfg) (p : Prop) (E : Type) (F : fieldType)
    (rep : E -> F -> Prop) (A : FieldAlg E),
  field_alg_spec cfg p rep A ->
  forall (v : list E) (P : {poly F}), poly_of rep v P ->
  returns (squarefree_test A v) true ->
  forall w, (exists W : {poly F}, poly_of rep w W) -> 1 < size w ->
  answers p (let! s := mul (PolyEucl A) w w in divisible (PolyEucl A) v s) false.
Proof. exact squarefree_true. Qed.
Print Assumptions C104_passed.
Example C104_passed_case : field_alg_spec debug64 False f2_rep (field2 debug64) /\
  (exists P, poly_of f2_rep (1 :: 0 :: 1 :: 1 :: nil)%Z P) /\
  returns (squarefree_test (field2 debug64) (1 :: 0 :: 1 :: 1 :: nil)%Z) true /\
  (exists P, poly_of f2_rep (1 :: 1 :: 1 :: nil)%Z P).
Proof.
split; first exact: f2_contract.
split; first exact: cubic_of.
split; [by run 100%nat|exact: quadratic_of].
Qed.

(** Over the finite fields the converse holds: the test never panics, and returns true
    exactly for the polynomials that no such square divides. *)
Theorem C104_finite : forall (cfg : Cfg) (E : Type) (F : fieldType) (rep : E -> F -> Prop)
    (A : FieldAlg E) (k : nat),
  finite_field cfg rep A k ->
  forall (v : list E) (P : {poly F}), poly_of rep v P ->
  decides False (squarefree_test A v)
    (forall w, (exists W : {poly F}, poly_of rep w W) -> 1 < size w ->
     answers False (let! s := mul (PolyEucl A) w w in divisible (PolyEucl A) v s) false).
Proof. exact squarefree_finite. Qed.
Print Assumptions C104_finite.
(** x^3 + x^2 + 1 and x^3 + x^2 + x + 1 = (x + 1)^3 *)
Example C104_finite_case : finite_field debug64 f2_rep (field2 debug64) 2 /\
  (exists P, poly_of f2_rep (1 :: 1 :: 1 :: 1 :: nil)%Z P) /\
  returns (squarefree_test (field2 debug64) (1 :: 0 :: 1 :: 1 :: nil)%Z) true /\
  returns (squarefree_test (field2 debug64) (1 :: 1 :: 1 :: 1 :: nil)%Z) false.
Proof.
split; first exact: field2_tower.
split; first exact: cube_of.
by split; run 100%nat.
Qed.

(** The same over the rational numbers. *)
Theorem C104_rational : forall (cfg : Cfg) (v : list (Z * Z))
    (P : {poly {fraction [idomainType of Z]}}), poly_of qq_rep v P ->
  decides False (squarefree_test (QQ cfg) v)
    (forall w, (exists W : {poly {fraction [idomainType of Z]}}, poly_of qq_rep w W) -> 1 < size w ->
     answers False (let! s := mul (PolyEucl (QQ cfg)) w w in divisible (PolyEucl (QQ cfg)) v s) false).
Proof. exact squarefree_rational. Qed.
Print Assumptions C104_rational.
(** x^2 + 1 and x^2 - 2 x + 1 *)
Example C104_rational_case :
  (exists P, poly_of qq_rep ((1, 1) :: (-2, 1) :: (1, 1) :: nil)%Z P) /\
  returns (squarefree_test (QQ debug64) ((1, 1) :: (0, 1) :: (1, 1) :: nil)%Z) true /\
  returns (squarefree_test (QQ debug64) ((1, 1) :: (-2, 1) :: (1, 1) :: nil)%Z) false.
Proof. split; first exact: qq_square_of. by split; run 100%nat. Qed.
