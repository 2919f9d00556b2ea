(** * Props_Fact.v -- C100: factorizations into irreducible elements. *)

From mathcomp Require Import all_ssreflect all_algebra ssrZ.
From Coq Require Import ZArith List Permutation.
From Verif Require Import Rust Traits MInts MConstr Spec PropSpec RingSpec TowerSpec Quotient Laws.
From Verif Require Import PInts PIntsZ PModular PIrrEx FactSpec PFact PFact2 PFactEx Refuted.

(** [product] multiplies a list with the methods of the crate (FactSpec.v). If the
    products of two lists of irreducible members are associates, the lists are equal up
    to the order and up to associates. *)
Theorem C100_unique : forall (cfg : Cfg) (p : Prop) (E : Type) (R : idomainType)
    (rep : E -> R -> Prop) (AS : assoc_struct R) (S : eucl_struct R) (A : EuclAlg E),
  eucl_alg_spec cfg p rep AS S A ->
  forall (xs : list E) (us : list R) (ys : list E) (vs : list R),
  Forall2 rep xs us -> Forall2 rep ys vs ->
  Forall (@irreducible_elt R) us -> Forall (@irreducible_elt R) vs ->
  returns (let! a := product A xs in let! b := product A ys in associates A a b) true ->
  exists2 zs, Permutation zs ys & Forall2 (fun x z => holds p (associates A x z)) xs zs.
Proof. exact factors_unique. Qed.
Print Assumptions C100_unique.
(** 2 * (-3) and 3 * 2 *)
Example C100_unique_case : eucl_alg_spec debug64 False (R := [idomainType of Z]) zz_rep Z_assoc Z_eucl ZZ /\
  Forall (@irreducible_elt [idomainType of Z]) (2 :: -3 :: nil)%Z /\
  Forall (@irreducible_elt [idomainType of Z]) (3 :: 2 :: nil)%Z /\
  returns (let! a := product ZZ (2 :: -3 :: nil)%Z in
           let! b := product ZZ (3 :: 2 :: nil)%Z in associates ZZ a b) true.
Proof.
split; first exact: ZZ_ok.
split; first exact: factors_two_m3.
split; first exact: factors_three_two.
by run 100%nat.
Qed.

(** Every integer but 0, 1 and -1 is such a product. *)
Theorem C100_integers : forall x : Z, x <> 0%Z -> x <> 1%Z -> x <> (-1)%Z ->
  exists2 xs, Forall (fun y => irreducible_elt (y : [idomainType of Z])) xs &
    returns (let! z := product ZZ xs in equals ZZ z x) true.
Proof. exact integers_factor. Qed.
Print Assumptions C100_integers.
Example C100_integers_case :
  Forall (@irreducible_elt [idomainType of Z]) (2 :: -3 :: nil)%Z /\
  returns (let! z := product ZZ (2 :: -3 :: nil)%Z in equals ZZ z (-6)%Z) true.
Proof. split; [exact factors_two_m3|by run 100%nat]. Qed.

(** Every polynomial of positive degree over a finite field is such a product. *)
Theorem C100_polynomials : forall (cfg : Cfg) (E : Type) (F : fieldType) (rep : E -> F -> Prop)
    (A : FieldAlg E) (k : nat),
  finite_field cfg rep A k ->
  forall (x : list E) (P : {poly F}), poly_of rep x P -> 1 < size x ->
  exists2 xs, Forall (fun y => exists2 U : poly_idomainType F, poly_of rep y U & irreducible_elt U) xs &
    returns (let! z := product (PolyEucl A) xs in equals (PolyEucl A) z x) true.
Proof. exact polys_factor. Qed.
Print Assumptions C100_polynomials.
(** x^2 + 1 = (x + 1)(x + 1) over GF(2) *)
Example C100_polynomials_case : finite_field debug64 f2_rep (field2 debug64) 2 /\
  (exists P, poly_of f2_rep (1 :: 0 :: 1 :: nil)%Z P) /\
  returns (let! z := product (PolyEucl (field2 debug64)) ((1 :: 1 :: nil) :: (1 :: 1 :: nil) :: nil)%Z in
           equals (PolyEucl (field2 debug64)) z (1 :: 0 :: 1 :: nil)%Z) true.
Proof. split; [exact: field2_tower|split; [exact: square_of|by run 100%nat]]. Qed.
