(** * Props_Wilson.v -- C101: products over all members of a finite field. *)

From mathcomp Require Import all_ssreflect all_algebra ssrZ.
From Coq Require Import ZArith List.
From Verif Require Import Rust Traits MInts MConstr Spec PropSpec RingSpec TowerSpec.
From Verif Require Import Quotient PInts PIntsZ PModular FactSpec PWilson PWilsonEx Refuted.

(** The product of all non-zero members, in any order, is -1. *)
Theorem C101_nonzero : forall (cfg : Cfg) (E : Type) (F : fieldType) (rep : E -> F -> Prop)
    (A : FieldAlg E) (k : nat),
  finite_field cfg rep A k ->
  forall xs : list E, NoDup xs ->
  (forall x, In x xs <-> (exists u, rep x u) /\ returns (is_zero A x) false) ->
  returns (let! z := product A xs in let! o := one A in let! s := add A z o in is_zero A s) true.
Proof. exact wilson. Qed.
Print Assumptions C101_nonzero.
(** The field with five elements. *)
Example C101_nonzero_case :
  finite_field debug64 five_rep (QuotientField debug64 ZZ 5%Z) 5 /\
  NoDup (3 :: 1 :: 4 :: 2 :: nil)%Z /\
  (forall x, In x (3 :: 1 :: 4 :: 2 :: nil)%Z <->
    (exists u, five_rep x u) /\ returns (is_zero (QuotientField debug64 ZZ 5%Z) x) false).
Proof. exact (conj (five_tower _) (conj five_nodup (five_nonzero _))). Qed.

(** The product of the polynomials x - a over all members a, computed by the crate, is
    x^k - x. *)
Theorem C101_linear : forall (cfg : Cfg) (E : Type) (F : fieldType) (rep : E -> F -> Prop)
    (A : FieldAlg E) (k : nat),
  finite_field cfg rep A k ->
  forall (xs : list E) (ys : list (list E)), NoDup xs ->
  (forall x, In x xs <-> exists u, rep x u) ->
  Forall2 (fun x y => returns (let! n := neg A x in let! o := one A in ret (n :: o :: nil)) y) xs ys ->
  exists2 v, returns (product (PolyEucl A) ys) v & poly_of rep v ('X^k - 'X : {poly F})%R.
Proof. exact all_factors. Qed.
Print Assumptions C101_linear.
Example C101_linear_case :
  finite_field debug64 five_rep (QuotientField debug64 ZZ 5%Z) 5 /\
  NoDup (0 :: 3 :: 1 :: 4 :: 2 :: nil)%Z /\
  (forall x, In x (0 :: 3 :: 1 :: 4 :: 2 :: nil)%Z <-> exists u, five_rep x u) /\
  returns (product (PolyEucl (QuotientField debug64 ZZ 5%Z))
    ((0 :: 1 :: nil) :: (2 :: 1 :: nil) :: (4 :: 1 :: nil) :: (1 :: 1 :: nil) :: (3 :: 1 :: nil) :: nil)%Z)
    (0 :: 4 :: 0 :: 0 :: 0 :: 1 :: nil)%Z.
Proof. exact (conj (five_tower _) (conj five_nodup0 (conj five_all five_product))). Qed.

(** (q-1)! + 1 is divisible by q, in QuotientField over Integers. *)
Theorem C101_factorial : forall (cfg : Cfg) (q : Z), Znumtheory.prime q ->
  returns (let! z := product (QuotientField cfg ZZ q) (map Z.of_nat (List.seq 1 (Z.to_nat q).-1)) in
           let! o := one (QuotientField cfg ZZ q) in
           let! s := add (QuotientField cfg ZZ q) z o in is_zero (QuotientField cfg ZZ q) s) true.
Proof. exact factorial_prime. Qed.
Print Assumptions C101_factorial.
(** 4! = 24 = -1 modulo 5 *)
Example C101_factorial_case : Znumtheory.prime 5 /\
  returns (product (QuotientField debug64 ZZ 5%Z) (1 :: 2 :: 3 :: 4 :: nil)%Z) 4%Z.
Proof. exact (conj prime_five five_factorial). Qed.
