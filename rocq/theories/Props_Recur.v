(** * Props_Recur.v -- C112: sequences with a linear recurrence. *)

From mathcomp Require Import all_ssreflect all_algebra ssrZ.
From Coq Require Import ZArith List.
From Verif Require Import Rust Traits MInts MConstr Spec PropSpec RingSpec Quotient.
From Verif Require Import PCases PResidue RecurSpec PRecur PRecurEx Refuted.

(** If v_0 u_m + v_1 u_(m+1) + ... = 0 for all m, the client program [term] of RecurSpec.v
    computes u_n from the first terms of the sequence, for every n. *)
Theorem C112_term : forall (cfg : Cfg) (p : Prop) (E : Type) (F : fieldType)
    (rep : E -> F -> Prop) (A : FieldAlg E),
  field_alg_spec cfg p rep A ->
  forall (v : list E) (P : {poly F}), poly_of rep v P -> 1 < size v ->
  forall (us : list E) (u : nat -> F) (n : nat),
  (forall m : nat, (\sum_(i < size P) P`_i * u (m + i)%nat)%R = 0%R) ->
  Forall2 rep us (mkseq u (size v).-1) ->
  gives p rep (term cfg A v us (Z.of_nat n)) (u n).
Proof. exact term_ok. Qed.
Print Assumptions C112_term.
(** The Fibonacci numbers as fractions, u_10 = 55. *)
Example C112_term_case :
  field_alg_spec debug64 False qq_rep (QQ debug64) /\
  (exists P : {poly {fraction [idomainType of Z]}},
    poly_of qq_rep ((-1, 1) :: (-1, 1) :: (1, 1) :: nil)%Z P /\
    forall m : nat, (\sum_(i < size P) P`_i * (fib (m + i))%:R)%R = 0%R) /\
  Forall2 qq_rep ((0, 1) :: (1, 1) :: nil)%Z (mkseq (fun i => (fib i)%:R)%R 2) /\
  returns (term debug64 (QQ debug64) ((-1, 1) :: (-1, 1) :: (1, 1) :: nil)%Z
             ((0, 1) :: (1, 1) :: nil)%Z 10) (55, 1)%Z.
Proof.
split; first exact: qq_field.
split; first exact: fib_poly.
split; first exact: fib_start.
by run 300%nat.
Qed.

(** The Fibonacci numbers in every field. *)
Theorem C112_fibonacci : forall (cfg : Cfg) (p : Prop) (E : Type) (F : fieldType)
    (rep : E -> F -> Prop) (A : FieldAlg E),
  field_alg_spec cfg p rep A ->
  forall n : nat, gives p rep (fibonacci cfg A (Z.of_nat n)) (fib n)%:R%R.
Proof. exact fibonacci_ok. Qed.
Print Assumptions C112_fibonacci.
(** The 20th is 6765, and 3 modulo 7. *)
Example C112_fibonacci_case :
  field_alg_spec debug64 False qq_rep (QQ debug64) /\
  fib 20 = 6765 /\
  returns (fibonacci debug64 (QQ debug64) 20) (6765, 1)%Z /\
  returns (fibonacci debug64 (QuotientField debug64 ZZ 7%Z) 20) 3%Z.
Proof.
split; first exact: qq_field.
split; first by vm_compute.
by split; run 300%nat.
Qed.
