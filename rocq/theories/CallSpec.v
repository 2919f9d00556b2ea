(** * CallSpec.v -- comparing calls with each other. *)

From Coq Require Import ZArith List.
From mathcomp Require Import all_ssreflect.
From Verif Require Import Rust Traits.

Set Implicit Arguments.
Unset Strict Implicit.
Unset Printing Implicit Defensive.

(** The two calls return the same value, or both panic, or both run forever. *)
Definition same_call {A : Type} (m1 m2 : M A) : Prop :=
  [/\ forall v, returns m1 v <-> returns m2 v, panics m1 <-> panics m2 &
      diverges m1 <-> diverges m2].

(** The same, and the two calls also need the same numbers of iterations. *)
Definition same_run {A : Type} (m1 m2 : M A) : Prop := forall k, m1 k = m2 k.

(** The methods that change their argument agree with the ones that return a value,
    for all arguments. *)
Record inplace_mul E (A : Semigroup E) : Prop := {
  inplace_mul_assign : forall x y, same_run (mul_assign A x y) (mul A x y);
  inplace_square : forall x, same_run (square A x) (mul A x x)
}.
Record inplace_add E (A : CommMonoid E) : Prop := {
  inplace_add_assign : forall x y, same_run (add_assign A x y) (add A x y);
  inplace_double : forall x, same_run (double A x) (add A x x)
}.
Record inplace_neg E (A : AbelianGroup E) : Prop := {
  inplace_neg_assign : forall x, same_run (neg_assign A x) (neg A x)
}.
Record inplace_ring E (A : RingAlg E) : Prop := {
  ring_inplace_mul : inplace_mul A;
  ring_inplace_add : inplace_add A;
  ring_inplace_neg : inplace_neg A
}.
