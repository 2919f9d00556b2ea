(** * HaltSpec.v -- calls that come to an end. *)

From Coq Require Import ZArith.
From mathcomp Require Import all_ssreflect.
From Verif Require Import Rust Traits.

Set Implicit Arguments.
Unset Strict Implicit.
Unset Printing Implicit Defensive.

(** The call returns a value satisfying [Q] or it panics: it does not run forever. It
    has the shape of a relation between two calls, as wanted by ProfSpec.v, but says
    nothing about the second one. *)
Definition halts T (Q : T -> Prop) (m _ : M T) : Prop :=
  (exists v, returns m v /\ Q v) \/ panics m.

(** Every isize number is allowed as a multiplicity or an exponent. *)
Definition every_num (n : Z) : Prop := True.

(** What Euclid's algorithm needs in order to end: the constant zero is zero, and the
    constants are equal to themselves. No other law is assumed. *)
Definition sane_constants E (A : RingAlg E) : Prop :=
  [/\ forall z, returns (zero A) z -> returns (is_zero A z) true,
      forall z, returns (zero A) z -> returns (equals A z z) true &
      forall o, returns (one A) o -> returns (equals A o o) true].
