(** * CountSpec.v -- the values that [contains] accepts. *)

From mathcomp Require Import all_ssreflect.
From Verif Require Import Rust Traits.

Set Implicit Arguments.
Unset Strict Implicit.
Unset Printing Implicit Defensive.

Definition accepted (E : Type) (A : Domain E) (x : E) : Prop := returns (contains A x) true.

(** The members of MultiplicativeGroup { base }: members of the base that the group
    accepts. *)
Definition unit_member (cfg : Cfg) (E : Type) (A : MonoidAlg E) (x : E) : Prop :=
  accepted A x /\ accepted (MultiplicativeGroup cfg A) x.

(** The number of lists of [n] linearly independent vectors of length [n] over a field
    with [q] elements. *)
Definition GL_order (q n : nat) : nat := \prod_(i < n) (q ^ n - q ^ i).
