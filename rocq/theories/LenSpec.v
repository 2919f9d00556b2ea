(** * LenSpec.v -- what the methods of matrices and vectors do with vectors of a wrong
    length. *)

From Coq Require Import ZArith.
From mathcomp Require Import all_ssreflect.
From Verif Require Import Rust Traits MInts MConstr.

Set Implicit Arguments.
Unset Strict Implicit.
Unset Printing Implicit Defensive.

(** The multiple of a vector [v] of a wrong length: nothing is looked at if the multiple is
    zero, and otherwise the call panics. *)
Definition multiples_of_wrong E (zero : M E) (times : Z -> E -> M E) (v : E) : Prop :=
  forall z, returns zero z ->
  returns (times 0%Z v) z /\ forall num, num <> 0%Z -> panics (times num v).
(** The same for multiples by natural numbers. *)
Definition nat_multiples_of_wrong E (zero : M E) (times : Z -> E -> M E) (v : E) : Prop :=
  forall z, returns zero z ->
  returns (times 0%Z v) z /\ forall num, (0 < num)%Z -> panics (times num v).
