(** * FactSpec.v -- products of lists, computed with the methods of the crate.

      let mut z = ring.one();
      for x in xs.iter().rev() { z = ring.mul(x, &z); } *)

From mathcomp Require Import all_ssreflect.
From Verif Require Import Rust Traits.

Set Implicit Arguments.
Unset Strict Implicit.
Unset Printing Implicit Defensive.

Fixpoint product (E : Type) (A : MonoidAlg E) (xs : list E) : M E :=
  if xs is x :: xs' then let! z := product A xs' in mul A x z else one A.
