(** * GcdsSpec.v -- client programs: gcd and lcm of a list of elements.

      xs.iter().fold(ring.zero(), |d, x| ring.gcd(&d, x))
      xs.iter().fold(ring.one(), |m, x| ring.lcm(&m, x)) *)

From Coq Require Import ZArith.
From mathcomp Require Import all_ssreflect.
From Verif Require Import Rust Traits.

Set Implicit Arguments.
Unset Strict Implicit.
Unset Printing Implicit Defensive.

Section Program.
Variables (E : Type) (A : EuclAlg E).

Fixpoint gcd_from (d : E) (xs : seq E) : M E :=
  if xs is x :: xs' then let! d' := gcd A d x in gcd_from d' xs' else ret d.
Definition gcds (xs : seq E) : M E := let! z := zero A in gcd_from z xs.

Fixpoint lcm_from (m : E) (xs : seq E) : M E :=
  if xs is x :: xs' then let! m' := lcm A m x in lcm_from m' xs' else ret m.
Definition lcms (xs : seq E) : M E := let! o := one A in lcm_from o xs.
End Program.
