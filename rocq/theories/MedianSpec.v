(** * MedianSpec.v -- a client program that takes the median of three elements of a lattice.

      let a = lattice.meet(&x, &y);
      let b = lattice.meet(&y, &z);
      let c = lattice.meet(&z, &x);
      let d = lattice.join(&a, &b);
      lattice.join(&d, &c) *)

From mathcomp Require Import all_ssreflect.
From Verif Require Import Rust Traits.

Set Implicit Arguments.
Unset Strict Implicit.
Unset Printing Implicit Defensive.

Definition median E (A : LatticeAlg E) (x y z : E) : M E :=
  let! a := meet A x y in
  let! b := meet A y z in
  let! c := meet A z x in
  let! d := join A a b in
  join A d c.
