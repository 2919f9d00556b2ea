(** * ValuSpec.v -- a client program: how often one element divides another.

      let (mut n, mut z) = (0, x);
      while ring.divisible(&z, &y) { z = ring.quo(&z, &y); n += 1; }
      (n, z) *)

From Coq Require Import ZArith.
From mathcomp Require Import all_ssreflect.
From Verif Require Import Rust Traits.

Set Implicit Arguments.
Unset Strict Implicit.
Unset Printing Implicit Defensive.

Definition valuation (E : Type) (A : EuclAlg E) (x y : E) : M (nat * E) :=
  while_loop (fun s => divisible A s.2 y)
    (fun s => let! z := quo A s.2 y in ret (s.1.+1, z)) (0, x).
