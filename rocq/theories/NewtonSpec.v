(** * NewtonSpec.v -- a client program: Newton's iteration for inverses of residues. It turns
    an inverse [b] of [a] modulo [m] into an inverse modulo m^(2^k).

      let two = ring.add(&ring.one(), &ring.one());
      for _ in 0..k {
          m = ring.mul(&m, &m);
          let t = ring.sub(&two, &ring.mul(&a, &b));
          b = ring.rem(&ring.mul(&b, &t), &m);
      }
      (m, b) *)

From Coq Require Import ZArith.
From mathcomp Require Import all_ssreflect.
From Verif Require Import Rust Traits.

Set Implicit Arguments.
Unset Strict Implicit.
Unset Printing Implicit Defensive.

Section Program.
Variables (E : Type) (A : EuclAlg E).

Fixpoint newton_loop (two a : E) (k : nat) (m b : E) : M (E * E) :=
  if k is k'.+1 then
    let! m' := mul A m m in
    let! s := mul A a b in
    let! t := Traits.sub A two s in
    let! u := mul A b t in
    let! b' := rem A u m' in
    newton_loop two a k' m' b'
  else ret (m, b).

Definition newton (k : nat) (a m b : E) : M (E * E) :=
  let! o := one A in
  let! two := add A o o in
  newton_loop two a k m b.
End Program.
