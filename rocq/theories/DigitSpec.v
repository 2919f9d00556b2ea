(** * DigitSpec.v -- client programs that write x with n digits to the base m, and back:
    x = d_0 + d_1 m + ... + d_(n-1) m^(n-1) + q m^n.

      let mut digits = vec![];
      let mut q = x;
      for _ in 0..n {
          let (a, r) = ring.quo_rem(&q, &m);
          digits.push(r);
          q = a;
      }
      (digits, q)

      digits.iter().rev().fold(q, |x, d| ring.add(&ring.mul(&x, &m), d)) *)

From Coq Require Import ZArith.
From mathcomp Require Import all_ssreflect.
From Verif Require Import Rust Traits.

Set Implicit Arguments.
Unset Strict Implicit.
Unset Printing Implicit Defensive.

Section Program.
Variables (E : Type) (A : EuclAlg E).

Fixpoint to_digits (m : E) (n : nat) (x : E) : M (seq E * E) :=
  if n is n'.+1 then
    let! qr := quo_rem A x m in
    let! t := to_digits m n' qr.1 in
    ret (qr.2 :: t.1, t.2)
  else ret ([::], x).
Fixpoint from_digits (m : E) (ds : seq E) (q : E) : M E :=
  if ds is d :: ds' then
    let! x := from_digits m ds' q in
    let! y := mul A x m in
    add A y d
  else ret q.
End Program.
