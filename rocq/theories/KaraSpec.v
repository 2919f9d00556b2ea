(** * KaraSpec.v -- a client program that multiplies by the method of Karatsuba: with three
    products of halves instead of four. The halves are taken modulo the first element of
    [bases], such as a power of x or of 10; the recursion goes on with the others.

      fn karatsuba(ring, bases, x, y) {
          if let Some((m, bases)) = bases.split_first() {
              let (x1, x0) = ring.quo_rem(&x, m);
              let (y1, y0) = ring.quo_rem(&y, m);
              let z2 = karatsuba(ring, bases, &x1, &y1);
              let z0 = karatsuba(ring, bases, &x0, &y0);
              let t = karatsuba(ring, bases, &ring.add(&x1, &x0), &ring.add(&y1, &y0));
              let z1 = ring.sub(&ring.sub(&t, &z2), &z0);
              let h = ring.add(&ring.mul(&z2, m), &z1);
              ring.add(&ring.mul(&h, m), &z0)
          } else { ring.mul(&x, &y) }
      } *)

From Coq Require Import ZArith.
From mathcomp Require Import all_ssreflect.
From Verif Require Import Rust Traits.

Set Implicit Arguments.
Unset Strict Implicit.
Unset Printing Implicit Defensive.

Section Program.
Variables (E : Type) (A : EuclAlg E).

Fixpoint karatsuba (bases : seq E) (x y : E) : M E :=
  if bases is m :: bases' then
    let! u := quo_rem A x m in
    let! v := quo_rem A y m in
    let! z2 := karatsuba bases' u.1 v.1 in
    let! z0 := karatsuba bases' u.2 v.2 in
    let! a := add A u.1 u.2 in
    let! b := add A v.1 v.2 in
    let! t := karatsuba bases' a b in
    let! t' := sub A t z2 in
    let! z1 := sub A t' z0 in
    let! h := mul A z2 m in
    let! h' := add A h z1 in
    let! l := mul A h' m in
    add A l z0
  else mul A x y.
End Program.
