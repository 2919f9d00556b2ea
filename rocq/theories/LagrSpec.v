(** * LagrSpec.v -- a client program that finds the value at z of the polynomial of smallest
    degree through given points (Lagrange), as in the reconstruction of a shared secret.

      let mut sum = field.zero();
      for (x, y) in points {
          let mut t = y.clone();
          for (v, _) in points {
              if !field.equals(x, v) {
                  let q = field.div(&field.sub(&z, v), &field.sub(x, v));
                  t = field.mul(&t, &q);
              }
          }
          sum = field.add(&sum, &t);
      }
      sum *)

From Coq Require Import ZArith.
From mathcomp Require Import all_ssreflect.
From Verif Require Import Rust Traits.

Set Implicit Arguments.
Unset Strict Implicit.
Unset Printing Implicit Defensive.

Section Program.
Variables (E : Type) (A : FieldAlg E).

Fixpoint lagrange_term (z x t : E) (points : seq (E * E)) : M E :=
  if points is (v, _) :: points' then
    let! b := equals A x v in
    if b then lagrange_term z x t points'
    else
      let! n := sub A z v in
      let! d := sub A x v in
      let! q := fdiv A n d in
      let! t' := mul A t q in
      lagrange_term z x t' points'
  else ret t.
Fixpoint lagrange_sum (z : E) (all : seq (E * E)) (sum : E) (points : seq (E * E)) : M E :=
  if points is (x, y) :: points' then
    let! t := lagrange_term z x y all in
    let! sum' := add A sum t in
    lagrange_sum z all sum' points'
  else ret sum.
Definition lagrange (points : seq (E * E)) (z : E) : M E :=
  let! s := zero A in
  lagrange_sum z points s points.
End Program.
