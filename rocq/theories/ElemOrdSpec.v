(** * ElemOrdSpec.v -- a client program for the order of an element in the multiplicative group
    of a field, given a power that is 1 and the primes in its exponent.

      let mut n = n;
      for r in primes {
          if n % r == 0 && field.is_one(&field.power(n / r, &x)) { n /= r; }
      }
      n *)

From Coq Require Import ZArith.
From mathcomp Require Import all_ssreflect.
From Verif Require Import Rust Traits.

Set Implicit Arguments.
Unset Strict Implicit.
Unset Printing Implicit Defensive.

Section Program.
Variables (E : Type) (A : FieldAlg E).

Fixpoint element_order (n : nat) (primes : seq nat) (x : E) : M nat :=
  if primes is r :: primes' then
    let! b := (if n %% r == 0 then
                 let! y := fpower A (Z.of_nat (n %/ r)) x in is_one A y
               else ret false) in
    element_order (if b then n %/ r else n) primes' x
  else ret n.
End Program.
