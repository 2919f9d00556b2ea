(** * IrrSpec.v -- a client program that tests a modulus for irreducibility.

    [QuotientField::new] does not check that its modulus is irreducible
    (quotient_field.rs:33-37). The program below decides it with calls of the crate
    only, by the test of Ben-Or: the polynomial [v] of degree n over a field with [k]
    elements is irreducible when it has no common factor with X^(k^i) - X for
    i = 1, ..., n/2. The powers of X are computed in the quotient ring by [v]:

      let q = QuotientRing::new(ring.clone(), v.clone());
      let x = ring.rem(&vec![field.zero(), field.one()], &v);
      let mut y = x.clone();
      for _ in 0..(v.len() - 1) / 2 {
          let mut z = q.one();
          for _ in 0..k { q.mul_assign(&mut z, &y); }
          y = z;
          if !ring.relative_primes(&v, &ring.sub(&y, &x)) { return false; }
      }
      true *)

From Coq Require Import ZArith.
From mathcomp Require Import all_ssreflect.
From Verif Require Import Rust Traits MConstr.

Set Implicit Arguments.
Unset Strict Implicit.
Unset Printing Implicit Defensive.

Section Test.
Variables (cfg : Cfg) (E : Type) (A : FieldAlg E) (k : nat) (v : seq E).
Local Notation ring := (PolyEucl A).
Local Notation q := (QuotientRing cfg ring v).

Fixpoint raise (y : seq E) (n : nat) (z : seq E) : M (seq E) :=
  if n is n'.+1 then let! z' := mul_assign q z y in raise y n' z' else ret z.

Fixpoint no_common_factor (x y : seq E) (n : nat) : M bool :=
  if n is n'.+1 then
    let! z := one q in
    let! y' := raise y k z in
    let! d := Traits.sub ring y' x in
    let! b := relative_primes ring v d in
    if b then no_common_factor x y' n' else ret false
  else ret true.

Definition irreducible_test : M bool :=
  let! o := zero A in
  let! l := one A in
  let! x := rem ring [:: o; l] v in
  no_common_factor x x (length v).-1./2.
End Test.
