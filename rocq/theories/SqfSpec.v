(** * SqfSpec.v -- client programs for derivatives and repeated factors.

    The derivative of a polynomial is computed with calls of the crate by the rule
    (P X + c)' = P' X + P, from the leading coefficient downwards:

      let x = vec![field.zero(), field.one()];
      let (mut d, mut p) = (ring.zero(), ring.zero());
      for c in v.iter().rev() {
          let c = if field.is_zero(c) { vec![] } else { vec![c.clone()] };
          d = ring.add(&ring.mul(&d, &x), &p);
          p = ring.add(&ring.mul(&p, &x), &c);
      }

    A polynomial is tested for repeated factors by

      ring.relative_primes(&v, &d) *)

From Coq Require Import ZArith.
From mathcomp Require Import all_ssreflect.
From Verif Require Import Rust Traits MConstr HomLaw.

Set Implicit Arguments.
Unset Strict Implicit.
Unset Printing Implicit Defensive.

Section Test.
Variables (E : Type) (A : FieldAlg E).
Local Notation ring := (PolyEucl A).

Fixpoint derive_loop (x v : seq E) : M (seq E * seq E) :=
  if v is a :: v' then
    let! dp := derive_loop x v' in
    let! c := to_constant A a in
    let! s := mul ring dp.1 x in
    let! d := add ring s dp.2 in
    let! t := mul ring dp.2 x in
    let! q := add ring t c in
    ret (d, q)
  else
    let! d := zero ring in
    let! q := zero ring in
    ret (d, q).

Definition derivative (v : seq E) : M (seq E) :=
  let! o := zero A in
  let! l := one A in
  let! dp := derive_loop [:: o; l] v in
  ret dp.1.

Definition squarefree_test (v : seq E) : M bool :=
  let! d := derivative v in relative_primes ring v d.
End Test.
