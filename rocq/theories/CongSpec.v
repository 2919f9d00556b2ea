(** * CongSpec.v -- a client program for simultaneous congruences, with moduli that need not
    be relatively prime. [solve] is the client program of DiophSpec.v.

      let (mut m, mut x) = (ring.one(), ring.zero());
      for (n, a) in congruences {
          let (u, _) = solve(&ring, &m, n, &ring.sub(a, &x))?;
          x = ring.add(&x, &ring.mul(&m, &u));
          m = ring.lcm(&m, n);
          x = ring.rem(&x, &m);
      }
      Some((m, x)) *)

From Coq Require Import ZArith.
From mathcomp Require Import all_ssreflect.
From Verif Require Import Rust Traits DiophSpec.

Set Implicit Arguments.
Unset Strict Implicit.
Unset Printing Implicit Defensive.

Section Program.
Variables (E : Type) (A : EuclAlg E).

Fixpoint congruences_from (m x : E) (l : seq (E * E)) : M (option (E * E)) :=
  if l is (n, a) :: l' then
    let! d := sub A a x in
    let! o := solve A m n d in
    if o is Some w then
      let! t := mul A m w.1 in
      let! y := add A x t in
      let! m' := lcm A m n in
      let! x' := rem A y m' in
      congruences_from m' x' l'
    else ret None
  else ret (Some (m, x)).
Definition congruences (l : seq (E * E)) : M (option (E * E)) :=
  let! o := one A in
  let! z := zero A in
  congruences_from o z l.
End Program.
