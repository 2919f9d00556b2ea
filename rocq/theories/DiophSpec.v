(** * DiophSpec.v -- client programs for linear equations in two unknowns.

    A solution of a x + b y = c in a Euclidean domain, with calls of the crate:

      let (g, s, t) = dom.extended_gcd(&a, &b);
      if dom.is_zero(&g) {
          return if dom.is_zero(&c) { Some((dom.zero(), dom.zero())) } else { None };
      }
      if !dom.divisible(&c, &g) { return None; }
      let q = dom.quo(&c, &g);
      Some((dom.mul(&s, &q), dom.mul(&t, &q)))

    and from one solution another one, for a parameter r:

      let g = dom.gcd(&a, &b);
      (dom.add(&x, &dom.mul(&r, &dom.quo(&b, &g))),
       dom.sub(&y, &dom.mul(&r, &dom.quo(&a, &g)))) *)

From Coq Require Import ZArith.
From mathcomp Require Import all_ssreflect.
From Verif Require Import Rust Traits.

Set Implicit Arguments.
Unset Strict Implicit.
Unset Printing Implicit Defensive.

Section Solve.
Variables (E : Type) (A : EuclAlg E).

Definition solve (a b c : E) : M (option (E * E)) :=
  let! gst := extended_gcd A a b in
  let! d := is_zero A gst.1.1 in
  if d then
    let! e := is_zero A c in
    if e then
      let! x := zero A in
      let! y := zero A in
      ret (Some (x, y))
    else ret None
  else
    let! e := divisible A c gst.1.1 in
    if e then
      let! q := quo A c gst.1.1 in
      let! x := mul A gst.1.2 q in
      let! y := mul A gst.2 q in
      ret (Some (x, y))
    else ret None.

Definition shift (a b x y r : E) : M (E * E) :=
  let! g := gcd A a b in
  let! b' := quo A b g in
  let! u := mul A r b' in
  let! x' := add A x u in
  let! a' := quo A a g in
  let! v := mul A r a' in
  let! y' := Traits.sub A y v in
  ret (x', y').
End Solve.
