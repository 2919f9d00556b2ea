(** * BatchSpec.v -- a client program that inverts many elements of a field with a single
    call of [inv].

      let mut prefix = vec![];
      let mut e = field.one();
      for x in xs { prefix.push(e.clone()); e = field.mul(&e, x); }
      let mut i = field.inv(&e);
      let mut ys = vec![];
      for (x, e) in xs.iter().zip(prefix.iter()).rev() {
          ys.push(field.mul(&i, e));
          i = field.mul(&i, x);
      }
      ys.reverse();

    The recursion below makes the calls in this order; the vector [prefix] is its stack. *)

From Coq Require Import ZArith.
From mathcomp Require Import all_ssreflect.
From Verif Require Import Rust Traits.

Set Implicit Arguments.
Unset Strict Implicit.
Unset Printing Implicit Defensive.

Section Program.
Variables (E : Type) (A : FieldAlg E).

Fixpoint batch_loop (e : E) (xs : seq E) : M (E * seq E) :=
  if xs is x :: xs' then
    let! e' := mul A e x in
    let! t := batch_loop e' xs' in
    let! y := mul A t.1 e in
    let! i := mul A t.1 x in
    ret (i, y :: t.2)
  else let! i := finv A e in ret (i, [::]).

Definition batch_inv (xs : seq E) : M (seq E) :=
  let! o := one A in
  let! t := batch_loop o xs in
  ret t.2.
End Program.
