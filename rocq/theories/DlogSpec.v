(** * DlogSpec.v -- a client program for discrete logarithms: the smallest n < m * m with
    g^n = h, by baby steps and giant steps.

      let mut table = vec![];
      let mut e = field.one();
      for _ in 0..m { table.push(e.clone()); e = field.mul(&e, &g); }
      let c = field.inv(&e);
      let mut x = h;
      for i in 0..m {
          if let Some(j) = table.iter().position(|y| field.equals(&x, y)) {
              return Some(i * m + j);
          }
          x = field.mul(&x, &c);
      }
      None *)

From Coq Require Import ZArith.
From mathcomp Require Import all_ssreflect.
From Verif Require Import Rust Traits.

Set Implicit Arguments.
Unset Strict Implicit.
Unset Printing Implicit Defensive.

Section Program.
Variables (E : Type) (A : FieldAlg E).

Fixpoint baby_steps (g e : E) (n : nat) : M (seq E * E) :=
  if n is n'.+1 then
    let! e' := mul A e g in
    let! t := baby_steps g e' n' in
    ret (e :: t.1, t.2)
  else ret ([::], e).

Fixpoint position (x : E) (t : seq E) (j : nat) : M (option nat) :=
  if t is y :: t' then
    let! b := equals A x y in
    if b then ret (Some j) else position x t' j.+1
  else ret None.

Fixpoint giant_steps (t : seq E) (c : E) (m : nat) (x : E) (i n : nat) : M (option nat) :=
  if n is n'.+1 then
    let! o := position x t 0 in
    if o is Some j then ret (Some (i * m + j))
    else let! x' := mul A x c in giant_steps t c m x' i.+1 n'
  else ret None.

Definition discrete_log (m : nat) (g h : E) : M (option nat) :=
  let! o := one A in
  let! te := baby_steps g o m in
  let! c := finv A te.2 in
  giant_steps te.1 c m h 0 m.
End Program.
