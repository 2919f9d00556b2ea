(** * DetLaw.v -- the laws of inverses and determinants of matrices as statements about
    calls.

    As in Laws.v: only methods of the traits, [determinant], [transpose] and the set [mem]
    of members occur. [R] is the ring of the matrices, [A] the field of their entries. *)

From Coq Require Import ZArith.
From mathcomp Require Import all_ssreflect.
From Verif Require Import Rust Traits MConstr Laws.

Set Implicit Arguments.
Unset Strict Implicit.
Unset Printing Implicit Defensive.

(** The results of the two calls are equal up to the sign. *)
Definition alike {E} (A : FieldAlg E) (m1 m2 : M E) : M bool :=
  let! a := m1 in let! b := m2 in
  either (equals A a b) (let! c := neg A b in equals A a c).

Section Laws.
Variables (p : Prop) (E : Type) (A : FieldAlg E) (n : nat).
Variables (R : RingAlg (seq E)) (mem : seq E -> Prop).
Local Notation holds := (holds p).
Local Notation det := (determinant A n).
Local Notation tr := (matrix_transpose n).

Record inverse_laws : Prop := {
  iv_invertible : forall x, mem x -> holds (agree
    (invertible R x) (let! o := try_inv R x in ret (isSome o)));
  iv_one : holds (let! e := one R in let! o := try_inv R e in
    if o is Some y then same R (ret y) (one R) else ret false);
  iv_twice : forall x, mem x -> holds (let! o := try_inv R x in
    if o is Some y then
      let! o := try_inv R y in if o is Some z then equals R z x else ret false
    else ret true);
  iv_unique : forall x y, mem x -> mem y -> holds (let! a := mul R x y in let! b := is_one R a in
    if b then let! o := try_inv R x in if o is Some z then equals R z y else ret false
    else ret true);
  iv_one_sided : forall x y, mem x -> mem y -> holds (agree
    (let! a := mul R x y in is_one R a) (let! a := mul R y x in is_one R a));
  iv_mul : forall x y, mem x -> mem y -> holds (
    let! a := try_inv R x in let! b := try_inv R y in
    let! xy := mul R x y in let! c := try_inv R xy in
    match a, b, c with
    | Some a, Some b, Some c => same R (mul R b a) (ret c)
    | Some _, Some _, None => ret false
    | _, _, None => ret true
    | _, _, Some _ => ret false
    end);
  iv_solve : forall x y, mem x -> mem y -> holds (let! o := try_inv R x in
    if o is Some a then both
      (same R (let! z := mul R a y in mul R x z) (ret y))
      (same R (let! z := mul R y a in mul R z x) (ret y))
    else ret true);
  iv_divisor : forall x y, mem x -> mem y -> holds (let! xy := mul R x y in
    entails (both (invertible R x) (is_zero R xy)) (is_zero R y))
}.

Record determinant_laws : Prop := {
  dl_member : forall x, mem x -> holds (member A (det x));
  dl_one : holds (same A (let! e := one R in det e) (one A));
  dl_zero : (0 < n)%N -> holds (same A (let! o := zero R in det o) (zero A));
  dl_mul : forall x y, mem x -> mem y -> holds (alike A
    (let! a := mul R x y in det a) (let! a := det x in let! b := det y in mul A a b));
  dl_swap : forall x y, mem x -> mem y -> holds (alike A
    (let! a := mul R x y in det a) (let! a := mul R y x in det a));
  dl_neg : forall x, mem x -> holds (alike A (let! a := neg R x in det a) (det x));
  dl_transpose : forall x, mem x -> holds (alike A (let! a := tr x in det a) (det x));
  dl_invertible : forall x, mem x -> holds (agree
    (invertible R x) (let! d := det x in notM (is_zero A d)));
  dl_inverse : forall x, mem x -> holds (let! o := try_inv R x in
    if o is Some y then alike A (let! a := det x in let! b := det y in mul A a b) (one A)
    else same A (det x) (zero A));
  dl_two : returns (let! e := one A in let! t := add A e e in is_zero A t) true ->
    forall x y, mem x -> mem y -> holds (same A
      (let! a := mul R x y in det a) (let! a := det x in let! b := det y in mul A a b))
}.
End Laws.
