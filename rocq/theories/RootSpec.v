(** * RootSpec.v -- a client program for quadratic equations over finite fields.

    The roots of x^2 + b x + c in a field with k elements, k = 3 modulo 4:

      let two = field.add(&field.one(), &field.one());
      let four = field.add(&two, &two);
      let d = field.sub(&field.mul(&b, &b), &field.mul(&four, &c));
      let y = field.power((k + 1) / 4, &d);
      if !field.equals(&field.mul(&y, &y), &d) { return None; }
      let n = field.neg(&b);
      Some((field.div(&field.add(&n, &y), &two), field.div(&field.sub(&n, &y), &two))) *)

From Coq Require Import ZArith.
From mathcomp Require Import all_ssreflect.
From Verif Require Import Rust Traits.

Set Implicit Arguments.
Unset Strict Implicit.
Unset Printing Implicit Defensive.

Definition quadratic (E : Type) (A : FieldAlg E) (k : nat) (b c : E) : M (option (E * E)) :=
  let! o := one A in
  let! two := add A o o in
  let! four := add A two two in
  let! s := mul A b b in
  let! t := mul A four c in
  let! d := Traits.sub A s t in
  let! y := fpower A (Z.of_nat (k.+1 %/ 4)) d in
  let! z := mul A y y in
  let! e := equals A z d in
  if e then
    let! n := neg A b in
    let! u := add A n y in
    let! v := Traits.sub A n y in
    let! x1 := fdiv A u two in
    let! x2 := fdiv A v two in
    ret (Some (x1, x2))
  else ret None.
