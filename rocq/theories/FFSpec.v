(** * FFSpec.v -- the laws of finite fields as statements about calls.

    [k] is the number of elements of the field, [r] its characteristic. All exponents
    are ordinary numbers; they fit in isize because [k] does. *)

From Coq Require Import ZArith.
From mathcomp Require Import all_ssreflect.
From Verif Require Import Rust Traits MConstr Laws.

Set Implicit Arguments.
Unset Strict Implicit.
Unset Printing Implicit Defensive.

Section Laws.
Variables (E : Type) (mem : E -> Prop) (A : FieldAlg E).
Local Notation pw j x := (fpower A (Z.of_nat j) x).
Local Notation nonzero x := (returns (is_zero A x) false).

(** Characteristic [r]: r-fold sums vanish, smaller ones of non-zero elements do not,
    and the r-th power is an automorphism. *)
Record characteristic_laws (r : nat) : Prop := {
  ch_times : forall x, mem x ->
    returns (let! z := ztimes A (Z.of_nat r) x in is_zero A z) true;
  ch_order : forall x j, mem x -> nonzero x -> 0 < j < r ->
    returns (let! z := ztimes A (Z.of_nat j) x in is_zero A z) false;
  ch_int : returns (let! z := int A (Z.of_nat r) in is_zero A z) true;
  ch_add : forall x y, mem x -> mem y ->
    returns (same A (let! z := add A x y in pw r z)
               (let! a := pw r x in let! b := pw r y in add A a b)) true;
  ch_mul : forall x y, mem x -> mem y ->
    returns (same A (let! z := mul A x y in pw r z)
               (let! a := pw r x in let! b := pw r y in mul A a b)) true;
  ch_inj : forall x y z, mem x -> mem y ->
    returns (pw r x) z -> returns (pw r y) z -> x = y;
  ch_surj : forall y, mem y -> exists2 x, mem x & returns (pw r x) y
}.

(** [g] generates the multiplicative group: its powers below k-1 are the non-zero
    elements, each once. *)
Record generates (k : nat) (g : E) : Prop := {
  ge_mem : mem g;
  ge_power : forall j, j < k.-1 -> exists2 x, mem x & returns (pw j g) x /\ nonzero x;
  ge_all : forall x, mem x -> nonzero x -> exists2 j, j < k.-1 & returns (pw j g) x;
  ge_once : forall i j x, i < k.-1 -> j < k.-1 -> returns (pw i g) x -> returns (pw j g) x ->
    i = j
}.

(** Euler: in odd characteristic power((k-1)/2, x) is 1 for the squares and -1 for the
    other non-zero elements; in characteristic 2 all elements are squares. *)
Record square_laws (k : nat) : Prop := {
  sq_even : ~~ odd k -> forall x, mem x -> exists2 y, mem y & returns (mul A y y) x;
  sq_odd : odd k -> forall x, mem x -> nonzero x ->
    (exists2 y, mem y & returns (mul A y y) x) <->
    returns (same A (pw k.-1./2 x) (one A)) true;
  sq_other : odd k -> forall x, mem x -> nonzero x ->
    ~ (exists2 y, mem y & returns (mul A y y) x) <->
    returns (same A (pw k.-1./2 x) (let! z := one A in neg A z)) true
}.
End Laws.
