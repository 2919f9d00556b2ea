(** * JordanSpec.v -- Gauss-Jordan elimination in rounded real arithmetic, and how far the
    computed inverse may be from one. *)

From Coq Require Import ZArith Reals.
From mathcomp Require Import all_ssreflect.
From Flocq Require Import Core BinarySingleNaN.
From Verif Require Import FloatSpec FloatErrSpec LuSpec.

Set Implicit Arguments.
Unset Strict Implicit.
Unset Printing Implicit Defensive.

Section Jordan.
Variables (prec emax : Z).
Local Notation rnd := (rounded prec emax).
Local Notation u := (unit_error prec).
Local Notation eta := (tiny_error prec emax).
Implicit Types (n k t i j : nat) (W : nat -> nat -> nat -> R) (y : nat -> R).

(** [W t] is a matrix with [n] rows and [2 n] columns after [t] of [k] steps.  Step [t]
    multiplies row [t] by the reciprocal of the pivot [W t t t], which is not zero, and
    subtracts multiples of it from all other rows.  Only the columns to the right of column
    [t] matter afterwards; rows are not exchanged. *)
Record jordan n k W : Prop := {
  jd_pivot : forall t, t < k -> W t t t <> 0%R;
  jd_bound : forall t, t < k -> (Rabs (W t t t) < bpow radix2 emax)%R;
  jd_row : forall t j, t < k -> t < j < n + n -> W t.+1 t j = rnd (W t t j * rnd (/ W t t t));
  jd_other : forall t i j, t < k -> i < n -> i <> t -> t < j < n + n ->
    W t.+1 i j = rnd (W t i j + rnd (W t.+1 t j * - W t i t))
}.

(** ** Undoing the steps without errors *)
(** The numbers by which row [t] is multiplied to restore the rows before step [t]. *)
Definition multiplier W t i : R := if i == t then (/ rnd (/ W t t t))%R else W t i t.
(** A column before step [t] from the column after it, ... *)
Definition undo W t y i : R := ((if i == t then 0 else y i) + multiplier W t i * y t)%R.
(** ... and before the first [k] steps. *)
Fixpoint undo_all W k y : nat -> R := if k is t.+1 then undo_all W t (undo W t y) else y.

(** The same with the absolute values of the multipliers. *)
Definition grow W t y i : R := ((if i == t then 0 else y i) + Rabs (multiplier W t i) * y t)%R.
Fixpoint grow_all W k y : nat -> R := if k is t.+1 then grow_all W t (grow W t y) else y.

(** What underflow adds in the first [k] steps. *)
Definition small W t i : R := ((if i == t then Rabs (multiplier W t t) else 2) * eta)%R.
Fixpoint underflow W k i : R :=
  if k is t.+1 then (underflow W t i + grow_all W t (small W t) i)%R else 0%R.

(** The bound for the difference between entry [i], [j] of the product of the matrix and its
    computed inverse [X] and the identity matrix. *)
Definition column (X : nat -> nat -> R) j i : R := Rabs (X i j).
Definition residual_error n W X i j : R :=
  (2 * ((1 + u) ^ (n + 5) - 1) * grow_all W n (column X j) i +
   (1 + u) ^ n * underflow W n i * (1 + total_of n (column X j)))%R.

(** The matrix that [k] exact steps with these multipliers reduce to one with [k] columns of
    the identity matrix, and the bound for its distance from the matrix. *)
Definition unit_column t i : R := if i == t then 1%R else 0%R.
Definition after_steps W k j : nat -> R :=
  if j < k then unit_column j else fun i => W k i j.
Definition jordan_error W k i j : R :=
  (((1 + u) ^ (k + 5) - 1) * grow_all W k (fun i => Rabs (after_steps W k j i)) i +
   (1 + u) ^ k * underflow W k i)%R.
End Jordan.
