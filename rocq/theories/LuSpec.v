(** * LuSpec.v -- Gaussian elimination in rounded real arithmetic, and how far the product
    of its triangular factors may be from the matrix. *)

From Coq Require Import ZArith Reals.
From mathcomp Require Import all_ssreflect.
From Flocq Require Import Core BinarySingleNaN.
From Verif Require Import FloatSpec FloatErrSpec.

Set Implicit Arguments.
Unset Strict Implicit.
Unset Printing Implicit Defensive.

Section Lu.
Variables (prec emax : Z).
Local Notation rnd := (rounded prec emax).
Local Notation u := (unit_error prec).
Local Notation eta := (tiny_error prec emax).
Implicit Types (n k t i j : nat) (X : nat -> nat -> nat -> R).

(** [s] is a permutation of the numbers below [n]. *)
Definition permutes n (s : nat -> nat) : Prop :=
  (forall i, i < n -> s i < n) /\
  (forall i j, i < n -> j < n -> s i = s j -> i = j).

(** [X t] is the matrix after [t] of [k] steps of the elimination of a matrix of size [n].
    Step [t] multiplies row [t] by the reciprocal of the pivot [X t t t], which is not zero,
    and subtracts multiples of it from the rows below.  Only the columns to the right of
    column [t] matter afterwards; rows are not exchanged. *)
Record elimination n k X : Prop := {
  el_pivot : forall t, t < k -> X t t t <> 0%R;
  el_bound : forall t, t < k -> (Rabs (X t t t) < bpow radix2 emax)%R;
  el_row : forall t j, t < k -> t < j < n -> X t.+1 t j = rnd (X t t j * rnd (/ X t t t));
  el_below : forall t i j, t < k -> t < i < n -> t < j < n ->
    X t.+1 i j = rnd (X t i j + rnd (X t.+1 t j * - X t i t))
}.

(** The product of the first [k] pivots, rounded after every multiplication. *)
Fixpoint pivot_product X k : R :=
  if k is t.+1 then rnd (pivot_product X t * X t t t) else 1%R.

(** ** The factors *)
(** The lower factor: the numbers that were eliminated, and on the diagonal the number by
    which the row was divided. *)
Definition lower X i t : R :=
  (if (t < i)%N then X t i t else if t == i then / rnd (/ X t t t) else 0)%R.
(** The upper factor: the scaled rows. *)
Definition upper X t j : R := (if (t < j)%N then X t.+1 t j else if t == j then 1 else 0)%R.
(** What is left of the matrix after [k] steps. *)
Definition rest X k i j : R := (if ((k <= i) && (k <= j))%N then X k i j else 0)%R.

Definition total_of (k : nat) (f : nat -> R) : R := sum_of [seq f t | t <- iota 0 k].
Fixpoint prod_of (k : nat) (f : nat -> R) : R :=
  if k is t.+1 then (prod_of t f * f t)%R else 1%R.

(** The matrix that [k] exact steps with these factors would reduce to the rest. *)
Definition factored X k i j : R :=
  (total_of k (fun t => lower X i t * upper X t j) + rest X k i j)%R.
Definition factored_size X k i j : R :=
  (total_of k (fun t => Rabs (lower X i t * upper X t j)) + Rabs (rest X k i j))%R.

(** The bound for the difference between the matrix and the product of the factors. *)
Definition factor_error X k i j : R :=
  (((1 + u) ^ (k + 5) - 1) * factored_size X k i j +
   (1 + u) ^ k * (2 * INR k + (if (i < k)%N then Rabs (lower X i i) else 0)) * eta)%R.

(** The bound for the difference between the computed product of the pivots and the product
    of the diagonal of the lower factor: six roundings for each pivot, and what is lost
    by underflow. *)
Fixpoint lost X k : R :=
  if k is t.+1 then ((1 + u) ^ 6 * Rabs (lower X t t) * lost X t + eta)%R else 0%R.
Definition product_error X k : R :=
  (((1 + u) ^ (6 * k) - 1) * Rabs (prod_of k (fun t => lower X t t)) + lost X k)%R.
End Lu.
