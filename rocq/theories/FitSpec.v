(** * FitSpec.v -- vocabulary for the theorems on matrices of machine fractions.

    [sub f g X] is the matrix of the rows [f 0], [f 1], ... and the columns [g 0],
    [g 1], ... of [X]; its determinant is a minor.  [minors_within M N]: no minor of the
    integer matrix [N] exceeds [M] in absolute value.  [frac_entries v N]: the vector
    lists the entries of the integer matrix [N], row by row, as fractions with
    denominator 1. *)

From mathcomp Require Import all_ssreflect all_algebra zify ssrZ.
From Coq Require Import ZArith.

Set Implicit Arguments.
Unset Strict Implicit.
Unset Printing Implicit Defensive.

Local Open Scope ring_scope.

Definition sub (R : ringType) (I J : Type) (m : nat) (f : 'I_m -> I) (g : 'I_m -> J)
    (X : I -> J -> R) : 'M[R]_m := \matrix_(a, b) X (f a) (g b).

Definition minors_within (n : nat) (M : Z) (N : 'M[Z]_n) : Prop :=
  forall m (f g : 'I_m -> 'I_n), (Z.abs (\det (sub f g N)) <= M)%Z.

Definition frac_entries (n : nat) (v : seq (Z * Z)) (N : 'M[Z]_n) : Prop :=
  size v = (n * n)%nat /\
  forall i j : 'I_n, nth (0%Z, 1%Z) v (i * n + j) = (N i j, 1%Z).

(** The matrix of the examples, and the vector of its entries. *)
Definition int_matrix (n : nat) (s : seq (seq Z)) : 'M[Z]_n :=
  \matrix_(i, j) nth 0%Z (nth [::] s i) j.
Definition ex_int : 'M[Z]_2 := int_matrix 2 [:: [:: 0; 2]; [:: 3; 4]]%Z.
Definition ex_frac : seq (Z * Z) := [:: (0, 1); (2, 1); (3, 1); (4, 1)]%Z.
