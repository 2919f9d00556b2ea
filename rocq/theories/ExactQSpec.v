(** * ExactQSpec.v -- floats as rational numbers, and lists of floats as integer
    polynomials and matrices. *)

From mathcomp Require Import all_ssreflect all_algebra zify ssrZ.
From Coq Require Import ZArith Reals.
From Flocq Require Import Core BinarySingleNaN.
From Verif Require Import FloatSpec FitSpec.

Set Implicit Arguments.
Unset Strict Implicit.
Unset Printing Implicit Defensive.

Local Open Scope ring_scope.

(** The rational numbers, and the integers among them. *)
Notation rationals := [fieldType of {fraction [idomainType of Z]}].
Definition rat_of (a : Z) : rationals := @FracField.tofrac [idomainType of Z] a.

(** The rational number [q] and the real number [r] are the same: both are [a / b]. *)
Definition same_number (q : rationals) (r : R) : Prop :=
  exists a b : Z, [/\ b <> Z0, q = rat_of a / rat_of b & r = (IZR a / IZR b)%R].

Section Denote.
Variables (prec emax : Z).
Local Notation F := (binary_float prec emax).

(** [x] is finite, and its value is [q]. *)
Definition denotes (x : F) (q : rationals) : Prop :=
  is_finite x = true /\ same_number q (B2R x).

(** The value of [x] is the integer [a]. *)
Definition is_int (x : F) (a : Z) : Prop := float_is x (IZR a).

(** The vector lists the entries of the integer matrix, row by row. *)
Definition int_entries (n : nat) (v : seq F) (N : 'M[Z]_n) : Prop :=
  size v = (n * n)%nat /\
  forall i j : 'I_n, is_int (nth (B754_zero false) v (i * n + j)) (N i j).
End Denote.

(** Every minor of the integer matrix is 0 or, up to the sign, one of 1, 2, 4, ..., 2^K
    ([sub f g N] is the matrix of some rows and columns of [N], see FitSpec.v). *)
Definition power_minors (n : nat) (K : Z) (N : 'M[Z]_n) : Prop :=
  forall m (f g : 'I_m -> 'I_n), let d := \det (FitSpec.sub f g N) in
  d = 0 \/ exists2 k, (0 <= k <= K)%Z & Z.abs d = (2 ^ k)%Z.
