(** * SumSpec.v -- the products that are added in the product of two matrices and of two
    polynomials, in their order. *)

From mathcomp Require Import all_ssreflect.

Set Implicit Arguments.
Unset Strict Implicit.
Unset Printing Implicit Defensive.

Section SumSpec.
Variables (E : Type) (d : E).
(** The entry in row [i] and column [j] of the product of two [n] by [n] matrices. *)
Definition row_column (n : nat) (v u : seq E) (i j : nat) : seq (E * E) :=
  [seq (nth d v (i * n + k), nth d u (k * n + j)) | k <- iota 0 n].
(** The coefficient of [x^k] of the product of two polynomials. *)
Definition convolution (v u : seq E) (k : nat) : seq (E * E) :=
  [seq (nth d v i, nth d u (k - i)) | i <- iota 0 (size v) & (i <= k) && (k < i + size u)].
End SumSpec.
