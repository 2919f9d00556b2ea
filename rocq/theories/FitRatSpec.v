(** * FitRatSpec.v -- vocabulary for C90: matrices of fractions that need not be integers.

    [ratio_entries v N D]: the vector lists, row by row and in lowest terms, the entries
    [N i j / D i]; so [D i] is a common denominator of row [i].  [all_dens D] is the
    product of these denominators. *)

From mathcomp Require Import all_ssreflect all_algebra zify ssrZ.
From Coq Require Import ZArith.
From Verif Require Import FracSpec.

Set Implicit Arguments.
Unset Strict Implicit.
Unset Printing Implicit Defensive.

Local Open Scope ring_scope.

Definition ratio_entries (n : nat) (v : seq (Z * Z)) (N : 'M[Z]_n) (D : 'I_n -> Z) : Prop :=
  [/\ size v = (n * n)%nat, forall i, (1 <= D i)%Z &
      forall i j : 'I_n, let x := nth (0%Z, 1%Z) v (i * n + j) in
        canonical_pair x /\ (x.1 * D i = x.2 * N i j)%Z].

(** The same for the entries [T i j / C j], with a common denominator of each column. *)
Definition column_entries (n : nat) (v : seq (Z * Z)) (T : 'M[Z]_n) (C : 'I_n -> Z) : Prop :=
  [/\ size v = (n * n)%nat, forall j, (1 <= C j)%Z &
      forall i j : 'I_n, let x := nth (0%Z, 1%Z) v (i * n + j) in
        canonical_pair x /\ (x.1 * C j = x.2 * T i j)%Z].

Definition all_dens (n : nat) (D : 'I_n -> Z) : Z := \prod_(i < n) D i.

(** The same matrix over the field of fractions. *)
Definition ratio_matrix (n : nat) (N : 'M[Z]_n) (D : 'I_n -> Z) : 'M[{fraction [idomainType of Z]}]_n :=
  \matrix_(i, j) (FracField.tofrac (N i j) / FracField.tofrac (D i)).

(** The matrix of the examples: rows (1/2 1/3) and (1/4 0). *)
Definition half_matrix : 'M[Z]_2 := \matrix_(i, j) nth 0%Z (nth [::] [:: [:: 3; 2]; [:: 1; 0]]%Z i) j.
Definition half_dens : 'I_2 -> Z := fun i => nth 1%Z [:: 6; 4]%Z i.
Definition half_fracs : seq (Z * Z) := [:: (1, 2); (1, 3); (1, 4); (0, 1)]%Z.
