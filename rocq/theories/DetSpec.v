(** * DetSpec.v -- the number of row exchanges of an elimination, by minors.

    No elimination is made here: the entry that elimination finds in column [k] of row
    [a] is zero exactly if the minor of the rows 0, ..., k-1, a and the columns 0, ..., k
    is. *)

From mathcomp Require Import all_ssreflect all_algebra.
From Verif Require Import MatFacts.

Set Implicit Arguments.
Unset Strict Implicit.
Unset Printing Implicit Defensive.

Import GRing.Theory.
Local Open Scope ring_scope.

Section Exchanges.
Variables (F : fieldType) (n : nat).
Implicit Types (N : 'M[F]_n) (k a : 'I_n).

(** The minor of the rows 0, ..., k-1, a and the columns 0, ..., k; [lsub] is the
    leading principal submatrix, [xrow] exchanges two rows. *)
Definition bordered N k a : F := \det (lsub (ltn_ord k) (xrow k a N)).

(** The first row [a >= k] whose minor does not vanish, [k] if there is none. *)
Definition pivot_row N k : 'I_n :=
  head k [seq a : 'I_n <- enum 'I_n | (k <= a)%N && (bordered N k a != 0)].

(** Exchange the rows [k] and [pivot_row], and count it if they differ. *)
Definition exchange (s : nat * 'M[F]_n) k : nat * 'M[F]_n :=
  let a := pivot_row s.2 k in ((s.1 + (a != k))%N, xrow k a s.2).

(** The number of exchanges over all columns. *)
Definition exchanges N : nat := (foldl exchange (0%N, N) (enum 'I_n)).1.
End Exchanges.
