(** * PRatRootEx.v -- fractions for the examples of Props_RatRoot.v. *)

From mathcomp Require Import all_ssreflect all_algebra ssrZ.
From Coq Require Import ZArith List.
From Verif Require Import Rust Spec PropSpec RingSpec Quotient PIntsZ PFrac PCases PResidue.

Set Implicit Arguments.
Unset Strict Implicit.
Unset Printing Implicit Defensive.

Import GRing.Theory.
Local Open Scope ring_scope.

Lemma two_thirds : exists q, qq_rep (2, 3)%Z q.
Proof.
exists (of_int 2%Z / of_int 3%Z), 2%Z, 3%Z; split=> //.
by split=> //; exists (-1)%Z, 1%Z.
Qed.
Lemma minus_three : exists q, qq_rep (-3, 1)%Z q.
Proof. by exists (of_int (-3)%Z); exact: qq_int. Qed.
