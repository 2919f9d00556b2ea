(** * PBatchEx.v -- two fractions that are not zero. *)

From mathcomp Require Import all_ssreflect all_algebra ssrZ.
From Coq Require Import ZArith List.
From Verif Require Import Rust Traits MInts MConstr Wp Spec PropSpec RingSpec Quotient.
From Verif Require Import PCases PRatRootEx PResidue Refuted.

Lemma not_zero x u : qq_rep x u -> returns (is_zero (QQ debug64) x) false -> (u != 0)%R.
Proof.
move=> xu x0; have hr := qq_ring debug64.
by have := ensures_value (is_zero_ok (ri_cm_ok hr) xu) x0 => /esym/negbT.
Qed.
Lemma two_fractions : exists us,
  Forall2 qq_rep ((2, 3) :: (-3, 1) :: nil)%Z us /\ all (fun u => u != 0)%R us.
Proof.
have [u hu] := two_thirds; have [v hv] := minus_three.
have u0 : (u != 0)%R by apply: (not_zero _ _ hu); run 60%nat.
have v0 : (v != 0)%R by apply: (not_zero _ _ hv); run 60%nat.
exists [:: u; v]; split; last by rewrite /= u0 v0.
by constructor; last (constructor; last constructor).
Qed.
Lemma with_zero : exists us,
  Forall2 qq_rep ((2, 3) :: (0, 1) :: nil)%Z us /\ has (fun u => u == 0)%R us.
Proof.
have [u hu] := two_thirds; exists [:: u; 0%R]; split; last by rewrite /= eqxx orbT.
by constructor; last (constructor; [exact: qq_0|constructor]).
Qed.
