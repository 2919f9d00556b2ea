(** * PValuEx.v -- facts for the examples of Props_Valu.v. *)

From mathcomp Require Import all_ssreflect all_algebra ssrZ zify.
From Coq Require Import ZArith Lia List.
From Verif Require Import Rust Traits MInts MConstr Spec PropSpec RingSpec TowerSpec Quotient.
From Verif Require Import PInts PIntsZ PIrrEx.

Set Implicit Arguments.
Unset Strict Implicit.
Unset Printing Implicit Defensive.

Lemma f2_line : exists P, poly_of f2_rep [:: 1; 1]%Z P.
Proof. exact: f2_poly. Qed.
Lemma two_shrinks (a : [idomainType of Z]) : (a != 0)%R ->
  Z.abs_nat a < Z.abs_nat (a * 2%Z)%R.
Proof.
move=> /eqP a0; rewrite -[(a * 2%Z)%R]/(Z.mul a 2); have : a <> Z0 by [].
by clear; lia.
Qed.
