(** * PSqfEx.v -- polynomials for the examples of Props_Sqf.v. *)

From mathcomp Require Import all_ssreflect all_algebra ssrZ.
From Coq Require Import ZArith List.
From Verif Require Import Rust Traits MInts MConstr Spec PropSpec RingSpec TowerSpec PTower Quotient.
From Verif Require Import PCases PResidue PIrrEx.

Set Implicit Arguments.
Unset Strict Implicit.
Unset Printing Implicit Defensive.

Import GRing.Theory.
Local Open Scope ring_scope.

Lemma f2_contract cfg : field_alg_spec cfg False f2_rep (field2 cfg).
Proof. exact: finite_field_contract (field2_tower cfg). Qed.
Lemma cubic_of : exists P, poly_of f2_rep [:: 1; 0; 1; 1]%Z P.
Proof. exact: f2_poly. Qed.
Lemma cube_of : exists P, poly_of f2_rep [:: 1; 1; 1; 1]%Z P.
Proof. exact: f2_poly. Qed.
Lemma quadratic_of : exists P, poly_of f2_rep [:: 1; 1; 1]%Z P.
Proof. exact: f2_poly. Qed.
Lemma qq_square_of : exists P, poly_of qq_rep [:: (1, 1); (-2, 1); (1, 1)]%Z P.
Proof.
pose s : list {fraction [idomainType of Z]} := [:: 1; - (1 + 1); 1].
exists (Poly s); rewrite /poly_of (PolyK (c := 1)) /=; last exact: oner_neq0.
by repeat constructor; [exact: qq_1|exact: qq_minus2|exact: qq_1].
Qed.
