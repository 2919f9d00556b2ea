(** * PFactEx.v -- irreducible integers for the examples of Props_Fact.v. *)

From mathcomp Require Import all_ssreflect all_algebra ssrZ zify.
From Coq Require Import ZArith Lia Znumtheory List.
From Verif Require Import Rust Traits Spec Quotient PIntsZ PModular.

Set Implicit Arguments.
Unset Strict Implicit.
Unset Printing Implicit Defensive.

Import GRing.Theory.
Local Open Scope ring_scope.

Lemma irr_opp (R : idomainType) (a : R) : irreducible_elt a -> irreducible_elt (- a).
Proof.
move=> [a0 au h]; split; rewrite ?oppr_eq0 ?unitrN // => b c aE.
have [|bu|cu] := h (- b) c; first by rewrite mulNr -aE opprK.
  by left; rewrite -unitrN.
by right.
Qed.
Lemma irr_2 : irreducible_elt (2%Z : [idomainType of Z]).
Proof. exact: prime_irreducible prime_2. Qed.
Lemma irr_3 : irreducible_elt (3%Z : [idomainType of Z]).
Proof. exact: prime_irreducible prime_3. Qed.
Lemma factors_two_m3 : Forall (@irreducible_elt [idomainType of Z]) [:: 2; -3]%Z.
Proof. by constructor; [exact: irr_2|constructor=> //; exact: (irr_opp irr_3)]. Qed.
Lemma factors_three_two : Forall (@irreducible_elt [idomainType of Z]) [:: 3; 2]%Z.
Proof. by constructor; [exact: irr_3|constructor=> //; exact: irr_2]. Qed.
