(** * PRootEx.v -- fields for the examples of Props_Root.v. *)

From mathcomp Require Import all_ssreflect all_algebra ssrZ zify.
From Coq Require Import ZArith Lia Znumtheory.
From Verif Require Import Rust Traits MInts MConstr Spec PropSpec RingSpec Quotient PModular.
From Verif Require Import PChecked PInts PQuot TowerSpec PTower FFSpec PFinite PIrrEx Refuted.

Set Implicit Arguments.
Unset Strict Implicit.
Unset Printing Implicit Defensive.

Import GRing.Theory.
Local Open Scope ring_scope.

Lemma field256_member : exists (F : fieldType) (rep : seq Z -> F -> Prop),
  finite_field debug64 rep (field256 debug64) 256 /\ exists u, rep [:: 1; 1]%Z u.
Proof. by have [F [rep [h g]]] := field256_generator; exists F, rep; split=> //; exact: ge_mem g. Qed.

Lemma prime_seven : Znumtheory.prime 7.
Proof. exact: (@prime_Z 7%nat). Qed.
Definition field7 cfg : FieldAlg Z := QuotientField cfg (I32 cfg) 7%Z.
Definition f7_rep := @qf_rep Z [idomainType of Z] (ci_rep 32) Z_eucl (prime_field prime_seven).
Lemma field7_hyps : finite_field debug64 f7_rep (field7 debug64) 7 /\
  good_isize debug64 7%Z /\ (exists u, f7_rep 3%Z u).
Proof.
split; first by apply: (@FF_small debug64 32 7 prime_seven).
split; first by split.
have h : erem Z_eucl (3%Z : [idomainType of Z]) (prime_field prime_seven) == 3%Z by [].
by exists (Quot h).
Qed.
