(** * PWeaken.v -- a contract that holds without panics holds with panics. *)

From Coq Require Import ZArith.
From mathcomp Require Import all_ssreflect all_algebra.
From Verif Require Import Rust Traits Wp Spec.

Set Implicit Arguments.
Unset Strict Implicit.
Unset Printing Implicit Defensive.

Section Weaken.
Variables (cfg : Cfg) (p q : Prop) (E : Type).
Hypothesis pq : p -> q.

Local Ltac weaken h :=
  case: h => *; split; intros; unfold gives, answers, decides in *;
  first [ solve [ eapply (ensures_weaken pq); eauto ] | solve [ eauto ] ].

Lemma domain_weaken (V : eqType) (rep : E -> V -> Prop) A :
  domain_spec p rep A -> domain_spec q rep A.
Proof. move=> h; weaken h. Qed.
Lemma semigroup_weaken (V : eqType) (rep : E -> V -> Prop) op A :
  semigroup_spec p rep op A -> semigroup_spec q rep op A.
Proof. move=> h; weaken h. Qed.
Lemma monoid_weaken (V : eqType) (rep : E -> V -> Prop) op e A :
  monoid_spec p rep op e A -> monoid_spec q rep op e A.
Proof. move=> h; weaken h. Qed.
Lemma cmonoid_weaken (V : eqType) (rep : E -> V -> Prop) op e A :
  cmonoid_spec p rep op e A -> cmonoid_spec q rep op e A.
Proof. move=> h; weaken h. Qed.
Lemma abelian_weaken (V : zmodType) (rep : E -> V -> Prop) A :
  abelian_spec cfg p rep A -> abelian_spec cfg q rep A.
Proof. move=> h; weaken h. Qed.
Lemma unitary_weaken (V : zmodType) (rep : E -> V -> Prop) e A :
  unitary_spec cfg p rep e A -> unitary_spec cfg q rep e A.
Proof. move=> h; weaken h. Qed.
Lemma idom_weaken (R : idomainType) (rep : E -> R -> Prop) S A :
  idom_spec p rep S A -> idom_spec q rep S A.
Proof. move=> h; weaken h. Qed.
Lemma eucl_weaken (R : idomainType) (rep : E -> R -> Prop) S A :
  eucl_spec p rep S A -> eucl_spec q rep S A.
Proof. move=> h; weaken h. Qed.
Lemma field_weaken (F : fieldType) (rep : E -> F -> Prop) A :
  field_spec cfg p rep A -> field_spec cfg q rep A.
Proof. move=> h; weaken h. Qed.

Lemma ring_alg_weaken (V : zmodType) (rep : E -> V -> Prop) op e A :
  ring_alg_spec cfg p rep op e A -> ring_alg_spec cfg q rep op e A.
Proof.
case=> -[h1 h2 h3] h4 h5 h6; split; [split| | |].
- exact: domain_weaken.
- exact: semigroup_weaken.
- exact: monoid_weaken.
- exact: cmonoid_weaken.
- exact: abelian_weaken.
- exact: unitary_weaken.
Qed.
Lemma eucl_alg_weaken (R : idomainType) (rep : E -> R -> Prop) AS S A :
  eucl_alg_spec cfg p rep AS S A -> eucl_alg_spec cfg q rep AS S A.
Proof.
case=> -[h1 h2] h3; split; [split|].
- exact: ring_alg_weaken.
- exact: idom_weaken.
- exact: eucl_weaken.
Qed.
Lemma field_alg_weaken (F : fieldType) (rep : E -> F -> Prop) A :
  field_alg_spec cfg p rep A -> field_alg_spec cfg q rep A.
Proof. by case=> h1 h2; split; [exact: eucl_alg_weaken|exact: field_weaken]. Qed.
End Weaken.
