(** * PMember2.v -- closure of the towers, and of the semirings. *)

From mathcomp Require Import all_ssreflect all_algebra ssrZ zify.
From Coq Require Import ZArith.
From Verif Require Import Rust Traits MInts MConstr Wp Spec MemberSpec PMember TowerSpec PTower.

Set Implicit Arguments.
Unset Strict Implicit.
Unset Printing Implicit Defensive.

Lemma closed_semiring_alg_ok p E (V : eqType) (rep : E -> V -> Prop) op e plus zero A :
  semiring_alg_spec p rep op e plus zero A ->
  closed_semiring_alg p (fun x => exists u, rep x u) A.
Proof.
case=> [[hD hS hM] hC]; split; [exact: closed_mul_ok hD _ _ _ _ hS hM|
  exact: closed_add_ok hD _ _ _ hC].
Qed.

Section Tower.
Variables (cfg : Cfg) (p : Prop).
Lemma tower_field_closed E F rep A : @tower_field cfg p E F rep A ->
  closed_field_alg cfg p (fun x => exists u, rep x u) A.
Proof. by move/tower_field_contract/closed_field_alg_ok. Qed.
Lemma tower_eucl_closed E R rep AS S A : @tower_eucl cfg p E R rep AS S A ->
  closed_eucl_alg cfg p (fun x => exists u, rep x u) A.
Proof. by move/tower_eucl_contract/closed_eucl_alg_ok. Qed.
Lemma tower_idom_closed E R rep AS A : @tower_idom cfg p E R rep AS A ->
  closed_idom_alg cfg p (fun x => exists u, rep x u) A.
Proof. by move/tower_idom_contract/closed_idom_alg_ok. Qed.
Lemma tower_ring_closed (hc : Z.le 2 (ptr_bits cfg)) E V rep op e A :
  @tower_ring cfg p E V rep op e A ->
  closed_ring_alg cfg p (fun x => exists u, rep x u) A.
Proof. by move/(tower_ring_contract hc)/closed_ring_alg_ok. Qed.
End Tower.
