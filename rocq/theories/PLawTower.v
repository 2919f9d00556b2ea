(** * PLawTower.v -- the laws of GcdLaw.v and TimesLaw.v for the structures of the crate. *)

From Coq Require Import ZArith.
From mathcomp Require Import all_ssreflect all_fingroup all_algebra zify ssrZ.
From Verif Require Import Rust Traits MInts MConstr Spec PropSpec RingSpec Laws PDefaults PGroups PPerm.
From Verif Require Import TowerSpec PTower GcdLaw PGcdLaw TimesLaw PTimesLaw.

Set Implicit Arguments.
Unset Strict Implicit.
Unset Printing Implicit Defensive.

Import GRing.Theory.
Local Open Scope ring_scope.

Section Towers.
Variables (cfg : Cfg) (p : Prop).

Lemma tower_divisibility E R rep AS A : @tower_idom cfg p E R rep AS A ->
  divisibility_laws p (fun x => exists u, rep x u) A.
Proof. by move=> /tower_idom_contract hA; exact: (divisibility_laws_ok (fun x h => h) hA). Qed.
Lemma tower_gcd E R rep AS S A : @tower_eucl cfg p E R rep AS S A ->
  gcd_laws p (fun x => exists u, rep x u) A.
Proof. by move=> /tower_eucl_contract hA; exact: (gcd_laws_ok (fun x h => h) hA). Qed.

Lemma ring_additive E (V : zmodType) (rep : E -> V -> Prop) op e (A : RingAlg E) :
  ring_alg_spec cfg p rep op e A -> abelian_alg_spec cfg p rep (ring_abelian A).
Proof. by case=> -[hD _ _] hC hA _; split. Qed.

Lemma tower_times (hc : Z.le (Zpos (xO xH)) (ptr_bits cfg)) E V rep op e A :
  @tower_ring cfg p E V rep op e A ->
  additive_laws cfg p (fun x => exists u, rep x u) (ring_abelian A) /\
  int_laws cfg p (fun x => exists u, rep x u) A.
Proof.
move=> hA; have [h1 h2 h3 h4 h5] := tower_ring_facts hA.
have hR := tower_ring_contract hc hA; split.
  exact: (additive_laws_ok (fun x h => h) (ring_additive hR)).
exact: (int_laws_ok (fun x h => h) h2 h3 h5 h4 hR).
Qed.
Lemma tower_field_power E F rep A : @tower_field cfg p E F rep A ->
  field_power_laws cfg p (fun x => exists u, rep x u) A.
Proof. by move=> /tower_field_contract hA; exact: (field_power_laws_ok (fun x h => h) hA). Qed.

(** Groups *)
Lemma permutation_powers n :
  power_laws cfg p (fun v => exists s : 'S_n, permutation_of v s) (Permutations cfg n).
Proof.
apply: (power_laws_ok (fun x h => h) (@mulgA _) (@mul1g _) (@mulg1 _) _ (Permutations_ok cfg p n)).
by move=> x u _; split; [exact: mulgV|exact: mulVg].
Qed.
Lemma additive_powers E (V : zmodType) (rep : E -> V -> Prop) (A : AbelianAlg E) :
  abelian_alg_spec cfg p rep A ->
  power_laws cfg p (fun x => exists u, rep x u) (AdditiveGroup cfg A).
Proof.
move=> hA; apply: (power_laws_ok (fun x h => h) (@addrA V) (@add0r V) (@addr0 V) _ (additive_group_ok hA)).
by move=> x u _; split; [exact: addrN|exact: addNr].
Qed.
Lemma multiplicative_powers E (V : eqType) (rep : E -> V -> Prop) op e inv (A : MonoidAlg E) :
  associative op -> left_id e op -> right_id e op -> monoid_alg_spec p rep op e A ->
  (forall u, (exists v, inverse_of op e u v) -> inverse_of op e u (inv u)) ->
  power_laws cfg p (fun x => exists u v, rep x u /\ inverse_of op e u v) (MultiplicativeGroup cfg A).
Proof.
move=> opA op1x opx1 hA hV.
have hG := multiplicative_group_ok cfg opA op1x opx1 hA hV.
apply: (power_laws_ok _ opA op1x opx1 _ hG).
  by move=> x [u [v [xu uv]]]; exists u; split=> //; exists v.
by move=> x u [_ hu]; exact: hV.
Qed.
End Towers.
