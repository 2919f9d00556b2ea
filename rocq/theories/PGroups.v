(** * PGroups.v -- AdditiveGroup and MultiplicativeGroup are groups. *)

From Coq Require Import ZArith Lia.
From mathcomp Require Import all_ssreflect all_algebra zify.
From Verif Require Import Rust Traits RingTac Wp Spec PDefaults.

Set Implicit Arguments.
Unset Strict Implicit.
Unset Printing Implicit Defensive.

Import GRing.Theory.
Local Open Scope ring_scope.

(** AdditiveGroup(A) is the additive group of A. *)
Lemma additive_group_ok cfg p (E : Type) (V : zmodType) (rep : E -> V -> Prop)
    (A : AbelianAlg E) :
  abelian_alg_spec cfg p rep A ->
  group_alg_spec cfg p rep +%R 0 -%R (AdditiveGroup cfg A).
Proof.
move=> hA; have hD := ab_dom_ok hA; have hC := ab_cm_ok hA; have hN := ab_ab_ok hA.
have hn x u : rep x u -> gives p rep (neg A x) (- u) by exact: (neg_ok hN).
split; first split.
- split=> //=; [exact: dom_fun hD|exact: contains_ok hD|exact: equals_ok hD].
- split=> /= *; [exact: add_ok hC _ _ _ _ _ _|exact: add_assign_ok hC _ _ _ _ _ _|
    exact: double_ok hC _ _ _].
- split=> /=.
  + exact: zero_ok hC.
  + exact: is_zero_ok hC.
  + move=> x u xu; apply: ensures_bind (hn _ _ xu) _ => y yu; apply: ensures_ret.
    by exists (- u) => //; split; rewrite ?addNr ?addrN.
  + move=> x u xu; apply: ensures_ret; split=> // _.
    by exists (- u); split; rewrite ?addNr ?addrN.
- split=> //= n x u gn xu.
  apply: (@default_gpower_ok _ _ _ _ _ _ (@addrA V) (@add0r V) (@addr0 V)) => //=.
  + by move=> *; apply: (add_assign_ok hC).
  + by move=> *; apply: (double_ok hC).
  + exact: zero_ok hC.
  + exact: hn.
Qed.

(** MultiplicativeGroup(A) is the group of the invertible elements of A. *)
Section Multiplicative.
Variables (cfg : Cfg) (p : Prop) (E : Type) (V : eqType) (rep : E -> V -> Prop).
Variables (op : V -> V -> V) (e : V) (inv : V -> V) (A : MonoidAlg E).
Hypotheses (opA : associative op) (op1x : left_id e op) (opx1 : right_id e op).
Hypothesis hA : monoid_alg_spec p rep op e A.
Hypothesis invP : forall u, (exists v, inverse_of op e u v) -> inverse_of op e u (inv u).

Definition unit_rep (x : E) (u : V) : Prop :=
  rep x u /\ exists v, inverse_of op e u v.

Lemma inverse_uniq u v w : inverse_of op e u v -> inverse_of op e u w -> v = w.
Proof. by move=> [h1 h2] [h3 h4]; rewrite -[v]opx1 -h3 opA h2 op1x. Qed.

Lemma inverse_sym u v : inverse_of op e u v -> inverse_of op e v u.
Proof. by case. Qed.

Lemma inverse_op u u' v v' : inverse_of op e u u' -> inverse_of op e v v' ->
  inverse_of op e (op u v) (op v' u').
Proof.
move=> [h1 h2] [h3 h4]; split.
  by rewrite -opA [op v _]opA h3 op1x.
by rewrite -opA [op u' _]opA h2 op1x.
Qed.

Lemma inverse_one : inverse_of op e e e.
Proof. by split; rewrite op1x. Qed.

Let hM := mo_mo_ok hA.
Let hS := mo_sg_ok hA.

Lemma unit_rep_op m u v : (exists u', inverse_of op e u u') ->
  (exists v', inverse_of op e v v') -> gives p rep m (op u v) ->
  gives p unit_rep m (op u v).
Proof.
move=> [u' hu] [v' hv] h; apply: ensures_mono h _ => z zE; split=> //.
by exists (op v' u'); apply: inverse_op.
Qed.

Lemma multiplicative_inv_ok x u : unit_rep x u ->
  gives p unit_rep (multiplicative_inv A x) (inv u).
Proof.
move=> [xu [v uv]]; apply: ensures_bind (try_inv_ok hM xu) _ => -[y [w yw uw]|]; last first.
  by move/(_ _ uv).
apply: ensures_ret; split; last by exists u; apply: inverse_sym; apply: invP; exists v.
by rewrite (inverse_uniq (invP (ex_intro _ _ uv)) uw).
Qed.

Lemma multiplicative_group_ok :
  group_alg_spec cfg p unit_rep op e inv (MultiplicativeGroup cfg A).
Proof.
split; first split.
- split=> /=.
  + by move=> x u v [xu _] [xv _]; exact: dom_fun (mo_dom_ok hA) _ _ _ xu xv.
  + move=> x u [xu hu]; apply: ensures_mono (invertible_ok hM xu) _ => b hb.
    exact/hb.
  + by move=> x u y v [xu _] [yv _]; exact: equals_ok (mo_dom_ok hA) _ _ _ _ xu yv.
- split=> /=.
  + by move=> x u y v [xu hu] [yv hv]; apply: unit_rep_op => //; exact: (mul_ok hS).
  + by move=> x u y v [xu hu] [yv hv]; apply: unit_rep_op => //; exact: (mul_assign_ok hS).
  + by move=> x u [xu hu]; apply: unit_rep_op => //; exact: (square_ok hS).
- split=> /=.
  + apply: ensures_mono (one_ok hM) _ => x xe; split=> //; exists e; exact: inverse_one.
  + by move=> x u [xu _]; exact: (is_one_ok hM).
  + move=> x u [xu hu]; apply: ensures_mono (try_inv_ok hM xu) _ => -[y [v yv uv]|//].
    by exists v => //; split=> //; exists u; apply: inverse_sym.
  + by move=> x u [xu hu]; apply: ensures_ret.
- split=> /=; first exact: multiplicative_inv_ok.
  move=> n x u gn xu; apply: (@default_gpower_ok _ _ _ _ _ _ opA op1x opx1) (xu) => //=.
  + by move=> y v z w [yv hv] [zw hw]; apply: unit_rep_op => //; exact: (mul_assign_ok hS).
  + by move=> y v [yv hv]; apply: unit_rep_op => //; exact: (square_ok hS).
  + apply: ensures_mono (one_ok hM) _ => y ye; split=> //; exists e; exact: inverse_one.
  + exact: multiplicative_inv_ok.
Qed.

(** [contains] accepts exactly the invertible elements. *)
Lemma multiplicative_contains x u : rep x u ->
  decides p (contains (MultiplicativeGroup cfg A) x) (unit_rep x u).
Proof.
move=> xu; apply: ensures_mono (invertible_ok hM xu) _ => b hb.
by split=> [/hb|[_ /hb]].
Qed.
End Multiplicative.
