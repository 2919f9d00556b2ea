(** * PLagr.v -- Lagrange interpolation. *)

From Coq Require Import ZArith Lia List.
From mathcomp Require Import all_ssreflect all_algebra ssrZ zify.
From Verif Require Import Rust Traits MInts MConstr Wp Spec PropSpec RingSpec PDefaults Laws.
From Verif Require Import PLaws LagrSpec.

Set Implicit Arguments.
Unset Strict Implicit.
Unset Printing Implicit Defensive.

Import GRing.Theory.
Local Open Scope ring_scope.

Section Math.
Variable F : fieldType.
Implicit Types (x y z : F) (xs : seq F) (P : {poly F}).

Definition term z x xs : F := \prod_(v <- xs | x != v) ((z - v) / (x - v)).
Definition term_poly x xs : {poly F} := \prod_(v <- xs | x != v) ((x - v)^-1 *: ('X - v%:P)).

Lemma term_polyE z x xs : (term_poly x xs).[z] = term z x xs.
Proof.
rewrite /term_poly /term horner_prod; apply: eq_bigr => v _.
by rewrite hornerZ !hornerE mulrC.
Qed.
Lemma size_term x xs : x \in xs -> (size (term_poly x xs) <= size xs)%N.
Proof.
move=> xin; apply: (@leq_trans (count (fun v => x != v) xs).+1).
  rewrite /term_poly; elim: xs {xin} => [|v s IH]; first by rewrite big_nil size_poly1.
  rewrite big_cons /=; case: (x != v) => //; rewrite add1n.
  have h : (size ((x - v)^-1 *: ('X - v%:P)) <= 2)%N.
    by apply: leq_trans (size_scale_leq _ _) _; rewrite size_XsubC.
  apply: leq_trans (size_mul_leq _ _) _.
  have := leq_add h IH; rewrite !addSn add0n.
  by move=> h2; rewrite -subn1 leq_subLR add1n.
have := count_predC (fun v => x != v) xs => <-.
by rewrite -[X in (X < _)%N]addn0 ltn_add2l -has_count; apply/hasP; exists x => //=; rewrite negbK.
Qed.
Lemma term_self x xs : term x x xs = 1.
Proof. by rewrite /term big1 // => v xv; rewrite divff // subr_eq0. Qed.
Lemma term_other w x xs : w \in xs -> x != w -> term w x xs = 0.
Proof.
move=> win xw; rewrite /term; elim: xs win => [//|v s IH]; rewrite inE big_cons.
case/orP=> [/eqP<-|/IH e]; first by rewrite xw subrr !mul0r.
by case: ifP => _; rewrite e ?mulr0.
Qed.

Lemma lagrange_value P xs z : uniq xs -> (size P <= size xs)%N ->
  \sum_(x <- xs) P.[x] * term z x xs = P.[z].
Proof.
move=> ux sP; pose L := \sum_(x <- xs) P.[x] *: term_poly x xs.
have LE w : L.[w] = \sum_(x <- xs) P.[x] * term w x xs.
  by rewrite horner_sum; apply: eq_bigr => x _; rewrite hornerZ term_polyE.
have sL : (size L <= size xs)%N.
  rewrite /L big_seq; elim/big_rec: _ => [|x Q xin hQ]; first by rewrite size_poly0.
  apply: leq_trans (size_add _ _) _; rewrite geq_max hQ andbT.
  exact: leq_trans (size_scale_leq _ _) (size_term xin).
suff e : P - L = 0 by move/eqP: e; rewrite subr_eq0 -LE => /eqP <-.
apply: (@roots_geq_poly_eq0 _ _ xs) => //.
  apply/allP => w win; rewrite rootE hornerD hornerN LE subr_eq0; apply/eqP.
  rewrite (bigD1_seq w) //= term_self mulr1 big1_seq ?addr0 // => x /andP[xw _].
  by rewrite term_other // mulr0.
by apply: leq_trans (size_add _ _) _; rewrite size_opp geq_max sP.
Qed.
End Math.

Section Code.
Variables (cfg : Cfg) (p : Prop) (E : Type) (F : fieldType) (rep : E -> F -> Prop) (A : FieldAlg E).
Hypothesis hA : field_alg_spec cfg p rep A.
Let hr := id_ring_ok (eu_idom_ok (fi_eucl_ok hA)).
Let hS := mo_sg_ok (ri_mon_ok hr).
Let hD := mo_dom_ok (ri_mon_ok hr).

Definition point_of (P : {poly F}) (c : E * E) (x : F) : Prop := rep c.1 x /\ rep c.2 P.[x].

Lemma lagrange_term_ok P z u x v t w pts xs : rep z u -> rep x v -> rep t w ->
  Forall2 (point_of P) pts xs ->
  gives p rep (lagrange_term A z x t pts) (w * term u v xs).
Proof.
move=> zu xv tw h; rewrite /term; elim: h t w tw => [|[a b] a' pts' xs' [/= ha _] _ IH] t w tw.
  by apply: ensures_ret; rewrite big_nil mulr1.
apply: ensures_bind (equals_ok hD xv ha) _ => e ->; rewrite big_cons.
case: (eqVneq v a') => [_|va]; first exact: IH.
apply: ensures_bind (sub_ok (ri_ab_ok hr) zu ha) _ => n nE.
apply: ensures_bind (sub_ok (ri_ab_ok hr) xv ha) _ => d dE.
have d0 : v - a' != 0 by rewrite subr_eq0.
apply: ensures_bind (fdiv_ok (fi_fi_ok hA) nE dE d0) _ => q qE.
by apply: ensures_bind (mul_ok hS tw qE) _ => t' tE; rewrite mulrA; exact: IH.
Qed.
Lemma lagrange_sum_ok P z u s w all alls pts xs : rep z u -> rep s w ->
  Forall2 (point_of P) all alls -> Forall2 (point_of P) pts xs ->
  gives p rep (lagrange_sum A z all s pts) (w + \sum_(x <- xs) P.[x] * term u x alls).
Proof.
move=> zu sw ha h; elim: h s w sw => [|[x y] x' pts' xs' [/= hx hy] _ IH] s w sw.
  by apply: ensures_ret; rewrite big_nil addr0.
apply: ensures_bind (lagrange_term_ok zu hx hy ha) _ => t tE.
by apply: ensures_bind (add_ok (ri_cm_ok hr) sw tE) _ => s' sE; rewrite big_cons addrA; exact: IH.
Qed.
Lemma lagrange_ok P pts xs z u : Forall2 (point_of P) pts xs -> uniq xs -> (size P <= size xs)%N ->
  rep z u -> gives p rep (lagrange A pts z) P.[u].
Proof.
move=> h ux sP zu; apply: ensures_bind (zero_ok (ri_cm_ok hr)) _ => s s0.
by have := lagrange_sum_ok zu s0 h h; rewrite add0r lagrange_value.
Qed.
End Code.
