(** * PKara.v -- multiplication by the method of Karatsuba. *)

From Coq Require Import ZArith Lia List.
From mathcomp Require Import all_ssreflect all_algebra ssrZ zify.
From Verif Require Import Rust Traits MInts MConstr Wp Spec PropSpec RingSpec PDefaults Laws.
From Verif Require Import RingTac PLaws KaraSpec.

Set Implicit Arguments.
Unset Strict Implicit.
Unset Printing Implicit Defensive.

Import GRing.Theory.
Local Open Scope ring_scope.

Lemma three_products (R : comRingType) (m x y x1 x0 y1 y0 : R) : x = x1 * m + x0 -> y = y1 * m + y0 ->
  ((x1 * y1) * m + ((x1 + x0) * (y1 + y0) - x1 * y1 - x0 * y0)) * m + x0 * y0 = x * y.
Proof. by move=> -> ->; cring. Qed.

Section Code.
Variables (cfg : Cfg) (p : Prop) (E : Type) (R : idomainType) (rep : E -> R -> Prop).
Variables (AS : assoc_struct R) (S : eucl_struct R) (A : EuclAlg E).
Hypothesis hA : eucl_alg_spec cfg p rep AS S A.
Let hI := eu_idom_ok hA.
Let hR := id_ring_ok hI.
Let hE := eu_eu_ok hA.
Let hS := mo_sg_ok (ri_mon_ok hR).
Let hC := ri_cm_ok hR.
Let hN := ri_ab_ok hR.

Lemma karatsuba_ok bases ws x a y b : Forall2 rep bases ws -> all (fun w => w != 0) ws ->
  rep x a -> rep y b -> gives p rep (karatsuba A bases x y) (a * b).
Proof.
move=> h; elim: h x a y b => [|m w bases' ws' mw _ IH] x a y b /=.
  by move=> _; exact: mul_ok.
move=> /andP[w0 hw] xa yb; apply: ensures_bind (quo_rem_ok hE xa mw w0) _ => u [u1 u0].
apply: ensures_bind (quo_rem_ok hE yb mw w0) _ => v [v1 v0].
apply: ensures_bind (IH _ _ _ _ hw u1 v1) _ => z2 z2E.
apply: ensures_bind (IH _ _ _ _ hw u0 v0) _ => z0 z0E.
apply: ensures_bind (add_ok hC u1 u0) _ => c cE; apply: ensures_bind (add_ok hC v1 v0) _ => d dE.
apply: ensures_bind (IH _ _ _ _ hw cE dE) _ => t tE.
apply: ensures_bind (sub_ok hN tE z2E) _ => t' tE'.
apply: ensures_bind (sub_ok hN tE' z0E) _ => z1 z1E.
apply: ensures_bind (mul_ok hS z2E mw) _ => k kE; apply: ensures_bind (add_ok hC kE z1E) _ => k' kE'.
apply: ensures_bind (mul_ok hS kE' mw) _ => l lE.
by have := add_ok hC lE z0E; rewrite (three_products (e_div S a w0) (e_div S b w0)).
Qed.
Lemma karatsuba_same bases ws x a y b z : Forall2 rep bases ws -> all (fun w => w != 0) ws ->
  rep x a -> rep y b -> returns (mul A x y) z ->
  answers p (let! t := karatsuba A bases x y in equals A t z) true.
Proof.
move=> h hw xa yb r; have zE := ensures_value (mul_ok hS xa yb) r.
apply: ensures_bind (karatsuba_ok h hw xa yb) _ => t tE.
by apply: ensures_mono (equals_ok (mo_dom_ok (ri_mon_ok hR)) tE zE) _ => c ->; rewrite eqxx.
Qed.
End Code.
