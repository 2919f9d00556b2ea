(** * PBatch.v -- inverting many elements with one inversion. *)

From Coq Require Import ZArith Lia List.
From mathcomp Require Import all_ssreflect all_algebra ssrZ zify.
From Verif Require Import Rust Traits MInts MConstr Wp Spec PropSpec RingSpec PDefaults Laws.
From Verif Require Import PLaws BatchSpec.

Set Implicit Arguments.
Unset Strict Implicit.
Unset Printing Implicit Defensive.

Import GRing.Theory.
Local Open Scope ring_scope.

Section Code.
Variables (cfg : Cfg) (p : Prop) (E : Type) (F : fieldType) (rep : E -> F -> Prop) (A : FieldAlg E).
Hypothesis hA : field_alg_spec cfg p rep A.
Let hr := id_ring_ok (eu_idom_ok (fi_eucl_ok hA)).
Let hS := mo_sg_ok (ri_mon_ok hr).
Let hD := mo_dom_ok (ri_mon_ok hr).

Lemma batch_loop_ok e w xs us : rep e w -> w != 0 -> Forall2 rep xs us -> all (fun u => u != 0) us ->
  ensures p (batch_loop A e xs) (fun t => rep t.1 w^-1 /\ Forall2 rep t.2 [seq u^-1 | u <- us]).
Proof.
move=> ew w0 h; elim: h e w ew w0 => [|x u xs' us' xu _ IH] e w ew w0 /=.
  move=> _; apply: ensures_bind (finv_ok (fi_fi_ok hA) ew w0) _ => i iE; apply: ensures_ret.
  by split=> //; constructor.
move=> /andP[u0 us0]; apply: ensures_bind (mul_ok hS ew xu) _ => e' eE.
apply: ensures_bind (IH _ _ eE (mulf_neq0 w0 u0) us0) _ => t [h1 h2].
apply: ensures_bind (mul_ok hS h1 ew) _ => y yE; apply: ensures_bind (mul_ok hS h1 xu) _ => i iE.
apply: ensures_ret; split=> /=.
  by rewrite invfM -mulrA mulVf // mulr1 in iE.
by constructor=> //; rewrite invfM mulrAC mulVf // mul1r in yE.
Qed.
Lemma batch_inv_ok xs us : Forall2 rep xs us -> all (fun u => u != 0) us ->
  ensures p (batch_inv A xs) (fun ys => Forall2 rep ys [seq u^-1 | u <- us]).
Proof.
move=> h h0; apply: ensures_bind (one_ok (mo_mo_ok (ri_mon_ok hr))) _ => o o1.
by apply: ensures_bind (batch_loop_ok o1 (oner_neq0 _) h h0) _ => t [_ ?]; apply: ensures_ret.
Qed.

Lemma batch_loop_zero e w xs us : rep e w -> Forall2 rep xs us -> w * (\prod_(u <- us) u) = 0 ->
  panics (batch_loop A e xs).
Proof.
move=> ew h; elim: h e w ew => [|x u xs' us' xu _ IH] e w ew.
  rewrite big_nil mulr1 => w0; rewrite w0 in ew.
  by apply: panics_bind; exact: (finv_zero (fi_fi_ok hA) ew).
rewrite big_cons mulrA => w0 /=.
have [[e' [re eE]]|[_ pe]] := mul_ok hS ew xu; last exact: panics_bind.
by apply: panics_bind2 re _; apply: panics_bind; exact: (IH _ _ eE w0).
Qed.
Lemma batch_inv_zero xs us : Forall2 rep xs us -> has (fun u => u == 0) us -> panics (batch_inv A xs).
Proof.
move=> h h0; have us0 : \prod_(u <- us) u = 0.
  elim: us h0 {h} => [//|u us IH] /= /orP[/eqP->|/IH h]; first by rewrite big_cons mul0r.
  by rewrite big_cons h mulr0.
have [[o [ro o1]]|[_ po]] := one_ok (mo_mo_ok (ri_mon_ok hr)); last exact: panics_bind.
apply: panics_bind2 ro _; apply: panics_bind.
by apply: (batch_loop_zero o1 h); rewrite us0 mulr0.
Qed.

(** Compared with the crate's [inv] on each element. *)
Lemma batch_inv_same xs us zs : Forall2 rep xs us -> returns (mapM (finv A) xs) zs ->
  ensures p (batch_inv A xs) (fun ys => Forall2 (fun y z => answers p (equals A y z) true) ys zs).
Proof.
move=> h r.
have us0 : all (fun u => u != 0) us.
  rewrite -[all _ _]negbK -has_predC; apply/negP => hu; apply: (returns_panics r) => {r}.
  elim: h hu => [//|x u xs' us' xu _ IH] /=; rewrite negbK; have [u0 _|u0 /= /IH h] := eqVneq u 0.
    by apply: panics_bind; apply: (finv_zero (fi_fi_ok hA)); rewrite -u0.
  have [[y [ry _]]|[_ py]] := finv_ok (fi_fi_ok hA) xu u0; last exact: panics_bind.
  by apply: panics_bind2 ry _; exact: panics_bind.
have hz : Forall2 rep zs [seq u^-1 | u <- us].
  suff h1 : ensures p (mapM (finv A) xs) (fun zs => Forall2 rep zs [seq u^-1 | u <- us]) by exact: (ensures_value h1 r).
  move=> {r}; elim: h us0 => [|x u xs' us' xu _ IH] /=.
    by move=> _; apply: ensures_ret; constructor.
  move=> /andP[u0 /IH h]; apply: ensures_bind (finv_ok (fi_fi_ok hA) xu u0) _ => z zE.
  by apply: ensures_bind h _ => zs' hz; apply: ensures_ret; constructor.
apply: ensures_mono (batch_inv_ok h us0) _ => ys hy {h us0 r}.
elim: [seq _ | _ <- _] ys zs hz hy => [|v vs IH] ys zs.
  by move=> hz hy; inversion hz; inversion hy; constructor.
move=> hz hy; inversion hz; inversion hy; subst; constructor; last exact: IH.
by apply: ensures_mono (equals_ok hD _ _) _ => [||b ->]; [eassumption|eassumption|rewrite eqxx].
Qed.
End Code.
