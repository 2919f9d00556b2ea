(** * PElemOrd.v -- the order of an element of a field. *)

From Coq Require Import ZArith Lia List.
From mathcomp Require Import all_ssreflect all_algebra ssrZ zify.
From Verif Require Import Rust Traits MInts MConstr Wp Spec PropSpec RingSpec PDefaults Laws.
From Verif Require Import PLaws Quotient TowerSpec PTower FFSpec PFF PIrr2 ElemOrdSpec.

Set Implicit Arguments.
Unset Strict Implicit.
Unset Printing Implicit Defensive.

Import GRing.Theory.
Local Open Scope ring_scope.

Section Code.
Variables (cfg : Cfg) (p : Prop) (E : Type) (F : fieldType) (rep : E -> F -> Prop) (A : FieldAlg E).
Hypothesis hA : field_alg_spec cfg p rep A.
Let hr := id_ring_ok (eu_idom_ok (fi_eucl_ok hA)).
Let hM := mo_mo_ok (ri_mon_ok hr).
Let hI := fi_fi_ok hA.

Lemma isize_le n k : (n <= k)%N -> good_isize cfg (Z.of_nat k) -> good_isize cfg (Z.of_nat n).
Proof.
move=> nk; rewrite /good_isize /is_isize /in_i /imin /imax.
have : Z.le (Z.of_nat n) (Z.of_nat k) by apply: inj_le; exact/leP.
have : Z.le 0 (Z.of_nat n) by exact: Zle_0_nat.
move: (Z.pow _ _) (Z.of_nat n) (Z.of_nat k) => a b c; lia.
Qed.

Lemma element_order_loop x u o q ps : rep x u -> u != 0 -> o.-primitive_root u -> (0 < q)%N ->
  all prime ps -> (q %| \prod_(r <- ps) r)%N -> good_isize cfg (Z.of_nat (o * q)) ->
  ensures p (element_order A (o * q) ps x) (fun d => d = o).
Proof.
move=> xu u0 ho; have o0 := prim_order_gt0 ho.
elim: ps q => [|r ps IH] q q0 /=.
  by move=> _; rewrite big_nil dvdn1 => /eqP-> _; apply: ensures_ret; rewrite muln1.
move=> /andP[pr hps]; rewrite big_cons => hq gn; have r0 := prime_gt0 pr.
have small m : (m <= o * q)%N -> good_isize cfg (Z.of_nat m) by move=> h; exact: isize_le gn.
have last : ~~ (r %| q)%N -> ensures p (element_order A (o * q) ps x) (fun d => d = o).
  move=> rq; apply: IH => //; rewrite -(@Gauss_dvdr _ r) //.
  by rewrite coprime_sym prime_coprime.
rewrite -/(r %| o * q)%N; case: ifP => [roq|roq]; last first.
  apply: ensures_bind (_ : ensures p (ret false) (fun b => b = false)) _ => [|b ->].
    exact: ensures_ret.
  by apply: last; apply: contraFN roq => h; exact: dvdn_mull.
have gr : good_isize cfg (Z.of_nat (o * q %/ r)) by apply: small; exact: leq_div.
have hb : answers p (let! y := fpower A (Z.of_nat (o * q %/ r)) x in is_one A y) (r %| q)%N.
  apply: ensures_bind (fpower_ok hI gr xu u0) _ => y; rewrite zexp_nat => yE.
  apply: ensures_mono (is_one_ok hM yE) _ => b ->.
  by rewrite -(prim_order_dvd ho) dvdn_divRL // dvdn_pmul2l.
apply: ensures_bind hb _ => b ->; case: ifP => [rq|/negbT]; last exact: last.
have e : (o * q %/ r = o * (q %/ r))%N by rewrite muln_divA.
rewrite e; apply: IH => //; first by rewrite divn_gt0 // dvdn_leq.
  by rewrite dvdn_divLR // mulnC.
by apply: small; rewrite leq_mul2l leq_div orbT.
Qed.

Lemma element_order_ok n ps x u : rep x u -> (0 < n)%N -> u ^+ n = 1 -> all prime ps ->
  (n %| \prod_(r <- ps) r)%N -> good_isize cfg (Z.of_nat n) ->
  ensures p (element_order A n ps x) (fun d =>
    [/\ (0 < d)%N, u ^+ d = 1, forall e, (0 < e < d)%N -> u ^+ e <> 1 &
        forall e, u ^+ e = 1 <-> (d %| e)%N]).
Proof.
move=> xu n0 un hps hn gn.
have u0 : u != 0 by apply/eqP => u0; move: un; rewrite u0 expr0n gtn_eqF //= => /eqP; rewrite eq_sym oner_eq0.
have [o ho on] := prim_order_exists n0 un; have o0 := prim_order_gt0 ho.
have e : n = (o * (n %/ o))%N by rewrite mulnC divnK.
rewrite e in gn *; apply: ensures_mono (element_order_loop xu u0 ho _ hps _ gn) _.
- by rewrite divn_gt0 // dvdn_leq.
- by apply: dvdn_trans hn; rewrite {2}e dvdn_mull.
move=> d ->; have h i : u ^+ i = 1 <-> (o %| i)%N.
  by rewrite (prim_order_dvd ho); split=> [->|/eqP].
split=> // [|i /andP[i0 io] /h]; first exact: prim_expr_order.
by move=> /dvdn_leq; rewrite i0 leqNgt io => /(_ isT).
Qed.
End Code.

Section Finite.
Variables (cfg : Cfg) (E : Type) (F : fieldType) (rep : E -> F -> Prop) (A : FieldAlg E) (k : nat).
Hypothesis hA : finite_field cfg rep A k.
Hypothesis gk : good_isize cfg (Z.of_nat k).

(** The generators are the elements of order k - 1. *)
Lemma element_order_generator ps x : (exists u, rep x u) -> returns (is_zero A x) false ->
  all prime ps -> (k.-1 %| \prod_(r <- ps) r)%N ->
  generates (fun y => exists u, rep y u) A k x <->
  returns (element_order A k.-1 ps x) k.-1.
Proof.
move=> [u xu] x0 hps hk; have u0 : u != 0 by apply/(nz hA xu).
have hF := finite_field_contract hA.
have [_ [_ _ [s [us sk hs]]]] := finite_field_ok hA.
have k1 := card_gt1 us hs; rewrite sk in k1.
have k0 : (0 < k.-1)%N by rewrite -ltnS prednK // ltnW.
have uk : u ^+ k.-1 = 1 by rewrite -sk; exact: (fermat1 us hs).
have gk1 : good_isize cfg (Z.of_nat k.-1) by apply: isize_le gk; exact: leq_pred.
have hd := element_order_ok hF xu k0 uk hps hk gk1.
split=> [gg|r].
  have [[d [rd [d0 ud _ hdv]]]|[[]]] := hd.
  suff dk : d = k.-1 by rewrite dk in rd.
  apply/eqP; rewrite eqn_leq dvdn_leq //=; last by apply/hdv.
  rewrite leqNgt; apply/negP => dk.
  have pw i : (i < k.-1)%N -> gives False rep (fpower A (Z.of_nat i) x) (u ^+ i).
    move=> ik; apply: (pwE hA gk) => //; last by rewrite u0 orbT.
    by apply: leq_trans (leq_pred k); exact: ltnW.
  have [[y [ry yE]]|[[]]] := pw 0%N k0.
  have := ge_once gg k0 dk ry; rewrite expr0 -ud in yE => /(_ (call hA (pw d dk) yE)).
  by move=> h; rewrite -h in d0.
have [d0 ud _ hdv] := ensures_value hd r.
have [o ho oh] := prim_order_exists k0 uk.
have e : o = k.-1.
  apply/eqP; rewrite eqn_dvd oh /=; apply/hdv; exact: prim_expr_order.
by rewrite e in ho; exact: (root_generates hA gk ho xu).
Qed.
End Finite.
