(** * PDlog.v -- discrete logarithms by baby steps and giant steps. *)

From Coq Require Import ZArith Lia List.
From mathcomp Require Import all_ssreflect all_algebra ssrZ zify.
From Verif Require Import Rust Traits MInts MConstr Wp Spec PropSpec RingSpec PDefaults Laws.
From Verif Require Import PLaws Quotient TowerSpec PTower FFSpec PFF DlogSpec.

Set Implicit Arguments.
Unset Strict Implicit.
Unset Printing Implicit Defensive.

Import GRing.Theory.
Local Open Scope ring_scope.

Section Code.
Variables (cfg : Cfg) (p : Prop) (E : Type) (F : fieldType) (rep : E -> F -> Prop) (A : FieldAlg E).
Hypothesis hA : field_alg_spec cfg p rep A.
Let hr := id_ring_ok (eu_idom_ok (fi_eucl_ok hA)).
Let hS := mo_sg_ok (ri_mon_ok hr).
Let hD := mo_dom_ok (ri_mon_ok hr).

Lemma baby_steps_ok g a e i n : rep g a -> rep e (a ^+ i) ->
  ensures p (baby_steps A g e n) (fun t =>
    Forall2 rep t.1 [seq a ^+ j | j <- iota i n] /\ rep t.2 (a ^+ (i + n))).
Proof.
move=> ga; elim: n e i => [|n IH] e i ei; first by apply: ensures_ret; rewrite addn0; split=> //; constructor.
apply: ensures_bind (mul_ok hS ei ga) _ => e'; rewrite -exprSr => eE.
apply: ensures_bind (IH _ _ eE) _ => t [h1 h2]; apply: ensures_ret; rewrite -addSnnS; split=> //=.
by constructor.
Qed.

Lemma position_ok x u t s j : rep x u -> Forall2 rep t s ->
  ensures p (position A x t j) (fun o =>
    if o is Some l then [/\ (j <= l)%N, (l - j < size s)%N, u = s`_(l - j) &
      forall i, (i < l - j)%N -> u <> s`_i]
    else u \notin s).
Proof.
move=> xu h; elim: h j => [|y v t' s' yv _ IH] j; first by apply: ensures_ret.
apply: ensures_bind (equals_ok hD xu yv) _ => b ->; case: eqP => [->|uv].
  by apply: ensures_ret; rewrite leqnn subnn.
apply: ensures_mono (IH j.+1) _ => -[l|]; last by rewrite inE negb_or => ->; rewrite andbT; apply/eqP.
move=> [jl ls uE hi]; have e : (l - j = (l - j.+1).+1)%N by lia.
split; rewrite ?e //; first exact: ltnW.
by move=> [|i] hl //; exact: hi.
Qed.

Variables (m : nat) (t : seq E) (c : E) (a b : F).
Hypotheses (a0 : a != 0) (ht : Forall2 rep t [seq a ^+ j | j <- iota 0 m]) (hc : rep c (a ^+ m)^-1).
Let sE (j : nat) : (j < m)%N -> [seq a ^+ j | j <- iota 0 m]`_j = a ^+ j.
Proof. by move=> jm; rewrite (nth_map 0%N) ?size_iota // nth_iota. Qed.

Lemma giant_steps_ok x u i n : rep x u -> u * a ^+ (i * m) = b ->
  (forall l, (l < i * m)%N -> b <> a ^+ l) ->
  ensures p (giant_steps A t c m x i n) (fun o =>
    if o is Some l then [/\ b = a ^+ l, (l < (i + n) * m)%N & forall l', (l' < l)%N -> b <> a ^+ l']
    else forall l, (l < (i + n) * m)%N -> b <> a ^+ l).
Proof.
elim: n x u i => [|n IH] x u i xu ub hi; first by apply: ensures_ret; rewrite addn0.
have split_l l : (i * m <= l)%N -> a ^+ l = a ^+ (l - i * m) * a ^+ (i * m).
  by move=> h; rewrite -exprD subnK.
have cancel v : v * a ^+ (i * m) = u * a ^+ (i * m) -> v = u.
  by move=> h; apply: (mulIf _ h); rewrite expf_neq0.
apply: ensures_bind (position_ok 0 xu ht) _ => -[l|].
  rewrite size_map size_iota subn0 => -[_ lm uE hl]; apply: ensures_ret; split.
  - by rewrite -ub uE sE // -exprD addnC.
  - by rewrite -addSnnS; apply: leq_trans (_ : (i.+1 * m <= _)%N); [rewrite mulSn; lia|rewrite leq_mul2r leq_addr orbT].
  - move=> l' hl'; have [h|h] := ltnP l' (i * m); first exact: hi.
    rewrite -ub (split_l l') // => /esym /cancel h2.
    have h3 : (l' - i * m < l)%N by lia.
    by apply: (hl _ h3); rewrite sE //; lia.
move=> hn; apply: ensures_bind (mul_ok hS xu hc) _ => x' xE.
rewrite -addSnnS; apply: (IH _ _ _ xE).
  by rewrite mulSn exprD mulrA mulfVK ?expf_neq0.
move=> l hl; have [h|h] := ltnP l (i * m); first exact: hi.
rewrite -ub (split_l l) // => /esym /cancel h2; move/negP: hn; apply; rewrite -h2.
by apply/mapP; exists (l - i * m)%N => //; rewrite mem_iota /= add0n; move: hl; rewrite mulSn; lia.
Qed.
End Code.

Section Log.
Variables (cfg : Cfg) (p : Prop) (E : Type) (F : fieldType) (rep : E -> F -> Prop) (A : FieldAlg E).
Hypothesis hA : field_alg_spec cfg p rep A.
Let hr := id_ring_ok (eu_idom_ok (fi_eucl_ok hA)).

Lemma discrete_log_ok m g a h b : rep g a -> rep h b -> a <> 0 ->
  ensures p (discrete_log A m g h) (fun o =>
    if o is Some n then b = a ^+ n /\ (n < m * m)%N /\ forall l, (l < n)%N -> b <> a ^+ l
    else forall l, (l < m * m)%N -> b <> a ^+ l).
Proof.
move=> ga hb /eqP a0; apply: ensures_bind (one_ok (mo_mo_ok (ri_mon_ok hr))) _ => o o1.
apply: ensures_bind (baby_steps_ok hA (i := 0) m ga o1) _ => te [h1 h2]; rewrite add0n in h2.
have hm0 : a ^+ m != 0 by rewrite expf_neq0.
apply: ensures_bind (finv_ok (fi_fi_ok hA) h2 hm0) _ => c cE.
have := giant_steps_ok hA (b := b) a0 h1 cE m (i := 0) hb; rewrite mul0n mulr1 add0n.
move=> /(_ erefl) h3; apply: ensures_mono (h3 _) _ => // -[n [? ? ?]|//].
by split.
Qed.
End Log.

Section Finite.
Variables (cfg : Cfg) (E : Type) (F : fieldType) (rep : E -> F -> Prop) (A : FieldAlg E) (k : nat).
Hypothesis hA : finite_field cfg rep A k.
Hypothesis gk : good_isize cfg (Z.of_nat k).
Let hF := finite_field_contract hA.
Let hr := id_ring_ok (eu_idom_ok (fi_eucl_ok hF)).

(** In a finite field every element that is not zero has a logarithm with respect to a
    generator, and it is found. *)
Lemma discrete_log_generator m g h : generates (fun x => exists u, rep x u) A k g ->
  returns (is_zero A g) false -> (exists u, rep h u) -> returns (is_zero A h) false -> (k.-1 <= m * m)%N ->
  exists n, [/\ (n < k.-1)%N, returns (discrete_log A m g h) (Some n) &
    returns (fpower A (Z.of_nat n) g) h].
Proof.
move=> gg g0 [b hb] h0 km; have [a ga] := ge_mem gg.
have a0 : a != 0 by have := ensures_value (is_zero_ok (ri_cm_ok hr) ga) g0 => /esym/negbT.
have kk : (k.-1 <= k)%N by exact: leq_pred.
have pw i : (i < k.-1)%N -> gives False rep (fpower A (Z.of_nat i) g) (a ^+ i).
  by move=> ik; apply: (pwE hA gk _ _ ga); [lia|rewrite a0 orbT].
have [j jk hj] := ge_all gg (ex_intro _ b hb) h0.
have bE : b = a ^+ j by exact: (finite_field_fun hA hb (ensures_value (pw _ jk) hj)).
have [[o [ro ho]]|[[]]] := discrete_log_ok hF m ga hb (elimN eqP a0).
case: o ro ho => [n|] ro; last by move=> /(_ j (leq_trans jk km)).
move=> [bn [_ hm]]; have nk : (n < k.-1)%N.
  by apply: leq_ltn_trans jk; rewrite leqNgt; apply/negP => /hm.
exists n; split=> //; have [[y [ry yE]]|[[]]] := pw _ nk.
have [_ _ inj] := finite_field_members hA.
by rewrite -bn in yE; rewrite -(inj _ _ _ yE hb).
Qed.
End Finite.
