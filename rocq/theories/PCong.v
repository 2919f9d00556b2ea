(** * PCong.v -- simultaneous congruences. *)

From Coq Require Import ZArith Lia List.
From mathcomp Require Import all_ssreflect all_algebra ssrZ zify.
From Verif Require Import Rust Traits MInts MConstr Wp Spec PropSpec RingSpec PDefaults Laws.
From Verif Require Import RingTac PLaws DiophSpec PDioph PGcds CongSpec.

Set Implicit Arguments.
Unset Strict Implicit.
Unset Printing Implicit Defensive.

Import GRing.Theory.
Local Open Scope ring_scope.

Section Math.
Variable R : comRingType.
Implicit Types m n x y a b : R.
Lemma dvds_add m a b : dvds m a -> dvds m b -> dvds m (a + b).
Proof. by move=> [c ->] [d ->]; exists (c + d); rewrite mulrDl. Qed.
Lemma dvds_opp m a : dvds m a -> dvds m (- a).
Proof. by move=> [c ->]; exists (- c); rewrite mulNr. Qed.
Lemma dvds_shift m x z y : dvds m (x - z) -> dvds m (y - x) <-> dvds m (y - z).
Proof.
move=> h; have e : y - z = (y - x) + (x - z) by cring.
split=> h1; first by rewrite e; exact: dvds_add.
have -> : y - x = (y - z) + - (x - z) by cring.
by apply: dvds_add => //; exact: dvds_opp.
Qed.
Lemma two_congruences m n l x a u v y : is_lcm m n l -> m * u + n * v = a - x ->
  dvds l (y - (x + m * u)) <-> dvds m (y - x) /\ dvds n (y - a).
Proof.
move=> hl h; apply: (iff_trans (lcm_iff _ hl)).
have h1 : dvds m (x + m * u - x) by exists u; cring.
have h2 : dvds n (x + m * u - a).
  exists (- v); have -> : x + m * u - a = m * u - (a - x) by cring.
  by rewrite -h; cring.
by rewrite (dvds_shift _ h1) (dvds_shift _ h2).
Qed.
End Math.

Section Code.
Variables (cfg : Cfg) (p : Prop) (E : Type) (R : idomainType) (rep : E -> R -> Prop).
Variables (AS : assoc_struct R) (S : eucl_struct R) (A : EuclAlg E).
Hypothesis hA : eucl_alg_spec cfg p rep AS S A.
Let hI := eu_idom_ok hA.
Let hR := id_ring_ok hI.
Let hE := eu_eu_ok hA.
Let hS := mo_sg_ok (ri_mon_ok hR).

Lemma erem_idem a k : k != 0 -> erem S (erem S a k) k = erem S a k.
Proof. by move=> k0; rewrite {2}(e_div S a k0) addrC e_canon. Qed.

Definition both_rep (c : E * E) (w : R * R) : Prop := rep c.1 w.1 /\ rep c.2 w.2.
Definition solves (s : seq (R * R)) (y : R) : Prop := forall w, In w s -> dvds w.1 (y - w.2).

Lemma congruences_from_ok m u x v l s : rep m u -> rep x v -> u != 0 -> erem S v u = v ->
  Forall2 both_rep l s ->
  all (fun w => w.1 != 0) s ->
  ensures p (congruences_from A m x l) (fun o =>
    if o is Some c then exists w, [/\ both_rep c w, w.1 != 0, erem S w.2 w.1 = w.2 &
      forall y, dvds u (y - v) /\ solves s y <-> dvds w.1 (y - w.2)]
    else forall y, ~ (dvds u (y - v) /\ solves s y)).
Proof.
move=> mu xv u0 uv h.
elim: h m u x v mu xv u0 uv => [|[n a] [n' a'] l' s' [/= hn ha] _ IH] m u x v mu xv u0 uv.
  by move=> _; apply: ensures_ret; exists (u, v); split=> // y; split=> [[]|hy] //; split=> // w [].
move=> /= /andP[n0 s0]; apply: ensures_bind (sub_ok (ri_ab_ok hR) ha xv) _ => d dE.
have split_s y : dvds u (y - v) /\ solves ((n', a') :: s') y <->
    (dvds u (y - v) /\ dvds n' (y - a')) /\ solves s' y.
  split=> [[h1 h2]|[[h1 h2] h3]].
    by split; [split=> //; exact: (h2 (n', a') (or_introl erefl))|move=> w hw; apply: h2; right].
  by split=> // w [<-|/h3].
apply: ensures_bind (solve_ok hA mu hn dE) _ => -[w|]; last first.
  move=> hno; apply: ensures_ret => y /split_s[[[b hb] [c hc]] _]; apply: (hno b (- c)).
  have -> : a' - v = (y - v) - (y - a') by cring.
  by rewrite hb hc; cring.
move=> [b [c [wb _ hbc]]]; apply: ensures_bind (mul_ok hS mu wb) _ => t tE.
apply: ensures_bind (add_ok (ri_cm_ok hR) xv tE) _ => y0 yE.
apply: ensures_bind (lcm_ok hE mu hn) _ => m' [k mk hk].
have k0 : k != 0.
  apply/eqP => k0; have [_ _ hmin] := hk; have [||q] := hmin (u * n').
  - by exists n'; rewrite mulrC.
  - by exists u.
  by rewrite k0 mulr0 => /eqP; apply/negP; rewrite mulf_neq0.
apply: ensures_bind (rem_ok hE yE mk k0) _ => x' xE.
have hr : dvds k (v + u * b - erem S (v + u * b) k).
  exists (equo S (v + u * b) k); rewrite {1}(e_div S (v + u * b) k0); cring.
have key y : dvds k (y - erem S (v + u * b) k) <-> dvds u (y - v) /\ dvds n' (y - a').
  apply: iff_trans (two_congruences y hk hbc); apply: iff_sym; exact: dvds_shift.
apply: ensures_mono (IH _ _ _ _ mk xE k0 (erem_idem _ k0) s0) _ => -[e|].
  move=> [w' [h1 h2 h2' h3]]; exists w'; split=> // y; apply: iff_trans (split_s y) _.
  by rewrite -(h3 y) key.
by move=> hno y /split_s; rewrite -key; exact: hno.
Qed.

Lemma congruences_ok l s : Forall2 both_rep l s -> all (fun w => w.1 != 0) s ->
  ensures p (congruences A l) (fun o =>
    if o is Some c then exists w, [/\ both_rep c w, w.1 != 0, erem S w.2 w.1 = w.2 &
      forall y, (forall w', In w' s -> dvds w'.1 (y - w'.2)) <-> dvds w.1 (y - w.2)]
    else forall y, ~ (forall w', In w' s -> dvds w'.1 (y - w'.2))).
Proof.
move=> h h0; apply: ensures_bind (one_ok (mo_mo_ok (ri_mon_ok hR))) _ => o oE.
apply: ensures_bind (zero_ok (ri_cm_ok hR)) _ => z zE.
have triv y : dvds 1 (y - 0) by exists (y - 0); rewrite mulr1.
apply: ensures_mono (congruences_from_ok oE zE (oner_neq0 _) (e_rem0 S (oner_neq0 _)) h h0) _ => -[c|].
  move=> [w [h1 h2 h2' h3]]; exists w; split=> // y; apply: iff_trans (h3 y).
  by split=> [hy|[_ hy]]; [split; [exact: triv|exact: hy]|exact: hy].
by move=> hno y hy; apply: (hno y); split; [exact: triv|exact: hy].
Qed.
End Code.
