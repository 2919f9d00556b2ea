(** * PCFrac.v -- continued fractions. *)

From Coq Require Import ZArith Lia List.
From mathcomp Require Import all_ssreflect all_algebra ssrZ zify.
From Verif Require Import Rust Traits MInts MConstr Wp Spec PropSpec RingSpec PDefaults Laws.
From Verif Require Import RingTac PLaws CFracSpec.

Set Implicit Arguments.
Unset Strict Implicit.
Unset Printing Implicit Defensive.

Import GRing.Theory.
Local Open Scope ring_scope.

Section Math.
Variable R : comRingType.
Implicit Types a b x y q r h k s t : R.
Lemma cf_step x y q r h h' : x = q * y + r -> y * (q * h + h') + r * h = x * h + y * h'.
Proof. by move=> ->; cring. Qed.
Lemma cf_det q h h' k k' d : h * k' - h' * k = d -> (q * h + h') * k - h * (q * k + k') = - d.
Proof. by move=> <-; cring. Qed.
Lemma cf_bezout h h' k k' d : h * k' - h' * k = d -> d * d = 1 -> (d * k') * h + (- d * h') * k = 1.
Proof. by move=> <- e; rewrite -[RHS]e; cring. Qed.
Lemma cf_gcd g h k s t : s * h + t * k = 1 -> is_gcd (g * h) (g * k) g.
Proof.
move=> e; split; [by exists h; rewrite mulrC|by exists k; rewrite mulrC|].
move=> c [u hu] [v hv]; exists (s * u + t * v).
have -> : (s * u + t * v) * c = s * (u * c) + t * (v * c) by cring.
rewrite -hu -hv.
have -> : s * (g * h) + t * (g * k) = g * (s * h + t * k) by cring.
by rewrite e mulr1.
Qed.
End Math.

Section Code.
Variables (cfg : Cfg) (p : Prop) (E : Type) (R : idomainType) (rep : E -> R -> Prop).
Variables (AS : assoc_struct R) (S : eucl_struct R) (A : EuclAlg E).
Hypothesis hA : eucl_alg_spec cfg p rep AS S A.
Let hI := eu_idom_ok hA.
Let hR := id_ring_ok hI.
Let hE := eu_eu_ok hA.
Let hS := mo_sg_ok (ri_mon_ok hR).
Let hC := ri_cm_ok hR.

Lemma convergent_ok x a y b : rep x a -> rep y b ->
  ensures p (convergent A x y) (fun c => exists g h k, [/\ rep c.1 h, rep c.2 k,
    is_gcd a b g, a = g * h /\ b = g * k & exists s t, s * h + t * k = 1]).
Proof.
move=> xa yb; apply: ensures_bind (one_ok (mo_mo_ok (ri_mon_ok hR))) _ => o o1.
apply: ensures_bind (zero_ok hC) _ => z z0.
pose I (n : nat) (s : cf_state E) := exists u v h h' k k' d,
  [/\ rep (cf_x s) u /\ rep (cf_y s) v, rep (cf_h1 s) h /\ rep (cf_h0 s) h',
      rep (cf_k1 s) k /\ rep (cf_k0 s) k', h * k' - h' * k = d /\ d * d = 1 &
      (u * h + v * h' = a /\ u * k + v * k' = b) /\ n = (if v == 0%R then 0 else (enorm S v).+1)%N].
pose Q (s : cf_state E) := exists g h k, [/\ rep (cf_h1 s) h, rep (cf_k1 s) k,
    is_gcd a b g, a = g * h /\ b = g * k & exists s' t, s' * h + t * k = 1].
have hw : ensures p (while_loop (fun s => let! b := is_zero A (cf_y s) in ret (~~ b)) (cf_body A)
    (CF x y o z z o)) Q.
  apply: (ensures_while_index (I := I) (n := (if b == 0%R then 0 else (enorm S b).+1)%N)).
    exists a, b, 1, 0, 0, 1, 1; split=> //; first by rewrite !mulr1 mulr0 subr0.
    by split=> //; rewrite !mulr1 !mulr0 addr0 add0r.
  move=> n s [u [v [h [h' [k [k' [d [[su sv] [sh sh'] [sk sk'] [hd dd] [[ha hb] ->]]]]]]]]].
  apply: ensures_bind (is_zero_ok hC sv) _ => c ->; apply: ensures_ret.
  have [v0|v0] /= := eqVneq v 0.
    have bez := cf_bezout hd dd; rewrite v0 !mul0r !addr0 in ha hb.
    exists u, h, k; split=> //; first by rewrite -ha -hb; exact: cf_gcd bez.
    by exists (d * k'), (- d * h').
  apply: ensures_bind (quo_rem_ok hE su sv v0) _ => qr [qE rE].
  apply: ensures_bind (mul_ok hS qE sh) _ => w wE.
  apply: ensures_bind (add_ok hC wE sh') _ => h2 h2E.
  apply: ensures_bind (mul_ok hS qE sk) _ => w' wE'.
  apply: ensures_bind (add_ok hC wE' sk') _ => k2 k2E; apply: ensures_ret.
  exists (if erem S u v == 0%R then 0 else (enorm S (erem S u v)).+1)%N.
    by case: eqVneq => // r0; rewrite ltnS; exact: e_norm.
  do 6 eexists; exists (- d); split; [split; eassumption|split; eassumption|split; eassumption| |].
    by split; [exact: cf_det|rewrite mulrNN].
  by split=> //; split; rewrite (cf_step _ _ (e_div S u v0)).
apply: ensures_bind hw _ => s [g [h [k [h1 h2 h3 h4 h5]]]]; apply: ensures_ret.
by exists g, h, k.
Qed.

Lemma convergent_calls x a y b : rep x a -> rep y b ->
  ensures p (convergent A x y) (fun c =>
    answers p (let! u := mul A x c.2 in let! v := mul A y c.1 in equals A u v) true /\
    answers p (relative_primes A c.1 c.2) true).
Proof.
move=> xa yb; apply: ensures_mono (convergent_ok xa yb) _ => c [g [h [k [ch ck _ [aE bE] [s [t e]]]]]].
split.
  apply: ensures_bind (mul_ok hS xa ck) _ => u uE; apply: ensures_bind (mul_ok hS yb ch) _ => v vE.
  apply: ensures_mono (equals_ok (mo_dom_ok (ri_mon_ok hR)) uE vE) _ => r ->; apply/eqP.
  by rewrite aE bE; cring.
apply: ensures_mono (relative_primes_ok hE ch ck) _ => r /iffRL; apply.
by exists s, t.
Qed.
End Code.
