(** * PDioph.v -- linear equations in two unknowns. *)

From Coq Require Import ZArith Lia List.
From mathcomp Require Import all_ssreflect all_algebra.
From Verif Require Import Rust Traits Wp Spec PropSpec PDefaults RingTac DiophSpec.

Set Implicit Arguments.
Unset Strict Implicit.
Unset Printing Implicit Defensive.

Import GRing.Theory.
Local Open Scope ring_scope.

Section Math.
Variables (R : idomainType) (S : eucl_struct R).
Implicit Types a b c d u v : R.

Lemma gcd_solves a b c d u v : is_gcd a b d -> a * u + b * v = c -> dvds d c.
Proof.
move=> [[a' ->] [b' ->] _] <-; exists (a' * u + b' * v).
by rewrite mulrDl ![_ * d]mulrC !mulrA ![d * _]mulrC.
Qed.

Lemma gcd0 a b : is_gcd a b 0 -> a = 0 /\ b = 0.
Proof. by move=> [[a' ->] [b' ->] _]; rewrite !mulr0. Qed.

Lemma gcd_neq0 a b d : is_gcd a b d -> (a != 0) || (b != 0) -> d != 0.
Proof. by move=> h ab; apply/eqP => d0; move: h ab; rewrite d0 => /gcd0[-> ->]; rewrite eqxx. Qed.

(** The quotients by the greatest common divisor are relative primes. *)
Lemma quo_bezout a b d s t : d != 0 -> is_gcd a b d -> d = s * a + t * b ->
  s * equo S a d + t * equo S b d = 1.
Proof.
move=> d0 [ha hb _] dE; apply: (mulIf d0); rewrite mul1r mulrDl -!mulrA.
by rewrite -(equo_dvd S d0 ha) -(equo_dvd S d0 hb).
Qed.

Lemma solutions a b d s t u v u' v' : d != 0 -> is_gcd a b d -> d = s * a + t * b ->
  a * u + b * v = a * u' + b * v' <->
  exists r, u' = u + r * equo S b d /\ v' = v - r * equo S a d.
Proof.
move=> d0 hg dE; have [ha hb _] := hg; have bez := quo_bezout d0 hg dE.
have aE := equo_dvd S d0 ha; have bE := equo_dvd S d0 hb.
move: (equo S a d) (equo S b d) bez aE bE => a' b' bez aE bE.
rewrite aE bE; split=> [h|[r [-> ->]]]; last first.
  by rewrite !mulrBr !mulrDr addrACA -[LHS]addr0; congr (_ + _); apply/esym; cring.
have h' : a' * (u' - u) = b' * (v - v').
  apply: (mulfI d0); apply/eqP; rewrite -subr_eq0; apply/eqP.
  have -> : d * (a' * (u' - u)) - d * (b' * (v - v')) =
    (a' * d * u' + b' * d * v') - (a' * d * u + b' * d * v) by cring.
  by rewrite h subrr.
exists (s * (v - v') + t * (u' - u)); split.
  have -> : u' = u + (u' - u) * 1 by cring.
  rewrite -{1}bez.
  have -> : (u + (u' - u) * 1 - u) = u' - u by cring.
  have -> : (u' - u) * (s * a' + t * b') = s * (a' * (u' - u)) + t * (u' - u) * b' by cring.
  by rewrite h'; cring.
have -> : v' = v - (v - v') * 1 by cring.
rewrite -{1}bez.
have -> : v - (v - (v - v') * 1) = v - v' by cring.
have -> : (v - v') * (s * a' + t * b') = s * (v - v') * a' + t * (b' * (v - v')) by cring.
by rewrite -h'; cring.
Qed.
End Math.

Section Programs.
Variables (cfg : Cfg) (p : Prop) (E : Type) (R : idomainType) (rep : E -> R -> Prop)
  (AS : assoc_struct R) (S : eucl_struct R) (A : EuclAlg E).
Hypothesis hA : eucl_alg_spec cfg p rep AS S A.
Let hI := eu_idom_ok hA.
Let hR := id_ring_ok hI.

Lemma solve_ok x a y b z c : rep x a -> rep y b -> rep z c ->
  ensures p (solve A x y z) (fun o =>
    match o with
    | Some w => exists u v, [/\ rep w.1 u, rep w.2 v & a * u + b * v = c]
    | None => forall u v, a * u + b * v <> c
    end).
Proof.
move=> xa yb zc.
apply: ensures_bind (extended_gcd_ok (eu_eu_ok hA) xa yb) _ => gst [d [s [t [[hd hs ht] [dE hg]]]]].
apply: ensures_bind (is_zero_ok (ri_cm_ok hR) hd) _ => _ ->; case: eqP => [d0|/eqP d0].
  rewrite d0 in hg; have [a0 b0] := gcd0 hg.
  apply: ensures_bind (is_zero_ok (ri_cm_ok hR) zc) _ => _ ->; case: eqP => [c0|c0].
    apply: ensures_bind (zero_ok (ri_cm_ok hR)) _ => q qE.
    apply: ensures_bind (zero_ok (ri_cm_ok hR)) _ => r rE.
    by apply: ensures_ret; exists 0, 0; rewrite !mulr0 addr0.
  by apply: ensures_ret => u v; rewrite a0 b0 !mul0r addr0 => h; rewrite h in c0.
apply: ensures_bind (divisible_ok (id_id_ok hI) zc hd) _ => -[] h; last first.
  by apply: ensures_ret => u v /(gcd_solves hg) /h.
have cE := equo_dvd S d0 (h.1 isT).
apply: ensures_bind (quo_ok (eu_eu_ok hA) zc hd d0) _ => q qE.
apply: ensures_bind (mul_ok (mo_sg_ok (ri_mon_ok hR)) hs qE) _ => u uE.
apply: ensures_bind (mul_ok (mo_sg_ok (ri_mon_ok hR)) ht qE) _ => v vE.
apply: ensures_ret; do 2 eexists; split; [exact: uE|exact: vE|].
move: (equo S c d) cE => e ->; rewrite dE; cring.
Qed.

Lemma shift_ok x a y b u m v n w r : rep x a -> rep y b -> rep u m -> rep v n -> rep w r ->
  (a != 0) || (b != 0) ->
  ensures p (shift A x y u v w) (fun q => exists d, [/\ is_gcd a b d,
    rep q.1 (m + r * equo S b d) & rep q.2 (n - r * equo S a d)]).
Proof.
move=> xa yb um vn wr ab.
apply: ensures_bind (gcd_ok (eu_eu_ok hA) xa yb) _ => g [d gd hg]; have d0 := gcd_neq0 hg ab.
apply: ensures_bind (quo_ok (eu_eu_ok hA) yb gd d0) _ => y' yE.
apply: ensures_bind (mul_ok (mo_sg_ok (ri_mon_ok hR)) wr yE) _ => i iE.
apply: ensures_bind (add_ok (ri_cm_ok hR) um iE) _ => j jE.
apply: ensures_bind (quo_ok (eu_eu_ok hA) xa gd d0) _ => x' xE.
apply: ensures_bind (mul_ok (mo_sg_ok (ri_mon_ok hR)) wr xE) _ => k kE.
apply: ensures_bind (sub_ok (ri_ab_ok hR) vn kE) _ => l lE.
by apply: ensures_ret; exists d.
Qed.

Lemma shift_solution x a y b u m v n w r c : rep x a -> rep y b -> rep u m -> rep v n -> rep w r ->
  (a != 0) || (b != 0) -> a * m + b * n = c ->
  ensures p (shift A x y u v w) (fun q => exists m' n',
    [/\ rep q.1 m', rep q.2 n' & a * m' + b * n' = c]).
Proof.
move=> xa yb um vn wr ab <-; apply: ensures_mono (shift_ok xa yb um vn wr ab) _ => q [d [hg q1 q2]].
exists (m + r * equo S b d), (n - r * equo S a d); split=> //.
have [s [t dE]] := PDefaults.gcd_bezout S hg.
by apply/esym/(solutions S _ _ _ _ (gcd_neq0 hg ab) hg dE); exists r.
Qed.

Lemma shift_all x a y b u m v n m' n' : rep x a -> rep y b -> rep u m -> rep v n ->
  (a != 0) || (b != 0) -> a * m' + b * n' = a * m + b * n ->
  exists r, forall w, rep w r ->
    ensures p (shift A x y u v w) (fun q => rep q.1 m' /\ rep q.2 n').
Proof.
move=> xa yb um vn ab h.
have [[g [rg [d gd hg]]]|[hp pg]] := gcd_ok (eu_eu_ok hA) xa yb; last first.
  exists 0 => w _; right; split=> //; exact: panics_bind.
have [s [t dE]] := PDefaults.gcd_bezout S hg; have d0 := gcd_neq0 hg ab.
have [r [mE nE]] := (solutions S _ _ _ _ d0 hg dE).1 (esym h).
exists r => w wr; have gE : ensures p (gcd A x y) (fun g' => rep g' d) by left; exists g.
apply: ensures_bind gE _ => {rg gd g} g gd.
apply: ensures_bind (quo_ok (eu_eu_ok hA) yb gd d0) _ => y' yE.
apply: ensures_bind (mul_ok (mo_sg_ok (ri_mon_ok hR)) wr yE) _ => i iE.
apply: ensures_bind (add_ok (ri_cm_ok hR) um iE) _ => j jE.
apply: ensures_bind (quo_ok (eu_eu_ok hA) xa gd d0) _ => x' xE.
apply: ensures_bind (mul_ok (mo_sg_ok (ri_mon_ok hR)) wr xE) _ => k kE.
apply: ensures_bind (sub_ok (ri_ab_ok hR) vn kE) _ => l lE.
by apply: ensures_ret; rewrite mE nE.
Qed.
End Programs.
