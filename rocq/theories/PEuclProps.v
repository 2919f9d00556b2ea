(** * PEuclProps.v -- from the contracts to the statements about single methods,
    and the multiplier isize::MIN. *)

From Coq Require Import ZArith Lia.
From mathcomp Require Import all_ssreflect all_algebra zify ssrZ.
From Verif Require Import Rust Traits RingTac Wp Spec PropSpec PDefaults PEucl.

Set Implicit Arguments.
Unset Strict Implicit.
Unset Printing Implicit Defensive.

Import GRing.Theory.
Local Open Scope ring_scope.

Section Correct.
Variables (p : Prop) (E : Type) (R : idomainType) (rep : E -> R -> Prop).
Variables (S : eucl_struct R) (A : EuclideanDomain E).
Hypothesis hA : eucl_spec p rep S A.

Lemma gcd_correct_ok : gcd_correct p rep (gcd A).
Proof.
split=> [x a y b xa yb|x y x0 y0]; first exact: (gcd_ok hA xa yb).
apply: ensures_mono (gcd_ok hA x0 y0) _ => z [d zd [_ _ h]].
by have := h 0 (dvds0 _) (dvds0 _) => /dvd0s d0; rewrite -d0.
Qed.

Lemma extended_gcd_correct_ok : extended_gcd_correct p rep (extended_gcd A).
Proof.
move=> x a y b xa yb; apply: ensures_mono (extended_gcd_ok hA xa yb) _.
by move=> z [d [s [t [[h1 h2 h3] [h4 h5]]]]]; exists d, s, t; split.
Qed.

Lemma lcm_zero (a b m : R) : is_lcm a b m -> m = 0 <-> a = 0 \/ b = 0.
Proof.
move=> [am bm h]; split=> [m0|].
  have := h (a * b) (dvds_mulr _ (dvds_refl _)) (dvds_mull _ (dvds_refl _)).
  rewrite m0 => /dvd0s /eqP; rewrite mulf_eq0 => /orP[]/eqP ->; [by left|by right].
by case=> h0; [move: am|move: bm]; rewrite h0 => /dvd0s.
Qed.

Lemma lcm_correct_ok : lcm_correct p rep (lcm A).
Proof.
move=> x a y b xa yb; apply: ensures_mono (lcm_ok hA xa yb) _ => z [m zm h].
by exists m => //; have [h1 h2 h3] := h; split=> //; apply: lcm_zero.
Qed.

Lemma relative_primes_correct_ok : relative_primes_correct p rep (relative_primes A).
Proof. by move=> x a y b xa yb; apply: (relative_primes_ok hA). Qed.
End Correct.

Section Associates.
Variables (p : Prop) (E : Type) (R : idomainType) (rep : E -> R -> Prop).
Variables (S : assoc_struct R) (A : IntegralDomain E).
Hypothesis hA : idom_spec p rep S A.

Lemma associates_correct_ok : associates_correct p rep A.
Proof.
split.
- move=> x a xa; apply: ensures_mono (associate_repr_ok hA xa) _ => y ya.
  by exists (arep S a) => //; split; [apply: arep_dvd|apply: dvd_arep].
- move=> x a y b xa yb; apply: ensures_bind (associate_repr_ok hA xa) _ => u ua.
  apply: ensures_bind (associate_repr_ok hA yb) _ => v vb; apply: ensures_ret.
  exists (arep S a), (arep S b); split=> //; split=> [h|[h1 h2]]; last exact: arep_assoc.
  split; first by apply: dvds_trans (arep_dvd S a) _; rewrite h; apply: dvd_arep.
  by apply: dvds_trans (arep_dvd S b) _; rewrite -h; apply: dvd_arep.
- by move=> x a y b xa yb; apply: (associates_ok hA).
- move=> x a xa a0; have {}a0 : a != 0 by apply/eqP.
  apply: ensures_bind (associate_repr_ok hA xa) _ => u ua.
  apply: ensures_bind (associate_coef_ok hA xa a0) _ => v va; apply: ensures_ret.
  exists (arep S a), (acoef S a); split=> //; first by rewrite arep_neq0.
  by exists (acoef S a)^-1; rewrite mulVr // acoef_unit.
- exact: associate_coef_zero hA.
Qed.
End Associates.

(** ** A field's gcd and lcm are 0 or 1 *)
Section FieldGcd.
Variables (cfg : Cfg) (p : Prop) (E : Type) (F : fieldType) (rep : E -> F -> Prop).
Variables (A : RingAlg E).
Hypothesis hA : ring_alg_spec cfg p rep *%R 1 A.
Let hC := ri_cm_ok hA.
Let hO := mo_mo_ok (ri_mon_ok hA).

Lemma field_gcd_value x a y b : rep x a -> rep y b ->
  gives p rep (field_gcd A x y) (if (a == 0) && (b == 0) then 0 else 1).
Proof.
move=> xa yb; rewrite /field_gcd.
apply: (ensures_bind (R := fun r => r = (a == 0) && (b == 0))).
  apply: ensures_bind (is_zero_ok hC xa) _ => _ ->; case: (a == 0); last exact: ensures_ret.
  exact: (is_zero_ok hC yb).
by move=> _ ->; case: ifP => _; [exact: zero_ok hC|exact: one_ok hO].
Qed.

Lemma field_lcm_value x a y b : rep x a -> rep y b ->
  gives p rep (field_lcm A x y) (if (a == 0) || (b == 0) then 0 else 1).
Proof.
move=> xa yb; rewrite /field_lcm.
apply: (ensures_bind (R := fun r => r = (a == 0) || (b == 0))).
  apply: ensures_bind (is_zero_ok hC xa) _ => _ ->; case: (a == 0); first exact: ensures_ret.
  exact: (is_zero_ok hC yb).
by move=> _ ->; case: ifP => _; [exact: zero_ok hC|exact: one_ok hO].
Qed.
End FieldGcd.

(** ** isize::MIN *)
Section Min.
Variables (cfg : Cfg) (E : Type) (o : M E) (opa : E -> E -> M E) (dbl iv : E -> M E) (x : E).
Hypothesis bits : Z.le (Zpos xH) (ptr_bits cfg).
Let w := ptr_bits cfg.

Lemma imin_neg : Z.ltb (imin w) Z0.
Proof.
have : Z.lt Z0 (Z.pow (Zpos (xO xH)) (Z.sub w (Zpos xH))).
  by apply: Z.pow_pos_nonneg => //; rewrite /w; lia.
by rewrite /imin; lia.
Qed.

Lemma imin_opp : in_i w (Z.opp (imin w)) = false.
Proof.
have : Z.lt Z0 (Z.pow (Zpos (xO xH)) (Z.sub w (Zpos xH))).
  by apply: Z.pow_pos_nonneg => //; rewrite /w; lia.
by rewrite /in_i /imin /imax; lia.
Qed.

Lemma imin_wrap : wrap_i w (Z.opp (imin w)) = imin w.
Proof.
rewrite /wrap_i /imin Z.opp_involutive.
have h : Z.pow (Zpos (xO xH)) w = Z.mul (Zpos (xO xH)) (Z.pow (Zpos (xO xH)) (Z.sub w (Zpos xH))).
  by rewrite -Z.pow_succ_r ?Z.sub_1_r ?Z.succ_pred // /w; lia.
have k0 : Z.lt Z0 (Z.pow (Zpos (xO xH)) (Z.sub w (Zpos xH))).
  by apply: Z.pow_pos_nonneg => //; rewrite /w; lia.
have -> : Z.add (Z.pow (Zpos (xO xH)) (Z.sub w (Zpos xH))) (Z.pow (Zpos (xO xH)) (Z.sub w (Zpos xH)))
  = Z.pow (Zpos (xO xH)) w by rewrite h; lia.
rewrite Z.mod_same ?Z.sub_0_l //; first by lia.
Qed.

Lemma gpower_min_checks : overflow_checks cfg ->
  panics (default_gpower cfg o opa dbl iv (imin w) x).
Proof.
move=> oc; exists 0%N => k _.
by rewrite /default_gpower /bind imin_neg /prim_i imin_opp oc.
Qed.

Lemma gpower_min_wraps y v : overflow_checks cfg = false ->
  returns (iv x) y -> returns o v ->
  returns (default_gpower cfg o opa dbl iv (imin w) x) v.
Proof.
move=> oc [n1 h1] [n2 h2]; exists (maxn n1 n2).+1 => k hk.
rewrite /default_gpower /bind imin_neg /prim_i imin_opp oc /ret h1; last by lia.
rewrite imin_wrap /= h2; last by lia.
rewrite /power_loop /while_loop; case: k hk => // k hk /=.
rewrite /bind /ret; have := imin_neg.
by rewrite Z.gtb_ltb; case: (Z.ltb_spec Z0 (imin w)) => // h1' /Z.ltb_spec0; lia.
Qed.
End Min.
