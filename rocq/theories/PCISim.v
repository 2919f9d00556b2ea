(** * PCISim.v -- CheckedInts computes what the unbounded integers compute. *)

From Coq Require Import ZArith Lia Bool.
From mathcomp Require Import all_ssreflect all_algebra zify ssrZ.
From Verif Require Import Rust Traits MInts Wp Spec PDefaults Laws ZFacts PIntsZ PInts PSim.

Set Implicit Arguments.
Unset Strict Implicit.
Unset Printing Implicit Defensive.

Section CISim.
Variables (cfg : Cfg) (w : Z).
Hypothesis w2 : Z.le (Zpos (xO xH)) w.
Local Notation CI := (CheckedInts cfg w).
Local Notation Q := (fun x : Z => is_true (in_i w x)).

Lemma sim_checked z : sim Q (unwrap (checked_i w z)) (ret z).
Proof. by rewrite /checked_i; case: ifP => //= h; exact: sim_ret. Qed.
Lemma sim_ret' (z z' : Z) : in_i w z -> z = z' -> sim Q (ret z) (ret z').
Proof. by move=> h <-; exact: sim_ret. Qed.

Lemma ci_sim_mul : sim2 Q (mul CI) (mul ZZ).
Proof. by move=> x y _ _; exact: sim_checked. Qed.
Lemma ci_sim_add : sim2 Q (add CI) (add ZZ).
Proof. by move=> x y _ _; exact: sim_checked. Qed.
Lemma ci_sim_sub : sim2 Q (sub CI) (sub ZZ).
Proof. by move=> x y _ _; exact: sim_checked. Qed.
Lemma ci_sim_neg : sim1 Q (neg CI) (neg ZZ).
Proof. by move=> x _ k v /sim_checked[[<-] h]; split=> //; rewrite Z.sub_0_l. Qed.
Lemma ci_sim_double : sim1 Q (double CI) (double ZZ).
Proof.
move=> x Qx k v /(ci_sim_add Qx Qx)[[<-] h]; split=> //.
by congr Done; lia.
Qed.
Lemma ci_sim_one : sim Q (one CI) (one ZZ).
Proof. by apply: sim_ret; exact: in_i1. Qed.
Lemma ci_sim_zero : sim Q (zero CI) (zero ZZ).
Proof. by apply: sim_ret; exact: in_i0. Qed.
Lemma ci_sim_is_zero : sim1b Q (is_zero CI) (is_zero ZZ).
Proof. by move=> x _; exact: sim_refl. Qed.
Lemma ci_sim_invertible : sim1b Q (invertible CI) (invertible ZZ).
Proof.
move=> x _ k v [<-]; split=> //; congr (Done (_ || _)).
by apply/idP/idP => /Z.eqb_eq h; apply/Z.eqb_eq; lia.
Qed.
Lemma ci_sim_try_inv : sim1o Q (try_inv CI) (try_inv ZZ).
Proof.
by move=> x Qx; apply: sim_bind (ci_sim_invertible Qx) _ => -[] _; exact: sim_ret.
Qed.
Lemma ci_sim_sub_assign : sim2 Q (sub_assign CI) (sub_assign ZZ).
Proof. exact: sim_sub_assign ci_sim_neg ci_sim_add. Qed.
Lemma ci_sim_ztimes n : sim1 Q (ztimes CI n) (ztimes ZZ n).
Proof.
move=> x _ k v; rewrite /= /checked_ints_ztimes /checked_i.
case: ifP => //= _; rewrite /bind /=; case: ifP => //= h [<-]; split=> //.
by congr Done; lia.
Qed.
Lemma ci_sim_int n : sim Q (int CI n) (int ZZ n).
Proof. by apply: sim_bind ci_sim_one _ => o Qo; exact: ci_sim_ztimes. Qed.
Lemma ci_sim_try_div : sim2o Q (try_div CI) (try_div ZZ).
Proof.
move=> x y Qx Qy; have [->|y0] := Z.eq_dec y Z0.
  by rewrite /= /checked_ints_try_div /=; exact: sim_panic.
rewrite /= checked_ints_try_divE // integers_try_divE //.
case: ifP => [_|/negbT nb]; first exact: sim_panic.
by case: ifP => _; apply: sim_ret => //=; exact: in_zquo.
Qed.
Lemma ci_sim_divisible : sim2b Q (divisible CI) (divisible ZZ).
Proof.
move=> x y Qx Qy.
have h : sim any (divisible CI x y) (default_divisible (is_zero ZZ) (try_div ZZ) x y).
  exact: (sim_divisible ci_sim_is_zero ci_sim_try_div).
move=> k v /h; rewrite /default_divisible /= /integers_divisible.
have [->|y0] := Z.eq_dec y Z0; first by [].
have -> : Z.eqb y Z0 = false by apply/Z.eqb_neq.
rewrite /bind /integers_try_div /bind /=.
have -> : Z.eqb y Z0 = false by apply/Z.eqb_neq.
by case: ifP.
Qed.
Lemma ci_sim_quo_rem : sim2p Q (quo_rem CI) (quo_rem ZZ).
Proof.
move=> x y Qx Qy; have [->|y0] := Z.eq_dec y Z0.
  by rewrite /= checked_ints_quo_rem0; exact: sim_panic.
rewrite /= checked_ints_quo_remE // integers_quo_remE //.
case: ifP => [_|/negbT nb]; first exact: sim_panic.
by apply: sim_ret; split=> /=; [exact: in_zquo|exact: in_zrem].
Qed.
Lemma ci_sim_rem : sim2 Q (rem CI) (rem ZZ).
Proof. exact: sim_rem ci_sim_quo_rem. Qed.
Lemma ci_sim_quo : sim2 Q (quo CI) (quo ZZ).
Proof. exact: sim_quo ci_sim_quo_rem. Qed.
Lemma ci_sim_gcd : sim2 Q (gcd CI) (gcd ZZ).
Proof. exact: sim_gcd ci_sim_is_zero ci_sim_rem. Qed.
Lemma ci_sim_lcm : sim2 Q (lcm CI) (lcm ZZ).
Proof. exact: sim_lcm ci_sim_is_zero ci_sim_mul ci_sim_quo ci_sim_gcd. Qed.
Lemma ci_sim_extended_gcd x y : in_i w x -> in_i w y ->
  sim (both3 Q) (extended_gcd CI x y) (extended_gcd ZZ x y).
Proof.
move=> Qx Qy; exact: (sim_extended_gcd ci_sim_is_zero ci_sim_one ci_sim_zero
  ci_sim_mul ci_sim_sub ci_sim_quo_rem Qx Qy).
Qed.
Lemma ci_sim_relative_primes : sim2b Q (relative_primes CI) (relative_primes ZZ).
Proof. exact: sim_relative_primes ci_sim_invertible ci_sim_gcd. Qed.

Lemma tracksI A (Q' P : A -> Prop) m1 m2 : ensures True m1 P -> sim Q' m1 m2 ->
  tracks m1 m2.
Proof. by move=> h s; apply: ensures_mono (sim_ensures s h) _ => v []. Qed.

Lemma ci_tracks : eucl_tracks Q CI ZZ.
Proof.
have [[[[hD hS hO] hC hA hU] hI] hE] := CheckedInts_ok cfg w2.
have R x : in_i w x -> ci_rep w x x by move=> h; split.
split.
- by move=> x Qx; exact: tracksI (contains_ok hD (R _ Qx)) (@sim_refl bool _).
- by move=> x y Qx Qy; exact: tracksI (equals_ok hD (R _ Qx) (R _ Qy)) (@sim_refl bool _).
- by move=> x y Qx Qy; exact: tracksI (mul_ok hS (R _ Qx) (R _ Qy)) (ci_sim_mul Qx Qy).
- by move=> x y Qx Qy; exact: tracksI (mul_ok hS (R _ Qx) (R _ Qy)) (ci_sim_mul Qx Qy).
- by move=> x Qx; exact: tracksI (mul_ok hS (R _ Qx) (R _ Qx)) (ci_sim_mul Qx Qx).
- exact: tracksI (one_ok hO) ci_sim_one.
- by move=> x Qx; exact: tracksI (is_one_ok hO (R _ Qx)) (@sim_refl bool _).
- by move=> x Qx; exact: tracksI (try_inv_ok hO (R _ Qx)) (ci_sim_try_inv Qx).
- by move=> x Qx; exact: tracksI (invertible_ok hO (R _ Qx)) (ci_sim_invertible Qx).
- exact: tracksI (zero_ok hC) ci_sim_zero.
- by move=> x Qx; exact: tracksI (is_zero_ok hC (R _ Qx)) (ci_sim_is_zero Qx).
- by move=> x y Qx Qy; exact: tracksI (add_ok hC (R _ Qx) (R _ Qy)) (ci_sim_add Qx Qy).
- by move=> x y Qx Qy; exact: tracksI (add_ok hC (R _ Qx) (R _ Qy)) (ci_sim_add Qx Qy).
- by move=> x Qx; exact: tracksI (double_ok hC (R _ Qx)) (ci_sim_double Qx).
- move=> n x n0 Qx; apply: ensures_mono (ntimes_ok hC n0 (R _ Qx)) _ => v [-> _].
  suff -> : npow +%R 0%R (x : [zmodType of Z]) (Z.to_nat n) = Z.mul n x by exact: returns_ret.
  rewrite npow_mulrn; have h := zmulE x n; case: n n0 h => [|k|k] n0 h; [by []|exact: h|by []].
- by move=> x Qx; exact: tracksI (neg_ok hA (R _ Qx)) (ci_sim_neg Qx).
- by move=> x Qx; exact: tracksI (neg_ok hA (R _ Qx)) (ci_sim_neg Qx).
- by move=> x y Qx Qy; exact: tracksI (sub_ok hA (R _ Qx) (R _ Qy)) (ci_sim_sub Qx Qy).
- by move=> x y Qx Qy; exact: tracksI (sub_assign_ok hA (R _ Qx) (R _ Qy)) (ci_sim_sub_assign Qx Qy).
- move=> n x Qx; apply: (@tracksI _ Q any); last exact: ci_sim_ztimes Qx.
  rewrite /= /checked_ints_ztimes /checked_i.
  by case: ifP => _ /=; rewrite ?bind_ret; [case: ifP => _ /=; [exact: ensures_ret|]|];
    right; split=> //; exact: panics_panic.
- move=> n; apply: (@tracksI _ Q any); last exact: ci_sim_int.
  rewrite /= /default_int bind_ret /checked_ints_ztimes /checked_i.
  by case: ifP => _ /=; rewrite ?bind_ret; [case: ifP => _ /=; [exact: ensures_ret|]|];
    right; split=> //; exact: panics_panic.
- move=> x y Qx Qy; have [y0|y0] := eqVneq (y : [zmodType of Z]) 0%R.
    by right; split=> //; rewrite y0 in Qy *; exact: (try_div_zero hI (R _ Qx) (R _ Qy)).
  exact: tracksI (try_div_ok hI (R _ Qx) (R _ Qy) y0) (ci_sim_try_div Qx Qy).
- by move=> x y Qx Qy; exact: tracksI (divisible_ok hI (R _ Qx) (R _ Qy)) (ci_sim_divisible Qx Qy).
- move=> x y Qx Qy; apply: tracksI (associates_ok hI (R _ Qx) (R _ Qy)) _.
  exact: (sim_associates ci_sim_divisible Qx Qy).
- move=> x Qx; apply: tracksI (associate_repr_ok hI (R _ Qx)) _.
  rewrite /= /checked_ints_associate_repr /integers_associate_repr.
  by apply: (@sim_if _ Q) => _; [exact: ci_sim_neg|exact: sim_ret].
- move=> x Qx; have [x0|x0] := eqVneq (x : [zmodType of Z]) 0%R.
    by right; split=> //; rewrite x0 in Qx *; exact: (associate_coef_zero hI (R _ Qx)).
  apply: tracksI (associate_coef_ok hI (R _ Qx) x0) _; exact: (@sim_refl Z _).
- move=> x y Qx Qy; have [y0|y0] := eqVneq (y : [zmodType of Z]) 0%R.
    by right; split=> //; rewrite y0 in Qy *; exact: (quo_rem_zero hE (R _ Qx) (R _ Qy)).
  exact: tracksI (quo_rem_ok hE (R _ Qx) (R _ Qy) y0) (ci_sim_quo_rem Qx Qy).
- move=> x y Qx Qy; have [y0|y0] := eqVneq (y : [zmodType of Z]) 0%R.
    by right; split=> //; rewrite y0 in Qy *; exact: (quo_zero hE (R _ Qx) (R _ Qy)).
  exact: tracksI (quo_ok hE (R _ Qx) (R _ Qy) y0) (ci_sim_quo Qx Qy).
- move=> x y Qx Qy; have [y0|y0] := eqVneq (y : [zmodType of Z]) 0%R.
    by right; split=> //; rewrite y0 in Qy *; exact: (rem_zero hE (R _ Qx) (R _ Qy)).
  exact: tracksI (rem_ok hE (R _ Qx) (R _ Qy) y0) (ci_sim_rem Qx Qy).
- move=> x y Qx Qy; apply: (@tracksI _ any) (reduced_ok hE (R _ Qx) (R _ Qy)) _.
  by rewrite /= checked_ints_reducedE // integers_reducedE; exact: sim_refl.
- by move=> x y Qx Qy; exact: tracksI (gcd_ok hE (R _ Qx) (R _ Qy)) (ci_sim_gcd Qx Qy).
- by move=> x y Qx Qy; exact: tracksI (lcm_ok hE (R _ Qx) (R _ Qy)) (ci_sim_lcm Qx Qy).
- by move=> x y Qx Qy; exact: tracksI (extended_gcd_ok hE (R _ Qx) (R _ Qy)) (ci_sim_extended_gcd Qx Qy).
- by move=> x y Qx Qy; exact: tracksI (relative_primes_ok hE (R _ Qx) (R _ Qy)) (ci_sim_relative_primes Qx Qy).
Qed.
End CISim.
