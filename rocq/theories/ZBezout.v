(** * ZBezout.v -- sharp bounds on the coefficients of the extended Euclidean
    algorithm on integers.  Pure facts about Z, independent of the code. *)

From Coq Require Import ZArith Lia Psatz.
From Verif Require Import ZFacts ZEgcd.
Local Open Scope Z_scope.

Lemma zrem_dvd x y : y <> 0 -> (zrem x y = 0 <-> Z.divide y x).
Proof.
  intros y0. pose proof (zdiv x y y0) as dv. pose proof (zrem_bound x y y0) as rb. split.
  - intros r0. exists (zquo x y). lia.
  - intros [c e]. assert (h : (c - zquo x y) * y = zrem x y) by lia.
    destruct (Z.eq_dec (c - zquo x y) 0) as [a0|a0]; [rewrite a0 in h; lia|exfalso].
    assert (h1 : Z.abs (c - zquo x y) * Z.abs y = zrem x y) by (rewrite <- Z.abs_mul, h; lia).
    assert (1 <= Z.abs (c - zquo x y)) by lia. clear - h1 H rb. nia.
Qed.

Lemma eg_gcd x y g s t : eg x y g s t -> Z.abs g = Z.gcd x y.
Proof.
  intros h. pose proof (eg_bezout _ _ _ _ _ h) as hb.
  destruct (eg_dvd _ _ _ _ _ h) as [[c hc] [d hd]].
  apply Z.divide_antisym_nonneg; [lia|apply Z.gcd_nonneg| |].
  - apply Z.divide_abs_l, Z.gcd_greatest; [now exists c|now exists d].
  - apply Z.divide_abs_r. rewrite hb at 1. apply Z.divide_add_r; apply Z.divide_mul_r;
      [apply Z.gcd_divide_l|apply Z.gcd_divide_r].
Qed.

Lemma eg_general x y g s t : eg x y g s t -> y <> 0 -> ~ Z.divide y x ->
  0 < g /\ (2 * Z.abs s - 1) * g <= Z.abs y /\ Z.abs t * g <= Z.abs x.
Proof.
  intros h y0 nd. pose proof (eg_bezout _ _ _ _ _ h) as hb.
  destruct (eg_step _ _ _ _ _ h y0) as (u & h2 & _).
  pose proof (zrem_bound x y y0) as rb.
  assert (rne : zrem x y <> 0) by (intros r0; apply nd, (zrem_dvd x y y0), r0).
  destruct (eg_semi _ _ _ _ _ h2 ltac:(lia)) as (g0 & _ & hs).
  destruct (eg_dvd _ _ _ _ _ h2) as [[d hd] [e he]].
  destruct (eg_dvd _ _ _ _ _ h) as [[c hc] _].
  set (r := zrem x y) in *.
  assert (e1 : 0 < e) by (apply (mul_lt_inv 0 e g g0); lia).
  assert (yE : Z.abs y = Z.abs d * g) by (rewrite hd, Z.abs_mul, (Z.abs_eq g); lia).
  assert (xE : Z.abs x = Z.abs c * g) by (rewrite hc, Z.abs_mul, (Z.abs_eq g); lia).
  assert (d2 : e < Z.abs d) by (apply (mul_lt_inv e (Z.abs d) g g0); lia).
  assert (hS : 2 * Z.abs s - 1 <= Z.abs d).
  { destruct hs as [(_ & _ & -> & _)|[gr hs]]; [lia|].
    assert (e2 : 2 <= e) by (apply (mul_le_inv 2 e g g0); lia).
    rewrite yE, he in hs.
    assert (hs' : (2 * Z.abs s * e) * (g * g) <= (Z.abs d * e + 2) * (g * g)) by lia.
    apply mul_le_inv in hs'; [|clear - g0; nia].
    assert (Z.abs s * 2 * e <= (Z.abs d + 1) * e) by (clear - hs' e2; nia).
    apply mul_le_inv in H; lia. }
  assert (hE : 1 = s * c + t * d).
  { assert (hh : 1 * g = (s * c + t * d) * g).
    { rewrite hb at 1. rewrite hc at 1. rewrite hd at 1. ring. }
    apply Z.mul_reg_r in hh; lia. }
  assert (hT : Z.abs t * Z.abs d <= 1 + Z.abs s * Z.abs c) by (rewrite <- !Z.abs_mul; lia).
  assert (hT2 : Z.abs t <= Z.abs c).
  { destruct (Z_le_gt_dec (Z.abs t) (Z.abs c)) as [|gt]; [assumption|exfalso].
    clear - hT hS d2 e1 gt.
    set (T := Z.abs t) in *. set (D := Z.abs d) in *. set (S := Z.abs s) in *.
    assert (c0 : 0 <= Z.abs c) by lia. set (C := Z.abs c) in *.
    assert (a1 : (C + 1) * D <= T * D) by nia.
    assert (a2 : 2 * S * C <= (D + 1) * C) by nia.
    assert (2 <= D) by lia. assert (2 * C <= D * C) by nia. lia. }
  rewrite yE, xE. repeat split; [assumption| |];
    apply Z.mul_le_mono_nonneg_r; lia.
Qed.

Lemma eg_positive x y g s t : eg x y g s t -> 0 < y -> ~ Z.divide y x ->
  2 * Z.abs s * g <= y /\ (2 * Z.abs t - 1) * g <= Z.abs x /\
  (0 <= x -> 2 * Z.abs t * g <= x).
Proof.
  intros h y0 nd. assert (yn : y <> 0) by lia.
  assert (rne : zrem x y <> 0) by (intros r0; apply nd, (zrem_dvd x y yn), r0).
  destruct (eg_semi _ _ _ _ _ h y0) as (g0 & hs & [[r0 _]|[gy ht]]); [contradiction|].
  destruct (eg_dvd _ _ _ _ _ h) as [[c hc] [d hd]].
  assert (xE : Z.abs x = Z.abs c * g) by (rewrite hc, Z.abs_mul, (Z.abs_eq g); lia).
  split; [assumption|split].
  - assert (d2 : 2 <= d) by (apply (mul_le_inv 2 d g g0); lia).
    rewrite xE in *. rewrite hd in ht.
    assert (ht' : (2 * Z.abs t * d) * (g * g) <= (Z.abs c * d + 2) * (g * g)) by lia.
    apply mul_le_inv in ht'; [|clear - g0; nia].
    assert (Z.abs t * 2 * d <= (Z.abs c + 1) * d) by (clear - ht' d2; nia).
    apply mul_le_inv in H; [|lia]. apply Z.mul_le_mono_nonneg_r; lia.
  - intros x0. destruct (eg_pos _ _ _ _ _ h x0 y0) as (_ & _ & [[r0 _]|[_ hh]]);
      [contradiction|assumption].
Qed.
