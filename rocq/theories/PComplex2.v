(** * PComplex2.v -- errors of complex numbers with float components. *)

From Coq Require Import ZArith Reals Lra Lia.
From mathcomp Require Import all_ssreflect.
From Flocq Require Import Core Relative BinarySingleNaN.
From Verif Require Import Rust Traits MFloats FloatSpec FloatLaw FloatErrSpec ComplexSpec.
From Verif Require Import PFloat PFloat4 PFloatErr PComplex.

Set Implicit Arguments.
Unset Strict Implicit.
Unset Printing Implicit Defensive.

Section Errors.
Variables (prec emax : Z).
Context (prec_gt_0 : Prec_gt_0 prec) (prec_lt_emax : Prec_lt_emax prec emax).
Local Notation F := (binary_float prec emax).
Local Notation fexp := (FLT_exp (3 - emax - prec) prec).
Local Notation rnd := (rounded prec emax).
Local Notation u := (unit_error prec).
Local Notation eta := (tiny_error prec emax).
Implicit Types (a b c d r s t : R).
Local Open Scope R_scope.

Lemma format_rnd r : generic_format radix2 fexp (rnd r).
Proof. by apply: generic_format_round; exact: valid_rnd_N. Qed.

(** ** Products *)
Lemma pair_error s t r r' : Rabs (r - s) <= u * Rabs s + eta -> Rabs (r' - t) <= u * Rabs t + eta ->
    generic_format radix2 fexp r -> generic_format radix2 fexp r' ->
  Rabs (rnd (r + r') - (s + t)) <=
    ((1 + u) ^ 2 - 1) * (Rabs s + Rabs t) + 2 * (1 + u) * eta.
Proof.
move=> h1 h2 g1 g2.
have [e [he ->]] := plus_accurate prec_gt_0 g1 g2.
have u0 := u_gt0 prec; have e0 := eta_gt0 prec emax.
have -> : (r + r') * (1 + e) - (s + t) = (r - s) + (r' - t) + e * (s + t + ((r - s) + (r' - t))) by ring.
have p1 := Rabs_pos s; have p2 := Rabs_pos t.
have t1 : Rabs ((r - s) + (r' - t)) <= u * (Rabs s + Rabs t) + 2 * eta.
  by have := Rabs_triang (r - s) (r' - t); lra.
have t2 : Rabs (s + t + ((r - s) + (r' - t))) <= (Rabs s + Rabs t) * (1 + u) + 2 * eta.
  by have := Rabs_triang (s + t) ((r - s) + (r' - t)); have := Rabs_triang s t; lra.
apply: Rle_trans (Rabs_triang _ _) _; rewrite Rabs_mult.
have t3 : Rabs e * Rabs (s + t + (r - s + (r' - t))) <= u * ((Rabs s + Rabs t) * (1 + u) + 2 * eta).
  by apply: Rmult_le_compat; try exact: Rabs_pos.
by simpl; nra.
Qed.
Lemma product_error a b c d :
  Rabs (product_re prec emax a b c d - (a * c - b * d)) <=
    ((1 + u) ^ 2 - 1) * (Rabs (a * c) + Rabs (b * d)) + 2 * (1 + u) * eta /\
  Rabs (product_im prec emax a b c d - (a * d + b * c)) <=
    ((1 + u) ^ 2 - 1) * (Rabs (a * d) + Rabs (b * c)) + 2 * (1 + u) * eta.
Proof.
split; rewrite /product_re /product_im /Rminus; last by apply: pair_error; try exact: format_rnd; exact: rnd_error.
have <- : rnd (- (b * d)) = - rnd (b * d) by exact: rnd_opp.
rewrite -(Rabs_Ropp (b * d)).
by apply: pair_error; try exact: format_rnd; exact: rnd_error.
Qed.

(** Cauchy-Schwarz. *)
Lemma pair_norm a b c d :
  Rabs (a * c) + Rabs (b * d) <= sqrt ((a * a + b * b) * (c * c + d * d)).
Proof.
rewrite !Rabs_mult; set a' := Rabs a; set b' := Rabs b; set c' := Rabs c; set d' := Rabs d.
have sq r : r * r = Rabs r * Rabs r by rewrite -Rabs_mult Rabs_pos_eq //; nra.
rewrite (sq a) (sq b) (sq c) (sq d) -/a' -/b' -/c' -/d'.
have a0 : 0 <= a' := Rabs_pos a; have b0 : 0 <= b' := Rabs_pos b.
have c0 : 0 <= c' := Rabs_pos c; have d0 : 0 <= d' := Rabs_pos d.
rewrite -[X in X <= _]sqrt_square; last by have := Rmult_le_pos _ _ a0 c0; have := Rmult_le_pos _ _ b0 d0; lra.
apply: sqrt_le_1_alt.
have := pow2_ge_0 (a' * d' - b' * c'); simpl; nra.
Qed.
Lemma product_norm a b c d :
  let N := sqrt ((a * a + b * b) * (c * c + d * d)) in
  let E := ((1 + u) ^ 2 - 1) * N + 2 * (1 + u) * eta in
  Rabs (product_re prec emax a b c d - (a * c - b * d)) <= E /\
  Rabs (product_im prec emax a b c d - (a * d + b * c)) <= E.
Proof.
move=> N E; have [h1 h2] := product_error a b c d.
have u0 := u_gt0 prec.
have n1 := pair_norm a b c d; have n2 := pair_norm a b d c.
have e : (d * d + c * c = c * c + d * d) by ring.
rewrite e in n2; rewrite -/N in n1 n2.
have p : 0 <= (1 + u) ^ 2 - 1 by simpl; nra.
split; rewrite /E.
  by apply: Rle_trans h1 _; apply: Rplus_le_compat_r; exact: Rmult_le_compat_l.
by apply: Rle_trans h2 _; apply: Rplus_le_compat_r; exact: Rmult_le_compat_l.
Qed.

(** ** Inverses *)
Definition within k c := (1 - u) ^ k <= c <= (1 + u) ^ k.
Lemma within_pos k c : within k c -> 0 < c.
Proof.
move=> [h _]; apply: Rlt_le_trans h; apply: pow_lt.
by have := u_le prec_gt_0; lra.
Qed.
Lemma within_mul j k c d : within j c -> within k d -> within (j + k) (c * d).
Proof.
move=> hc hd; have := within_pos hc; have := within_pos hd.
have u0 := u_gt0 prec; have u1 := u_le prec_gt_0.
case: hc hd => [c1 c2] [d1 d2] dp cp; rewrite /within !pow_add.
by split; apply: Rmult_le_compat; auto; try apply: pow_le; lra.
Qed.
Lemma accurate_within t r : accurate prec t r -> exists2 c, within 1 c & r = t * c.
Proof.
move=> [e [he ->]]; exists (1 + e) => //; rewrite /within !pow_1.
by have := Rle_abs e; have := Rle_abs (- e); rewrite Rabs_Ropp; move: he; rewrite -/u; lra.
Qed.
Lemma normal_within t : normal emax t -> exists2 c, within 1 c & rnd t = t * c.
Proof.
have u0 := u_gt0 prec.
move=> [->|h]; first by exists 1; [rewrite /within; split; lra|rewrite rnd0; lra].
apply: accurate_within.
have h' : bpow radix2 (3 - emax - prec + prec - 1) <= Rabs t.
  by have -> : (3 - emax - prec + prec - 1 = 2 - emax)%Z by lia.
have [e [he E]] := relative_error_N_FLT_ex radix2 (3 - emax - prec) prec prec_gt_0 (fun n => ~~ Z.even n) t h'.
by exists e; split; [rewrite -half_ulp|exact: E].
Qed.
Lemma normal_opp t : normal emax (- t) <-> normal emax t.
Proof. by rewrite /normal Rabs_Ropp; split=> -[h|h]; [left; lra|right|left; lra|right]. Qed.
(** A sum of one and a positive number with errors. *)
Lemma within_plus1 k c t : within k c -> 0 <= t -> within k ((1 + t * c) / (1 + t)).
Proof.
move=> [h1 h2] t0.
have u0 := u_gt0 prec; have u1 := u_le prec_gt_0.
have l1 : (1 - u) ^ k <= 1 by have := pow_incr (1 - u) 1 k; rewrite pow1; apply; split; lra.
have l2 : 1 <= (1 + u) ^ k by apply: pow_R1_Rle; lra.
have p : 0 < / (1 + t) by apply: Rinv_0_lt_compat; lra.
have e : (1 + t * c) / (1 + t) = / (1 + t) + (t * / (1 + t)) * c by field; lra.
have e1 : 1 = / (1 + t) + (t * / (1 + t)) by field; lra.
have q : 0 <= t * / (1 + t) by nra.
rewrite e; split; nra.
Qed.

Lemma inverse_error x a b : b <> 0 -> float_is (x : F) 1 -> inverse_normal prec emax a b ->
  after_roundings2 prec 5 5 (a / (a * a + b * b)) (inverse_re prec emax a b) /\
  after_roundings2 prec 3 5 (- b / (a * a + b * b)) (inverse_im prec emax a b).
Proof.
move=> b0 x1 [[n1 n2 n3 n4] [n5 n6 n7]].
have [c1 w1 e1] := normal_within n1.
have [c2 w2 e2] := normal_within (proj2 (normal_opp _) n2).
have [c3 w3 e3] := normal_within n3.
have [c4 w4 e4] := normal_within (proj2 (normal_opp _) n4).
have g1 : generic_format radix2 fexp 1 by exact: gf x1.
have [c5 w5 e5] := accurate_within (plus_accurate prec_gt_0 g1 (format_rnd (- (a * inverse_q0 prec emax a b)))).
have [c6 w6 e6] := normal_within n5.
have n6' : normal emax (rnd (/ inverse_r prec emax a b) * - inverse_q0 prec emax a b).
  by rewrite -Ropp_mult_distr_r; apply/normal_opp.
have n7' : normal emax (rnd (/ inverse_r prec emax a b) * - inverse_q1 prec emax b).
  by rewrite -Ropp_mult_distr_r; apply/normal_opp.
have [c7 w7 e7] := normal_within n6'.
have [c8 w8 e8] := normal_within n7'.
pose T := a * a / (b * b).
have b2 : 0 < b * b by nra.
have T0 : 0 <= T by apply: Rmult_le_pos; [nra|left; exact: Rinv_0_lt_compat].
have q1E : inverse_q1 prec emax b = / b * c1 by exact: e1.
have sE : inverse_s prec emax a b = - (a / b * (c1 * c2)).
  by rewrite /inverse_s e2 q1E; field.
have q0E : inverse_q0 prec emax a b = - (a / (b * b) * (c1 * c2 * c3)).
  by rewrite /inverse_q0 e3 sE; field.
have tE : inverse_t prec emax a b = T * (c1 * c2 * c3 * c4).
  by rewrite /inverse_t e4 q0E /T; field.
have rE : inverse_r prec emax a b = (1 + T * (c1 * c2 * c3 * c4)) * c5.
  by rewrite /inverse_r -tE /inverse_t e5.
pose d := (1 + T * (c1 * c2 * c3 * c4)) / (1 + T) * c5.
have wd : within 5 d.
  apply: (within_mul (j := 4) (k := 1)) => //; apply: within_plus1 => //.
  exact: within_mul (within_mul (within_mul w1 w2) w3) w4.
have d0 := within_pos wd.
have rD : inverse_r prec emax a b = (1 + T) * d by rewrite rE /d; field; lra.
have s0 : a * a + b * b <> 0 by nra.
have iE : rnd (/ inverse_r prec emax a b) = b * b / (a * a + b * b) * c6 / d.
  by rewrite e6 rD /T; field; do ![split => //]; lra.
split.
  exists (c1 * c2 * c3 * c6 * c7), d; split=> //.
    exact: within_mul (within_mul (within_mul (within_mul w1 w2) w3) w6) w7.
  by rewrite /inverse_re e7 iE q0E; field; do ![split => //]; lra.
exists (c1 * c6 * c8), d; split=> //.
  exact: within_mul (within_mul w1 w6) w8.
by rewrite /inverse_im e8 iE q1E; field; do ![split => //]; lra.
Qed.
End Errors.
