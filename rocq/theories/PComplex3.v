(** * PComplex3.v -- complex numbers over [ApproxFloats], and examples. *)

From Coq Require Import ZArith Reals Lra Lia SpecFloat.
From mathcomp Require Import all_ssreflect.
From Flocq Require Import Core BinarySingleNaN.
From Verif Require Import Rust Traits MConstr MFloats FloatSpec FloatErrSpec FloatAlgSpec ComplexSpec.
From Verif Require Import PFloat PFloat3 PFloat4 PFloatAlg PFloatEx PFloatErr PComplex PComplex2 Refuted.

Set Implicit Arguments.
Unset Strict Implicit.
Unset Printing Implicit Defensive.

Section Complex.
Variables (cfg : Cfg) (prec emax : Z).
Variables (hp : Prec_gt_0 prec) (he : Prec_lt_emax prec emax).
Local Notation F := (binary_float prec emax).
Let RA := floats_rounding cfg hp he.
Implicit Types (v w : seq F) (a b c d : R).

Definition complex_add (i2 : seq F) v w a b c d (h : square_plus_one i2) (hv : complex_is v a b)
  (hw : complex_is w c d) := c_add cfg RA h hv hw.
Definition complex_neg (i2 : seq F) v a b (h : square_plus_one i2) (hv : complex_is v a b) :=
  c_neg cfg RA h hv.
Definition complex_sub (i2 : seq F) v w a b c d (h : square_plus_one i2) (hv : complex_is v a b)
  (hw : complex_is w c d) := c_sub cfg RA h hv hw.
Definition complex_mul (i2 : seq F) v w a b c d (h : square_plus_one i2) (hv : complex_is v a b)
  (hw : complex_is w c d) := c_mul cfg hp RA h hv hw.
Definition complex_inv (i2 : seq F) v a b (h : square_plus_one i2) (hv : complex_is v a b) :=
  c_inv cfg hp RA h hv.
Lemma complex_inv_error a b : b <> 0%R -> inverse_normal prec emax a b ->
  after_roundings2 prec 5 5 (a / (a * a + b * b)) (inverse_re prec emax a b) /\
  after_roundings2 prec 3 5 (- b / (a * a + b * b)) (inverse_im prec emax a b).
Proof. by have [x _ x1] := fl_one RA; move=> b0; apply: inverse_error x1. Qed.
Lemma complex_inv_real (i2 : seq F) : square_plus_one i2 ->
  let C := QuotientField cfg (PolyEucl (ApproxFloats cfg hp he)) i2 in
  [/\ forall x a, float_is x a -> a <> 0%R ->
        settled (fits prec emax (/ a)) (finv C [:: x])
          (fun t => complex_is t (rounded prec emax (/ a)) 0),
      panics (finv C [::]) &
      forall x y a, float_is x a -> float_is y 0 -> panics (finv C [:: x; y])].
Proof.
move=> h C; split.
- exact: (c_inv_real cfg hp RA h).
- exact: c_inv_zero.
- exact: (c_inv_untrimmed cfg RA h).
Qed.

Lemma product_fits_dec a b c d : product_fits prec emax a b c d \/ ~ product_fits prec emax a b c d.
Proof.
rewrite /product_fits.
case: (fits_dec prec emax (a * c)) => h1; last by right; tauto.
case: (fits_dec prec emax (a * d)) => h2; last by right; tauto.
case: (fits_dec prec emax (b * c)) => h3; last by right; tauto.
case: (fits_dec prec emax (b * d)) => h4; last by right; tauto.
case: (fits_dec prec emax (rounded prec emax (a * c) - rounded prec emax (b * d))) => h5; last by right; tauto.
case: (fits_dec prec emax (rounded prec emax (a * d) + rounded prec emax (b * c))) => h6; last by right; tauto.
by left.
Qed.
Lemma inverse_fits_dec a b : inverse_fits prec emax a b \/ ~ inverse_fits prec emax a b.
Proof.
rewrite /inverse_fits.
case: (fits_dec prec emax (/ b)) => h1; last by right; tauto.
case: (fits_dec prec emax (a * inverse_q1 prec emax b)) => h2; last by right; tauto.
case: (fits_dec prec emax (inverse_s prec emax a b / b)) => h3; last by right; tauto.
case: (fits_dec prec emax (a * inverse_q0 prec emax a b)) => h4; last by right; tauto.
case: (fits_dec prec emax (1 + inverse_t prec emax a b)) => h5; last by right; tauto.
by left.
Qed.

Lemma complex_div (i2 : seq F) v w a b c d : square_plus_one i2 -> complex_is v a b ->
    complex_is w c d -> d <> 0%R ->
  let re := inverse_re prec emax c d in
  let im := inverse_im prec emax c d in
  settled (inverse_fits prec emax c d /\ product_fits prec emax a b re im)
    (fdiv (QuotientField cfg (PolyEucl (ApproxFloats cfg hp he)) i2) v w)
    (fun t => complex_is t (product_re prec emax a b re im) (product_im prec emax a b re im)).
Proof.
move=> h hv hw d0 re im; rewrite [fdiv _]/= /default_fdiv.
apply: (settled_bind (complex_inv h hw d0) (inverse_fits_dec _ _)) => i hi.
by apply: settled_imp (complex_mul h hv hi) => t [].
Qed.

(** ** Gaussian integers *)
Lemma int_fits (n : Z) : (Z.abs n <= 2 ^ prec)%Z -> fits prec emax (IZR n).
Proof.
move=> h; rewrite /fits /overflows (rounded_int hp he h).
have p0 : (0 < prec)%Z by exact: hp.
have p1 : (prec < emax)%Z by exact: he.
have h1 : (Rabs (IZR n) <= bpow radix2 prec)%R.
  by rewrite -abs_IZR -(IZR_Zpower radix2); [apply: IZR_le|lia].
have : (bpow radix2 prec < bpow radix2 emax)%R by apply: bpow_lt; lia.
by lra.
Qed.
Lemma gaussian (i2 : seq F) v w (a b c d : Z) : square_plus_one i2 ->
    complex_is v (IZR a) (IZR b) -> complex_is w (IZR c) (IZR d) ->
    (Z.abs (a * c) + Z.abs (b * d) <= 2 ^ prec)%Z ->
    (Z.abs (a * d) + Z.abs (b * c) <= 2 ^ prec)%Z ->
  exists2 t, returns (mul (QuotientField cfg (PolyEucl (ApproxFloats cfg hp he)) i2) v w) t &
    complex_is t (IZR (a * c - b * d)) (IZR (a * d + b * c)).
Proof.
move=> h hv hw l1 l2.
have [h1 _] := complex_mul h hv hw.
have r n : (Z.abs n <= 2 ^ prec)%Z -> rounded prec emax (IZR n) = IZR n := fun g => rounded_int hp he g.
move: h1; rewrite /product_fits /product_re /product_im -!mult_IZR.
rewrite !r; try lia.
rewrite -minus_IZR -plus_IZR !r; try lia.
move=> []; first by do ![split|apply: int_fits]; lia.
by move=> t h1 [h2 _]; exists t.
Qed.
End Complex.

Definition i2_64 : seq f64 := [:: f64_num 1 0; f64_num 0 0; f64_num 1 0].

Local Notation rnd := (rounded 53 1024).
Lemma num_is (m e : Z) : (Z.abs m < 2 ^ 53)%Z -> (-1074 <= e <= 971)%Z ->
  float_is (f64_num m e) (IZR m * bpow radix2 e)%R.
Proof.
move=> hm [h1 h2].
have hb : (IZR (Z.abs m) < bpow radix2 53)%R.
  by rewrite -IZR_Zpower //; apply: IZR_lt; exact: hm.
have hg : generic_format radix2 (FLT_exp (3 - 1024 - 53) 53) (IZR m * bpow radix2 e).
  by apply: generic_format_FLT; exists (Float radix2 m e).
have := binary_normalize_correct 53 1024 prec64 emax64 mode_NE m e false.
rewrite /F2R [Fnum _]/= [Fexp _]/=.
change (round radix2 _ _ _) with (rnd (IZR m * bpow radix2 e)); rewrite /rounded round_generic //.
rewrite Rlt_bool_true; first by case=> e1 [e2 _].
rewrite Rabs_mult (Rabs_pos_eq (bpow radix2 e)); last exact: bpow_ge_0.
rewrite -abs_IZR.
apply: (Rlt_le_trans _ (bpow radix2 53 * bpow radix2 e)).
  by apply: Rmult_lt_compat_r => //; exact: bpow_gt_0.
by rewrite -bpow_plus; apply: bpow_le; lia.
Qed.
Lemma int_is (m : Z) : (Z.abs m < 2 ^ 53)%Z -> float_is (f64_num m 0) (IZR m).
Proof. by move=> h; have := @num_is m 0 h; rewrite /= Rmult_1_r; apply. Qed.
Lemma half_is : float_is (f64_num 1 (-1)) (/ 2).
Proof. by have := @num_is 1 (-1); rewrite /= /Z.pow_pos /= Rmult_1_l; apply. Qed.

Lemma i2_64P : square_plus_one i2_64.
Proof. by do ![split|exact: int_is]; exact: (proj2 (int_is _)). Qed.
Lemma three_four :
  [/\ square_plus_one i2_64, complex_is [:: f64_num 3 0; f64_num 4 0] 3 4,
      complex_is [:: f64_num 1 0; f64_num 2 0] 1 2 &
      trimmed [:: f64_num 3 0; f64_num 4 0] /\ trimmed [:: f64_num 1 0; f64_num 2 0]].
Proof.
split; [exact: i2_64P|by split; exact: int_is|by split; exact: int_is|].
by split=> _; rewrite /last (proj2 (int_is _)) //; lra.
Qed.

Lemma one_one :
  [/\ square_plus_one i2_64, complex_is [:: f64_num 1 0; f64_num 1 0] 1 1,
      inverse_normal 53 1024 1 1 & inverse_fits 53 1024 1 1].
Proof.
have r1 : rnd 1 = 1%R by apply: (rnd_is (int_is (m := 1) _)).
have r2 : rnd 2 = 2%R by apply: (rnd_is (int_is (m := 2) _)).
have rm : rnd (-1) = (-1)%R by apply: (rnd_is (int_is (m := -1) _)).
have rh : rnd (/ 2) = (/ 2)%R by apply: (rnd_is half_is).
have q1 : inverse_q1 53 1024 1 = 1%R by rewrite /inverse_q1 Rinv_1.
have s1 : inverse_s 53 1024 1 1 = (-1)%R.
  by rewrite /inverse_s q1 -[RHS]rm; congr (rnd _); lra.
have q0 : inverse_q0 53 1024 1 1 = (-1)%R.
  by rewrite /inverse_q0 s1 -[RHS]rm; congr (rnd _); lra.
have t1 : inverse_t 53 1024 1 1 = 1%R.
  by rewrite /inverse_t q0 -[RHS]r1; congr (rnd _); lra.
have i1 : inverse_r 53 1024 1 1 = 2%R.
  by rewrite /inverse_r t1 -[RHS]r2; congr (rnd _); lra.
have nP r : (/ 2 <= Rabs r)%R -> normal 1024 r.
  move=> h; right; apply: Rle_trans h.
  have -> : (/ 2 = bpow radix2 (-1))%R by [].
  by apply: bpow_le; lia.
have a1 : Rabs 1 = 1%R by rewrite Rabs_pos_eq; lra.
have fP m : (Z.abs m < 2 ^ 53)%Z -> fits 53 1024 (IZR m).
  by move=> h; apply: fits_is (int_is h).
split; [exact: i2_64P|by split; exact: int_is| |].
  rewrite /inverse_normal q1 s1 q0 i1 rh Rinv_1.
  by split; split; apply: nP; rewrite ?Rmult_1_r ?Rmult_1_l /Rdiv ?Rinv_1 ?Rmult_1_r;
    split_Rabs; lra.
rewrite /inverse_fits q1 s1 q0 t1 Rinv_1.
have -> : (-1 / 1 = -1)%R by lra.
have -> : (1 + 1 = 2)%R by lra.
by rewrite !Rmult_1_l; do ![split|exact: fP].
Qed.

Lemma no_inverse :
  let C := QuotientField debug64 (PolyEucl (F64 debug64)) i2_64 in
  let x := f64_num 1 (-1000) in
  let v := [:: x] in
  let w := [:: f64_num 1 0; x] in
  let p := [:: x; f64_num 0 0] in
  [/\ returns (contains C v) true, returns (contains C w) true, returns (mul C v w) p &
      returns (contains C p) true] /\
  [/\ returns (is_zero C p) false, returns (invertible C p) true, panics (finv C p) &
      shows_all (finv C v) [:: S754_finite false 4503599627370496 948]].
Proof.
split; split; [run 50%nat|run 50%nat| |run 50%nat|run 50%nat|run 50%nat|run 50%nat|show_all 50%nat].
set C := QuotientField _ _ _; set p := [:: _; f64_num 0 0].
have [t rt e] : shows_all (mul C [:: f64_num 1 (-1000)] [:: f64_num 1 0; f64_num 1 (-1000)])
  [:: S754_finite false 4503599627370496 (-1052); S754_zero false] by show_all 50%nat.
suff -> : p = t by [].
by apply: map_B2SF; rewrite e; vm_compute; reflexivity.
Qed.
