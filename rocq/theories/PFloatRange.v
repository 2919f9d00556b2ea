(** * PFloatRange.v -- the range of the floats. *)

From Coq Require Import ZArith Reals Lra Lia SpecFloat.
From mathcomp Require Import all_ssreflect.
From Flocq Require Import Core BinarySingleNaN.
From Verif Require Import Rust Traits Wp MFloats FloatSpec FloatLaw FloatRange.
From Verif Require Import PFloat PFloat3 PFloat4.

Set Implicit Arguments.
Unset Strict Implicit.
Unset Printing Implicit Defensive.

Section Floats.
Variables (cfg : Cfg) (prec emax : Z).
Context (prec_gt_0 : Prec_gt_0 prec) (prec_lt_emax : Prec_lt_emax prec emax).
Local Notation F := (binary_float prec emax).
Local Notation fexp := (FLT_exp (3 - emax - prec) prec).
Local Notation rnd := (rounded prec emax).
Local Notation over := (overflows prec emax).
Local Notation A := (ApproxFloats cfg prec_gt_0 prec_lt_emax).
Local Notation B := (bpow radix2).
Implicit Types (x y z v : F) (a b r : R).

Let RA := floats_rounding cfg prec_gt_0 prec_lt_emax.
Lemma p0 : (0 < prec)%Z.
Proof. exact: prec_gt_0. Qed.
Lemma pe : (prec < emax)%Z.
Proof. exact: prec_lt_emax. Qed.
Local Ltac lia := have := p0; have := pe; Lia.lia.

Definition threshold : R := (B emax - B (emax - prec - 1))%R.

Lemma top_bits : B emax = (IZR (2 ^ prec) * B (emax - prec))%R.
Proof. by rewrite -[(2 ^ prec)%Z]/(radix2 ^ prec)%Z IZR_Zpower -?bpow_plus; [congr B; lia|lia]. Qed.
Lemma half_bit : B (emax - prec - 1) = (/ 2 * B (emax - prec))%R.
Proof. by rewrite -[(/ 2)%R]/(B (-1)) -bpow_plus; congr B; lia. Qed.

Lemma top_cexp r : ((IZR (2 ^ prec) - 1) * B (emax - prec) < r < B emax)%R ->
  cexp radix2 fexp r = (emax - prec)%Z.
Proof.
move=> [h1 h2]; rewrite /cexp (mag_unique_pos radix2 r emax).
  by rewrite /FLT_exp; lia.
split=> //; have bp := bpow_gt_0 radix2 (emax - prec).
have -> : B (emax - 1) = (IZR (2 ^ (prec - 1)) * B (emax - prec))%R.
  by rewrite -[(2 ^ (prec - 1))%Z]/(radix2 ^ (prec - 1))%Z IZR_Zpower -?bpow_plus; [congr B; lia|lia].
have : (IZR (2 ^ (prec - 1)) <= IZR (2 ^ prec - 1))%R.
  apply: IZR_le; have e : (2 ^ prec = 2 * 2 ^ (prec - 1))%Z.
    by rewrite -Z.pow_succ_r; [congr Z.pow; lia|lia].
  have : (0 < 2 ^ (prec - 1))%Z by apply: Z.pow_pos_nonneg; lia.
  by lia.
rewrite minus_IZR => h3; apply: Rlt_le; apply: Rle_lt_trans h1.
by apply: Rmult_le_compat_r => //; lra.
Qed.

Lemma over_pos r : (0 <= r)%R -> (B emax <= rnd r)%R <-> (threshold <= r)%R.
Proof.
move=> r0; have bp := bpow_gt_0 radix2 (emax - prec).
have tE : threshold = ((IZR (2 ^ prec) - / 2) * B (emax - prec))%R.
  by rewrite /threshold half_bit top_bits; lra.
have tlt : (threshold < B emax)%R.
  by rewrite /threshold; have := bpow_gt_0 radix2 (emax - prec - 1); lra.
have Mlt : ((IZR (2 ^ prec) - 1) * B (emax - prec) < threshold)%R.
  by rewrite tE; apply: Rmult_lt_compat_r => //; lra.
split=> h; last first.
  have -> : B emax = rnd threshold.
    rewrite /rounded /round /scaled_mantissa top_cexp //.
    have -> : (threshold * B (- (emax - prec)) = IZR (2 ^ prec) - / 2)%R.
      by rewrite tE Rmult_assoc -bpow_plus (_ : (emax - prec + - (emax - prec) = 0)%Z); [rewrite /=; lra|lia].
    rewrite /F2R /= top_bits; congr (_ * _)%R; congr IZR.
    rewrite /Znearest.
    have fl : Zfloor (IZR (2 ^ prec) - / 2) = (2 ^ prec - 1)%Z.
      by apply: Zfloor_imp; rewrite minus_IZR plus_IZR minus_IZR; lra.
    rewrite fl Rcompare_Eq; last by rewrite minus_IZR; lra.
    have -> : Z.even (2 ^ prec - 1) = false.
      rewrite Z.even_sub Z.even_pow //; lia.
    rewrite /=; symmetry; apply: Zceil_imp; rewrite minus_IZR; lra.
  by apply: round_le.
have [//|lt] := Rle_lt_dec threshold r; exfalso.
have gM : generic_format radix2 fexp ((IZR (2 ^ prec) - 1) * B (emax - prec))%R.
  apply: generic_format_FLT; exists (Float radix2 (2 ^ prec - 1) (emax - prec)).
  - by rewrite /F2R /= minus_IZR.
  - have : (0 < 2 ^ prec)%Z by apply: Z.pow_pos_nonneg; lia.
    by change (0 < 2 ^ prec -> Z.abs (2 ^ prec - 1) < 2 ^ prec)%Z; lia.
  - by change (3 - emax - prec <= emax - prec)%Z; lia.
have ML : (rnd r <= (IZR (2 ^ prec) - 1) * B (emax - prec))%R; last by lra.
have [le|gt] := Rle_lt_dec r ((IZR (2 ^ prec) - 1) * B (emax - prec)).
  by rewrite -[X in (_ <= X)%R](rnd_gf gM); apply: round_le.
rewrite /rounded /round /scaled_mantissa top_cexp; last by lra.
rewrite /F2R /=; apply: Rmult_le_compat_r; first by lra.
rewrite (Znearest_imp _ _ (2 ^ prec - 1)); first by rewrite minus_IZR; lra.
rewrite minus_IZR; set s := (r * _)%R.
have sE : (r = s * B (emax - prec))%R.
  by rewrite /s Rmult_assoc -bpow_plus (_ : (- (emax - prec) + (emax - prec) = 0)%Z); [rewrite /=; lra|lia].
have h1 : (IZR (2 ^ prec) - 1 < s)%R by apply: (Rmult_lt_reg_r _ _ _ bp); rewrite -sE.
have h2 : (s < IZR (2 ^ prec) - / 2)%R by apply: (Rmult_lt_reg_r _ _ _ bp); rewrite -sE -tE.
by apply: Rabs_def1; lra.
Qed.

Lemma over_threshold r : over r <-> (threshold <= Rabs r)%R.
Proof. by rewrite /overflows -round_NE_abs; exact: (over_pos (Rabs_pos r)). Qed.

Lemma rounds_nearest_below (m : M F) r : rounds m r -> nearest_below threshold m r.
Proof.
move=> [h1 h2]; split=> h; last by apply: h2; exact/over_threshold.
have [|z mz zr] := h1; first by move/over_threshold; lra.
by exists z => //; have [fz n] := rounded_nearest prec_gt_0 zr; split.
Qed.

Lemma float_values r : (exists x : F, float_is x r) <->
  binary_number prec (3 - emax - prec) (emax - prec) r.
Proof.
split=> [[x [fx <-]]|[m [e [rE hm he]]]].
  case: x fx => [s| | |s m e hb] // _; cbv [B2R].
    exists Z0, (emax - prec)%Z; split; [by rewrite Rmult_0_l|by apply: Z.pow_pos_nonneg; lia|].
    by split; lia.
  exists (cond_Zopp s (Z.pos m)), e; split=> //.
  - rewrite abs_cond_Zopp /=; have /andP[/Zeq_bool_eq hc _] := hb.
    apply: (Zpower_gt_Zdigits radix2 prec (Z.pos m)); rewrite -Zpos_digits2_pos.
    by move: hc; rewrite /SpecFloat.fexp /emin; lia.
  - by have /andP[/Zeq_bool_eq hc /Z.leb_le h] := hb; move: hc; rewrite /SpecFloat.fexp /emin; lia.
have g : generic_format radix2 fexp r.
  by apply: generic_format_FLT; exists (Float radix2 m e) => //; cbv [Fexp]; lia.
have l : (Rabs r < B emax)%R.
  rewrite rE Rabs_mult -abs_IZR (Rabs_pos_eq (B e)); last exact: bpow_ge_0.
  apply: (Rlt_le_trans _ (B prec * B e)).
    apply: Rmult_lt_compat_r; first exact: bpow_gt_0.
    by rewrite -IZR_Zpower; [exact: IZR_lt|lia].
  by rewrite -bpow_plus; apply: bpow_le; lia.
have := binary_normalize_correct prec emax prec_gt_0 prec_lt_emax mode_NE m e false.
rewrite /= /F2R /= -rE.
rewrite -[SpecFloat.fexp prec emax]/fexp (round_generic _ _ _ _ g) Rlt_bool_true // => -[h1 [h2 _]].
by eexists; split; [exact: h2|exact: h1].
Qed.

Lemma floats_range : float_range A prec (3 - emax - prec) (emax - prec) threshold.
Proof.
split; first exact: float_values.
- by move=> x y a b xa yb; refine (rounds_nearest_below _); exact: (fl_add RA xa yb).
- by move=> x y a b xa yb; refine (rounds_nearest_below _); exact: (fl_add_assign RA xa yb).
- by move=> x y a b xa yb; refine (rounds_nearest_below _); exact: (fl_sub RA xa yb).
- by move=> x y a b xa yb; refine (rounds_nearest_below _); exact: (fl_sub_assign RA xa yb).
- by move=> x y a b xa yb; refine (rounds_nearest_below _); exact: (fl_mul RA xa yb).
- by move=> x y a b xa yb; refine (rounds_nearest_below _); exact: (fl_mul_assign RA xa yb).
- by move=> x a xa; refine (rounds_nearest_below _); exact: (fl_double RA xa).
- by move=> x a xa; refine (rounds_nearest_below _); exact: (fl_square RA xa).
- by move=> x y a b xa yb b0; refine (rounds_nearest_below _); exact: (fl_div RA xa yb b0).
- by move=> x y a b xa yb b0; refine (rounds_nearest_below _); exact: (fl_quo RA xa yb b0).
- by move=> x a xa a0; refine (rounds_nearest_below _); exact: (fl_inv RA xa a0).
Qed.
End Floats.
