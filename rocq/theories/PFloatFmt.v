(** * PFloatFmt.v -- which numbers the floats are. *)

From Coq Require Import ZArith Reals Lia Lra SpecFloat.
From mathcomp Require Import all_ssreflect.
From Flocq Require Import Core BinarySingleNaN.
From Verif Require Import Rust Traits MFloats FloatSpec PFloat PFloat2 Wp.

Set Implicit Arguments.
Unset Strict Implicit.
Unset Printing Implicit Defensive.

Section Fmt.
Variables (cfg : Cfg) (prec emax : Z).
Variables (hp : Prec_gt_0 prec) (he : Prec_lt_emax prec emax).
Local Notation F := (binary_float prec emax).

Lemma float_of_num (m e : Z) :
  (Z.abs m < 2 ^ prec)%Z -> (3 - emax - prec <= e <= emax - prec)%Z ->
  exists x : F, float_is x (IZR m * bpow radix2 e).
Proof.
move=> hm [h1 h2].
have p0 : (0 < prec)%Z by exact: hp.
have hb : (IZR (Z.abs m) < bpow radix2 prec)%R.
  rewrite -IZR_Zpower; last by lia.
  by apply: IZR_lt; exact: hm.
have hg : generic_format radix2 (FLT_exp (3 - emax - prec) prec) (IZR m * bpow radix2 e).
  apply: generic_format_FLT.
  by exists (Float radix2 m e).
have := binary_normalize_correct prec emax hp he mode_NE m e false.
rewrite /F2R [Fnum _]/= [Fexp _]/=.
change (round radix2 _ _ _) with (rounded prec emax (IZR m * bpow radix2 e)); rewrite /rounded round_generic //.
rewrite Rlt_bool_true.
  by case=> e1 [e2 _]; exists (binary_normalize prec emax hp he mode_NE m e false).
rewrite Rabs_mult (Rabs_pos_eq (bpow radix2 e)); last exact: bpow_ge_0.
rewrite -abs_IZR.
apply: (Rlt_le_trans _ (bpow radix2 prec * bpow radix2 e)).
  apply: Rmult_lt_compat_r => //; exact: bpow_gt_0.
by rewrite -bpow_plus; apply: bpow_le; lia.
Qed.

Lemma num_of_float (x : F) r : float_is x r ->
  exists m e : Z, [/\ r = (IZR m * bpow radix2 e)%R, (Z.abs m < 2 ^ prec)%Z
    & (3 - emax - prec <= e <= emax - prec)%Z].
Proof.
case=> fx <-.
have p0 : (0 < prec)%Z by exact: hp.
have p1 : (prec < emax)%Z by exact: he.
case: x fx => [s| s | | s m e hb] fx; try by [].
  exists 0%Z, (emax - prec)%Z; split; [by rewrite Rmult_0_l | | split; lia].
  by apply: Z.pow_pos_nonneg; lia.
exists (cond_Zopp s (Zpos m)), e.
have /andP [hc hl] := hb.
have hl' : (e <= emax - prec)%Z by apply/Z.leb_le.
have hc' : fexp prec emax (Zpos (digits2_pos m) + e) = e.
  by apply/Zeq_bool_eq.
split.
- by rewrite /F2R.
- rewrite abs_cond_Zopp.
  have hd : (Zpos (digits2_pos m) <= prec)%Z.
    move: hc'; rewrite /fexp /emin; lia.
  have := Zdigits_correct radix2 (Zpos m).
  rewrite -Zpos_digits2_pos => -[_ h].
  apply: (Z.lt_le_trans _ _ _ h).
  by apply: (Z.pow_le_mono_r 2); lia.
- split => //; move: hc'; rewrite /fexp /emin; lia.
Qed.

Lemma floats_format r :
  (exists x : F, returns (contains (ApproxFloats cfg hp he) x) true /\ B2R x = r) <->
  exists m e : Z, [/\ r = (IZR m * bpow radix2 e)%R, (Z.abs m < 2 ^ prec)%Z
    & (3 - emax - prec <= e <= emax - prec)%Z].
Proof.
split.
  case=> x [h hx]; apply: (@num_of_float x); split=> //.
  by have := returns_det h (returns_ret (is_finite x)) => ->.
case=> m [e [-> h1 h2]]; case: (float_of_num h1 h2) => x [fx hx].
by exists x; split=> //; rewrite -fx; exact: returns_ret.
Qed.
End Fmt.

Lemma f32_f64_format cfg (r : R) :
  ((exists x : f32, returns (contains (F32 cfg) x) true /\ B2R x = r) <->
   (exists m e : Z, [/\ r = (IZR m * bpow radix2 e)%R, (Z.abs m < 2 ^ 24)%Z
      & (-149 <= e <= 104)%Z])) /\
  ((exists x : f64, returns (contains (F64 cfg) x) true /\ B2R x = r) <->
   (exists m e : Z, [/\ r = (IZR m * bpow radix2 e)%R, (Z.abs m < 2 ^ 53)%Z
      & (-1074 <= e <= 971)%Z])).
Proof. by split; exact: floats_format. Qed.

(** 2^24 + 1 needs 25 bits. *)
Lemma f32_f64_differ cfg (r := IZR (2 ^ 24 + 1)) :
  (~ exists x : f32, returns (contains (F32 cfg) x) true /\ B2R x = r) /\
  (exists x : f64, returns (contains (F64 cfg) x) true /\ B2R x = r).
Proof.
case: (f32_f64_format cfg r) => h1 h2; split; last first.
  apply/h2; exists (2 ^ 24 + 1)%Z, 0%Z; split; [by rewrite Rmult_1_r | by [] | by []].
move/h1 => -[m [e [hr hm he]]].
case: (Z_lt_le_dec 0 e) => h.
  have : IZR (2 ^ 24 + 1) = IZR (m * 2 ^ e).
    by rewrite mult_IZR (IZR_Zpower radix2) //; lia.
  move/eq_IZR; have -> : e = Z.succ (e - 1) by lia.
  rewrite Z.pow_succ_r; lia.
have hb : (bpow radix2 e <= 1)%R by apply: (bpow_le radix2 e 0).
have h0 : (0 <= bpow radix2 e)%R by exact: bpow_ge_0.
have h3 : (Rabs (IZR m) <= IZR (2 ^ 24))%R.
  by rewrite -abs_IZR; apply: IZR_le; lia.
have h4 : (Rabs r <= Rabs (IZR m) * 1)%R.
  rewrite hr Rabs_mult (Rabs_pos_eq _ h0).
  by apply: Rmult_le_compat_l => //; exact: Rabs_pos.
have h5 : (IZR (2 ^ 24 + 1) <= IZR (2 ^ 24))%R.
  apply: (Rle_trans _ (Rabs r)); first exact: Rle_abs.
  by lra.
by have := le_IZR _ _ h5.
Qed.
