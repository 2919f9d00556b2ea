(** * PFloat2.v -- floats: the overflow threshold, the order, and finite results. *)

From Coq Require Import ZArith Reals Lra Lia.
From mathcomp Require Import all_ssreflect.
From Flocq Require Import Core BinarySingleNaN.
From Verif Require Import Rust Traits Wp MFloats FloatSpec PFloat Spec Laws PLaws PLaws2
  POrders PDistr ProfSpec.

Set Implicit Arguments.
Unset Strict Implicit.
Unset Printing Implicit Defensive.

Section Floats.
Variables (cfg : Cfg) (prec emax : Z).
Context (prec_gt_0 : Prec_gt_0 prec) (prec_lt_emax : Prec_lt_emax prec emax).
Local Notation F := (binary_float prec emax).
Local Notation fexp := (FLT_exp (3 - emax - prec) prec).
Local Notation rnd := (rounded prec emax).
Local Notation over := (overflows prec emax).
Local Notation A := (ApproxFloats cfg prec_gt_0 prec_lt_emax).
Implicit Types (x y z v : F) (a b r : R).

(** ** The threshold *)
Lemma overflow_threshold r :
  over r <-> (bpow radix2 emax - bpow radix2 (emax - prec - 1) <= Rabs r)%R.
Proof.
have pg : Z.lt 0 prec by exact: prec_gt_0.
have pe : Z.lt prec emax by exact: prec_lt_emax.
set B := bpow radix2 emax; set H := bpow radix2 (emax - prec - 1).
have fe : fexp emax = Z.sub emax prec by rewrite /FLT_exp; lia.
have gB : generic_format radix2 fexp B by apply: generic_format_bpow; rewrite /FLT_exp; lia.
have eH : bpow radix2 (emax - prec) = (2 * H)%R.
  by rewrite -[2%R]/(bpow radix2 1) -bpow_plus; congr bpow; lia.
have pB : pred radix2 fexp B = (B - 2 * H)%R by rewrite /B pred_bpow fe eH.
have H0 : (0 < H)%R by exact: bpow_gt_0.
have HB : (4 * H <= B)%R.
  by rewrite -[4%R]/(bpow radix2 2) -bpow_plus; apply: bpow_le; lia.
have mid : ((B + pred radix2 fexp B) / 2 = B - H)%R by rewrite pB; lra.
rewrite /overflows /rounded -round_NE_abs -/B; split=> h.
  by rewrite -mid; exact: round_N_ge_ge_midp gB h.
have [lt|e] := Rle_lt_or_eq_dec _ _ h.
  by apply: round_N_ge_midp => //; rewrite mid.
have gP : generic_format radix2 fexp (B - 2 * H) by rewrite -pB; exact: generic_format_pred.
have sP : succ radix2 fexp (B - 2 * H) = B by rewrite -pB succ_pred.
have dn : round radix2 fexp Zfloor (Rabs r) = (B - 2 * H)%R.
  by apply: round_DN_eq => //; rewrite sP -e; lra.
have up : round radix2 fexp Zceil (Rabs r) = B.
  by apply: round_UP_eq => //; rewrite pB -e; lra.
rewrite round_N_middle; last by rewrite dn up -e; lra.
rewrite up dn; suff -> : Zfloor (scaled_mantissa radix2 fexp (Rabs r)) = Z.sub (2 ^ prec) 1.
  rewrite Z.even_sub Z.even_pow // /=; lra.
have em : mag radix2 (Rabs r) = emax :> Z.
  apply: mag_unique_pos; rewrite -e -/B; split; last by lra.
  have -> : B = (2 * bpow radix2 (emax - 1))%R.
    by rewrite -[2%R]/(bpow radix2 1) -bpow_plus; congr bpow; lia.
  suff : (H <= bpow radix2 (emax - 1))%R by lra.
  by apply: bpow_le; lia.
rewrite /scaled_mantissa /cexp em fe -e; apply: Zfloor_imp.
rewrite Z.sub_add minus_IZR (IZR_Zpower radix2); last by lia.
have -> : B = (bpow radix2 prec * bpow radix2 (emax - prec))%R.
  by rewrite -bpow_plus; congr bpow; lia.
rewrite bpow_opp eH.
have -> : ((bpow radix2 prec * (2 * H) - H) * / (2 * H) = bpow radix2 prec - / 2)%R by field; lra.
lra.
Qed.

(** ** Order *)
Lemma Req_boolP : Equality.axiom Req_bool.
Proof. by move=> a b; apply: (iffP idP); case: Req_bool_spec. Qed.
Definition R_eqMixin := EqMixin Req_boolP.
Canonical R_eqType := EqType R R_eqMixin.

Variable tie : F -> F -> bool.
Local Notation L := (ApproxFloats_lattice tie).

Lemma finite_nan x : is_finite x = true -> is_nan x = false.
Proof. by case: x. Qed.

Lemma min_cases x y a b : float_is x a -> float_is y b ->
  (float_min tie x y = x \/ float_min tie x y = y) /\ float_is (float_min tie x y) (Rmin a b).
Proof.
move=> [fx <-] [fy <-]; rewrite /float_min !finite_nan //.
rewrite (Bltb_correct _ _ _ _ fx fy) (Bltb_correct _ _ _ _ fy fx).
case: Rlt_bool_spec => h1.
  by split; [left|split=> //; rewrite Rmin_left //; lra].
case: Rlt_bool_spec => h2.
  by split; [right|split=> //; rewrite Rmin_right //; lra].
have e : B2R x = B2R y by lra.
case: (tie x y); first by split; [left|split=> //; rewrite Rmin_left //; lra].
by split; [right|split=> //; rewrite Rmin_right //; lra].
Qed.
Lemma max_cases x y a b : float_is x a -> float_is y b ->
  (float_max tie x y = x \/ float_max tie x y = y) /\ float_is (float_max tie x y) (Rmax a b).
Proof.
move=> [fx <-] [fy <-]; rewrite /float_max !finite_nan //.
rewrite (Bltb_correct _ _ _ _ fx fy) (Bltb_correct _ _ _ _ fy fx).
case: Rlt_bool_spec => h1.
  by split; [right|split=> //; rewrite Rmax_right //; lra].
case: Rlt_bool_spec => h2.
  by split; [left|split=> //; rewrite Rmax_left //; lra].
have e : B2R x = B2R y by lra.
case: (tie x y); first by split; [left|split=> //; rewrite Rmax_left //; lra].
by split; [right|split=> //; rewrite Rmax_right //; lra].
Qed.

Lemma Rle_boolP a b : Rle_bool a b <-> (a <= b)%R.
Proof. by case: Rle_bool_spec => h; split=> //; lra. Qed.

Lemma floats_lattice_ok p : lattice_alg_spec p (@float_is prec emax : F -> R_eqType -> Prop) Rle_bool L.
Proof.
have eqP' x a y b : float_is x a -> float_is y b -> answers p (equals L x y) (Req_bool a b).
  move=> [fx <-] [fy <-]; apply: ensures_ret; exact: Beqb_correct.
split; first split.
- split=> //.
  + by move=> x u v [_ <-] [_ <-].
  + by move=> x v [fx _]; exact: ensures_ret.
- apply: (@order_default p F R_eqType) => [|x u y v [fx <-] [fy <-]]; first exact: eqP'.
  by apply: ensures_ret; exact: Bleb_correct.
- split=> [u|u v w|x u y v _ _]; try move=> /Rle_boolP h1; try move=> /Rle_boolP h2;
    by [apply/Rle_boolP; lra|lra].
- split=> x u y v xu yv; apply: ensures_ret.
    have [_ h] := min_cases xu yv; exists (Rmin u v) => //.
    split=> [||d /Rle_boolP h1 /Rle_boolP h2]; apply/Rle_boolP;
      by [exact: Rmin_l|exact: Rmin_r|exact: Rmin_glb].
  have [_ h] := max_cases xu yv; exists (Rmax u v) => //.
  split=> [||d /Rle_boolP h1 /Rle_boolP h2]; apply/Rle_boolP;
    by [exact: Rmax_l|exact: Rmax_r|exact: Rmax_lub].
Qed.

Lemma R_distributive : distributive_order (V := R_eqType) Rle_bool.
Proof.
apply: total_distributive => [u|u v w /Rle_boolP h1 /Rle_boolP h2|u v]; try (apply/Rle_boolP; lra).
by apply/orP; have [h|h] := Rle_or_lt u v; [left|right]; apply/Rle_boolP; lra.
Qed.

Lemma floats_lattice_laws :
  lattice_alg_laws False (@finite prec emax) L /\ lattice_distributes False (@finite prec emax) L L.
Proof.
have mmP x : finite x -> exists v : R_eqType, float_is x v by move=> fx; exists (B2R x).
split; first exact: (lattice_alg_laws_ok mmP (floats_lattice_ok False)).
exact: (lattice_alg_distr mmP R_distributive (floats_lattice_ok False)).
Qed.

Lemma floats_order_ok : real_order L.
Proof.
split.
- by move=> x; exists (is_finite x); first exact: returns_ret.
- by move=> x y a b xa yb; exists (Beqb x y); [exact: returns_ret|exact: eqb_iff].
- move=> x y a b [fx <-] [fy <-]; exists (Bleb x y); first exact: returns_ret.
  by rewrite (Bleb_correct _ _ _ _ fx fy); exact: Rle_boolP.
- move=> x y a b xa yb; have := less_than_ok (or_or_ok (la_or_ok (floats_lattice_ok False))) xa yb.
  case/ensures_False => v [hv e]; exists v => //; rewrite {}e.
  split=> [/andP[/eqP h1 /Rle_boolP h2]|h]; first by lra.
  by apply/andP; split; [apply/eqP; lra|apply/Rle_boolP; lra].
- move=> x y a b xa yb; have := comparable_ok (or_or_ok (la_or_ok (floats_lattice_ok False))) xa yb.
  case/ensures_False => v [hv e]; suff -> : true = v by [].
  by rewrite e; have [h|h] := Rle_or_lt a b; apply/esym/orP; [left|right]; apply/Rle_boolP; lra.
- move=> x y a b xa yb; have [h1 h2] := min_cases xa yb.
  by exists (float_min tie x y); [exact: returns_ret|split].
- move=> x y a b xa yb; have [h1 h2] := max_cases xa yb.
  by exists (float_max tie x y); [exact: returns_ret|split].
Qed.
End Floats.
