(** * PPar5.v -- floats that differ in the sign of zero only do alike. *)

From Coq Require Import ZArith.
From mathcomp Require Import all_ssreflect.
From Coq Require Import SpecFloat.
From Flocq Require Import Core BinarySingleNaN.
From Coq Require Import Znumtheory.
From Verif Require Import Rust Traits MInts MConstr MFloats Wp NumSpec ModSpec PModProps ParSpec.
From Verif Require Import PPar PPar2 PPar3 PPar4.

Set Implicit Arguments.
Unset Strict Implicit.
Unset Printing Implicit Defensive.

Section Floats.
Variables (c : Cfg) (prec emax : Z) (ok : Z -> Prop).
Context (prec_gt_0 : Prec_gt_0 prec) (prec_lt_emax : Prec_lt_emax prec emax).
Local Notation F := (binary_float prec emax).
Local Notation R := (@same_float prec emax).
Local Notation A := (ApproxFloats c prec_gt_0 prec_lt_emax).
Local Notation par := (@alike _ _).
Implicit Types x y z : F.

Lemma same_float_refl x : R x x. Proof. by left. Qed.
Lemma same_zeros s t : R (B754_zero s) (B754_zero t).
Proof. by right; exists s, t. Qed.
Hint Resolve same_float_refl same_zeros : core.

Lemma compare_same x y : Bcompare x y = Some Eq -> R x y.
Proof.
rewrite /Bcompare; case: x => [s|s||s m e b]; case: y => [t|t||t n d b'] //=;
  try by [case: s|case: t].
  by case: s t => [] [] // _; left.
case: s b => b; case: t b' => b' //; case: Z.compare_spec => // e1;
  rewrite -/(Pos.compare m n); case: Pos.compare_spec => // e2 _; subst; left;
  by rewrite (eq_irrelevance b b').
Qed.
Lemma same_compare x y x' y' : R x x' -> R y y' -> Bcompare x y = Bcompare x' y'.
Proof.
by case=> [<-|[s [t [-> ->]]]] [<-|[s' [t' [-> ->]]]] //; case: x.
Qed.
Lemma compare_self x : is_nan x = false -> Bcompare x x = Some Eq.
Proof.
case: x => // [[]|s m e b] // _; rewrite /Bcompare /= Z.compare_refl.
by rewrite -/(Pos.compare m m) Pos.compare_refl; case: s b.
Qed.

Lemma same_equals x y : is_finite x -> (Beqb x y <-> R x y).
Proof.
move=> fx; rewrite /Beqb /SFeqb -/(Bcompare x y); split.
  by case E: (Bcompare x y) => [[]|] // _; exact: compare_same.
move=> h; rewrite -(same_compare (same_float_refl x) h) compare_self //.
by case: x fx {h}.
Qed.

Lemma same_finite x y : R x y -> is_finite x = is_finite y.
Proof. by case=> [->|[s [t [-> ->]]]]. Qed.
Lemma same_nan x y : R x y -> is_nan x = is_nan y.
Proof. by case=> [->|[s [t [-> ->]]]]. Qed.

Lemma same_eqb x y x' y' : R x x' -> R y y' -> Beqb x y = Beqb x' y'.
Proof. by move=> hx hy; have := same_compare hx hy; rewrite /Beqb /SFeqb /Bcompare => ->. Qed.
Lemma same_leb x y x' y' : R x x' -> R y y' -> Bleb x y = Bleb x' y'.
Proof. by move=> hx hy; have := same_compare hx hy; rewrite /Bleb /SFleb /Bcompare => ->. Qed.
Lemma same_ltb x y x' y' : R x x' -> R y y' -> Bltb x y = Bltb x' y'.
Proof. by move=> hx hy; have := same_compare hx hy; rewrite /Bltb /SFltb /Bcompare => ->. Qed.

Lemma same_mult x y x' y' : R x x' -> R y y' -> R (Bmult mode_NE x y) (Bmult mode_NE x' y').
Proof.
case=> [<-|[s [t [-> ->]]]] [<-|[s' [t' [-> ->]]]] //=; first by case: x => //=.
by case: y => //=.
Qed.
Lemma same_plus x y x' y' : R x x' -> R y y' -> R (Bplus mode_NE x y) (Bplus mode_NE x' y').
Proof.
case=> [<-|[s [t [-> ->]]]] [<-|[s' [t' [-> ->]]]] //=.
- by case: x => //= s0; case: (Bool.eqb s0 s'); case: (Bool.eqb s0 t').
- by case: y => //= s0; case: (Bool.eqb s s0); case: (Bool.eqb t s0).
- by case: (Bool.eqb s s'); case: (Bool.eqb t t').
Qed.
Lemma same_opp x x' : R x x' -> R (Bopp x) (Bopp x').
Proof. by case=> [<-|[s [t [-> ->]]]] //=. Qed.
Lemma same_minus x y x' y' : R x x' -> R y y' -> R (Bminus mode_NE x y) (Bminus mode_NE x' y').
Proof.
case=> [<-|[s [t [-> ->]]]] [<-|[s' [t' [-> ->]]]] //=.
- by case: x => //= s0; case: (Bool.eqb _ _); case: (Bool.eqb _ _).
- by case: y => //= s0; case: (Bool.eqb _ _); case: (Bool.eqb _ _).
- by case: (Bool.eqb _ _); case: (Bool.eqb _ _).
Qed.
(** Division by zeros of different sign gives different infinities, or NaN. *)
Lemma same_div x y x' y' : R x x' -> R y y' ->
  R (Bdiv mode_NE x y) (Bdiv mode_NE x' y') \/
  is_finite (Bdiv mode_NE x y) = false /\ is_finite (Bdiv mode_NE x' y') = false.
Proof.
case=> [<-|[s [t [-> ->]]]] [<-|[s' [t' [-> ->]]]] //=; try by left.
  by case: x => //= *; try (by left); right.
by case: y => //= *; left.
Qed.

Lemma par_finite x y : R x y -> par R (finite_result x) (finite_result y).
Proof.
move=> h; rewrite /finite_result (same_finite h).
by apply: par_bind (par_assert _) _ => _ _ _; exact: par_ret.
Qed.
Lemma floats_ring_par : ring_alg_par ok R A A.
Proof.
have hadd : par2 R (add A) (add A).
  by move=> x y x' y' hx hy; apply: par_finite; exact: same_plus.
have hmul : par2 R (mul A) (mul A).
  by move=> x y x' y' hx hy; apply: par_finite; exact: same_mult.
have hneg : par1 R (neg A) (neg A).
  by move=> x x' hx; apply: par_finite; exact: same_opp.
have hone : par R (one A) (one A) by exact: par_ret.
have hzero : par R (zero A) (zero A) by exact: par_ret.
have hti : par1o R (try_inv A) (try_inv A).
  move=> x x' hx; apply: par_ret.
  case: (same_div (same_float_refl Bone) hx) => [h|[-> ->]] //.
  by rewrite (same_finite h); case: ifP.
have hd : par1 R (double A) (double A) by exact: par_double.
have ht n : par1 R (ztimes A n) (ztimes A n).
  by move=> x x' hx; apply: par_ret; exact: same_mult.
have he : par2b R (equals A) (equals A).
  by move=> x y x' y' hx hy; apply: par_ret; exact: same_eqb.
split.
- split.
  + by split=> // x x' hx; apply: par_ret; exact: same_finite.
  + by split=> // x x' hx; exact: hmul.
  + split=> //.
      exact: par_is_zero he hone.
    exact: par_invertible.
- split=> //.
    by move=> x x' hx; apply: par_ret; exact: same_eqb.
  by move=> n n0; apply: par_ntimes.
- split=> //.
    by move=> x y x' y' hx hy; apply: par_finite; exact: same_minus.
  exact: par_sub_assign.
- by split=> n _; apply: par_int => //; exact: ht.
Qed.
Lemma floats_field_par : field_alg_par ok R A A.
Proof.
have hR := floats_ring_par; apply: par_field_alg => //.
have hd : par2 R (floats_div prec_gt_0 prec_lt_emax) (floats_div prec_gt_0 prec_lt_emax).
  move=> x y x' y' hx hy; apply: par_bind (is_zero_par hR hy) _ => b _ <-.
  apply: par_bind (par_assert _) _ => _ _ _.
  case: (same_div hx hy) => [h|[h1 h2]]; first exact: par_finite.
  by rewrite /finite_result h1 h2; exact: par_panic.
split=> //.
  by move=> x x' hx; apply: par_bind (one_par hR) _ => o o' oo; exact: hd.
move=> n okn; apply: par_fpower (okn).
- exact: hR.
- exact: is_zero_par hR.
- exact: zero_par hR.
Qed.

Lemma floats_lattice_par (tie1 tie2 : F -> F -> bool) :
  lattice_alg_par R (ApproxFloats_lattice tie1) (ApproxFloats_lattice tie2).
Proof.
have he : par2b R (equals (floats_domain prec emax)) (equals (floats_domain prec emax)).
  by move=> x y x' y' hx hy; apply: par_ret; exact: same_eqb.
have hl : par2b R (@floats_leq prec emax) (@floats_leq prec emax).
  by move=> x y x' y' hx hy; apply: par_ret; exact: same_leb.
have tied x y x' y' : R x x' -> R y y' -> is_nan x = false -> is_nan y = false ->
    Bltb x y = false -> Bltb y x = false -> R x y' /\ R y x'.
  move=> hx hy nx ny; rewrite /Bltb /SFltb -/(Bcompare x y) -/(Bcompare y x).
  rewrite [Bcompare y x]Bcompare_swap; case E: (Bcompare x y) => [[]|] //= _ _.
    split; apply: compare_same.
      by rewrite -(same_compare (same_float_refl x) hy).
    by rewrite Bcompare_swap -(same_compare hx (same_float_refl y)) E.
  by move: E nx ny; rewrite /Bcompare; case: (x) => [s|s||s m e b]; case: (y) => [t|t||t n d b'].
split; first by split; [split=> // x x' hx; apply: par_ret; exact: same_finite|split=> //;
  [exact: par_less_than|exact: par_comparable]].
split=> x y x' y' hx hy; apply: par_ret.
  rewrite /float_min -(same_nan hx) -(same_nan hy) -(same_ltb hx hy) -(same_ltb hy hx).
  case nx: (is_nan x) => //; case ny: (is_nan y) => //.
  case l1: (Bltb x y) => //; case l2: (Bltb y x) => //.
  have [h1 h2] := tied _ _ _ _ hx hy nx ny l1 l2.
  by case: (tie1 x y); case: (tie2 x' y').
rewrite /float_max -(same_nan hx) -(same_nan hy) -(same_ltb hx hy) -(same_ltb hy hx).
case nx: (is_nan x) => //; case ny: (is_nan y) => //.
case l1: (Bltb x y) => //; case l2: (Bltb y x) => //.
have [h1 h2] := tied _ _ _ _ hx hy nx ny l1 l2.
by case: (tie1 x y); case: (tie2 x' y').
Qed.
End Floats.

(** ** Corollaries *)
Section Corollaries.
Variable c : Cfg.
Local Notation ok := (ModSpec.usual_isize c).

Lemma residues_signs m : Z.le 2 (Z.abs m) ->
  ring_alg_par ok (same_residue (Z.abs m)) (QuotientRing c ZZ m) (QuotientRing c ZZ (- m)).
Proof.
move=> m2; apply: quotient_rings => //; [exact: zz_settled|exact: zz_settled|exact: zz_quotient|].
by rewrite -(Z.abs_opp m); apply: zz_quotient; rewrite Z.abs_opp.
Qed.
Lemma residues_machine w m : Z.le 4 w -> fits w m -> Z.le 2 (Z.abs m) ->
  Z.lt ((Z.abs m - 1) * (Z.abs m - 1))%Z (2 ^ (w - 1)) ->
  ring_alg_par ok (same_residue (Z.abs m)) (QuotientRing c ZZ m)
    (QuotientRing c (CheckedInts c w) m).
Proof.
move=> w4 fm m2 hm; apply: quotient_rings => //.
- exact: zz_settled.
- exact: ci_settled.
- exact: zz_quotient.
- exact: ints_quotient_small.
Qed.
Lemma prime_fields w q : Z.le 4 w -> prime q -> Z.lt ((q - 1) * (q - 1))%Z (2 ^ (w - 1)) ->
  field_alg_par ok (same_residue q) (QuotientField c ZZ q) (QuotientField c (CheckedInts c w) q).
Proof.
move=> w4 hq hm; apply: quotient_fields.
- exact: prime_ge_2.
- exact: zz_settled.
- exact: ci_settled.
- exact: zz_prime_field.
- exact: ints_prime_field_small.
Qed.
Lemma bits_gf2 : field_alg_par ok bit_residue BB (GF2 c).
Proof. by apply: bits_field; [exact: ci_settled|exact: gf2_field]. Qed.
Lemma bits_zz : field_alg_par ok bit_residue BB (QuotientField c ZZ 2%Z).
Proof. by apply: bits_field; [exact: zz_settled|apply: zz_prime_field; exact: prime_2]. Qed.
End Corollaries.

Lemma par_additive_group c ok E1 E2 (R : E1 -> E2 -> Prop) (A1 : AbelianAlg E1)
    (A2 : AbelianAlg E2) : abelian_alg_par ok R A1 A2 ->
  group_alg_par ok R (AdditiveGroup c A1) (AdditiveGroup c A2).
Proof.
by move=> [hD hC hG]; apply: par_additive => //; exact: neg_par hG.
Qed.
