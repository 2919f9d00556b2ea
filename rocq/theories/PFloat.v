(** * PFloat.v -- the arithmetic of the floats. *)

From Coq Require Import ZArith Reals Lra Lia.
From mathcomp Require Import all_ssreflect.
From Flocq Require Import Core BinarySingleNaN.
From Verif Require Import Rust Traits Wp MFloats FloatSpec.

Set Implicit Arguments.
Unset Strict Implicit.
Unset Printing Implicit Defensive.

Section Floats.
Variables (cfg : Cfg) (prec emax : Z).
Context (prec_gt_0 : Prec_gt_0 prec) (prec_lt_emax : Prec_lt_emax prec emax).
Local Notation F := (binary_float prec emax).
Local Notation fexp := (FLT_exp (3 - emax - prec) prec).
Local Notation rnd := (rounded prec emax).
Local Notation over := (overflows prec emax).
Local Notation A := (ApproxFloats cfg prec_gt_0 prec_lt_emax).
Implicit Types (x y z v : F) (a b r : R).

Lemma overflow_infinite v s : B2SF v = binary_overflow prec emax mode_NE s -> is_finite v = false.
Proof. by case: v. Qed.

(** A result that is correctly rounded if finite, and infinite otherwise. *)
Lemma rounded_cases v r (P : Prop) :
  (if Rlt_bool (Rabs (rnd r)) (bpow radix2 emax)
   then B2R v = rnd r /\ is_finite v = true /\ P else is_finite v = false) ->
  (~ over r -> float_is v (rnd r)) /\ (over r -> is_finite v = false).
Proof.
rewrite /overflows; case: Rlt_bool_spec => h.
  by move=> [e [f _]]; split=> // o; lra.
by move=> f; split=> // o; case: o.
Qed.

Lemma finite_rounds v r :
  (~ over r -> float_is v (rnd r)) /\ (over r -> is_finite v = false) ->
  rounds (finite_result v) r.
Proof.
move=> [h1 h2]; split=> o.
  have [f e] := h1 o; exists v => //.
  by rewrite /finite_result f; exact: returns_ret.
by rewrite /finite_result h2 //; exists 0.
Qed.

Lemma plus_cases x y a b : float_is x a -> float_is y b ->
  (~ over (a + b) -> float_is (Bplus mode_NE x y) (rnd (a + b))) /\
  (over (a + b) -> is_finite (Bplus mode_NE x y) = false).
Proof.
move=> [fx <-] [fy <-]; have := Bplus_correct prec emax prec_gt_0 prec_lt_emax mode_NE x y fx fy => h.
apply: rounded_cases; move: h; case: Rlt_bool; first by move=> h; exact: h.
by case=> /overflow_infinite.
Qed.
Lemma minus_cases x y a b : float_is x a -> float_is y b ->
  (~ over (a - b) -> float_is (Bminus mode_NE x y) (rnd (a - b))) /\
  (over (a - b) -> is_finite (Bminus mode_NE x y) = false).
Proof.
move=> [fx <-] [fy <-]; have := Bminus_correct prec emax prec_gt_0 prec_lt_emax mode_NE x y fx fy => h.
apply: rounded_cases; move: h; case: Rlt_bool; first by move=> h; exact: h.
by case=> /overflow_infinite.
Qed.
Lemma mult_cases x y a b : float_is x a -> float_is y b ->
  (~ over (a * b) -> float_is (Bmult mode_NE x y) (rnd (a * b))) /\
  (over (a * b) -> is_finite (Bmult mode_NE x y) = false).
Proof.
move=> [fx <-] [fy <-]; have := Bmult_correct prec emax prec_gt_0 prec_lt_emax mode_NE x y => h.
apply: rounded_cases; move: h; rewrite fx fy; case: Rlt_bool; first by move=> h; exact: h.
exact: overflow_infinite.
Qed.
Lemma div_cases x y a b : float_is x a -> float_is y b -> b <> 0%R ->
  (~ over (a / b) -> float_is (Bdiv mode_NE x y) (rnd (a / b))) /\
  (over (a / b) -> is_finite (Bdiv mode_NE x y) = false).
Proof.
move=> [fx <-] [fy <-] b0; have := Bdiv_correct prec emax prec_gt_0 prec_lt_emax mode_NE x y b0 => h.
apply: rounded_cases; move: h; rewrite fx; case: Rlt_bool; first by move=> h; exact: h.
exact: overflow_infinite.
Qed.

Lemma float_0 s : float_is (B754_zero s : F) 0.
Proof. by []. Qed.
Lemma float_1 : float_is (Bone : F) 1.
Proof. by split; [exact: is_finite_Bone|exact: Bone_correct]. Qed.

Lemma eqb_iff x y a b : float_is x a -> float_is y b -> Beqb x y = true <-> a = b.
Proof.
move=> [fx <-] [fy <-]; rewrite (Beqb_correct _ _ _ _ fx fy).
by case: Req_bool_spec.
Qed.
Lemma is_zero_tells x a : float_is x a -> tells (floats_is_zero x) (a = 0%R).
Proof.
by move=> xa; exists (Beqb x (B754_zero false)); [exact: returns_ret|exact: eqb_iff (float_0 _)].
Qed.

Lemma neg_yields x a : float_is x a -> yields (floats_neg x) (- a).
Proof.
move=> [fx <-]; exists (Bopp x); last by split; rewrite ?is_finite_Bopp ?B2R_Bopp.
by rewrite /floats_neg /finite_result is_finite_Bopp fx; exact: returns_ret.
Qed.

Lemma rounds_bind (m : M F) v (f : F -> M F) r : returns m v -> rounds (f v) r ->
  rounds (bind m f) r.
Proof.
move=> mv [h1 h2]; split=> o; last exact: panics_bind2 mv (h2 o).
by have [w fw wr] := h1 o; exists w => //; exact: returns_bind fw.
Qed.

Lemma div_eqb y b : float_is y b -> b <> 0%R -> Beqb y (B754_zero false) = false.
Proof.
move=> yb b0; apply/negP => h; apply: b0.
exact/(eqb_iff yb (float_0 false)).
Qed.
Lemma div_rounds x y a b : float_is x a -> float_is y b -> b <> 0%R ->
  rounds (floats_div prec_gt_0 prec_lt_emax x y) (a / b).
Proof.
move=> xa yb b0; rewrite /floats_div /floats_is_zero bind_ret (div_eqb yb b0).
by apply: finite_rounds; exact: div_cases.
Qed.
Lemma div_panics x y : float_is y 0 -> panics (floats_div prec_gt_0 prec_lt_emax x y).
Proof.
move=> yb; rewrite /floats_div /floats_is_zero bind_ret.
by have /(eqb_iff yb (float_0 false)) -> := erefl 0%R; exists 0.
Qed.

Lemma Bdiv_zero x y a : float_is x a -> float_is y 0 -> is_finite (Bdiv mode_NE x y) = false.
Proof.
case: x => [s|s| |s m e h]; case: y => [s'|s'| |s' m' e' h'] [//= _ _] [//= _ e0].
all: by have := eq_0_F2R radix2 _ _ e0; case: (s').
Qed.

Lemma floats_rounding : rounding_arithmetic A.
Proof.
have addP x y a b : float_is x a -> float_is y b -> rounds (add A x y) (a + b).
  by move=> xa yb; exact: finite_rounds (plus_cases xa yb).
have mulP x y a b : float_is x a -> float_is y b -> rounds (mul A x y) (a * b).
  by move=> xa yb; exact: finite_rounds (mult_cases xa yb).
have eqP' x y a b : float_is x a -> float_is y b -> tells (equals A x y) (a = b).
  by move=> xa yb; exists (Beqb x y); [exact: returns_ret|exact: eqb_iff].
have invP x a : float_is x a -> a <> 0%R ->
    (~ over (/ a) -> float_is (Bdiv mode_NE Bone x) (rnd (/ a))) /\
    (over (/ a) -> is_finite (Bdiv mode_NE Bone x) = false).
  by move=> xa a0; have := div_cases float_1 xa a0; rewrite /Rdiv Rmult_1_l.
split.
- by exists (B754_zero false); first exact: returns_ret.
- by exists Bone; [exact: returns_ret|exact: float_1].
- exact: eqP'.
- by move=> x a; exact: is_zero_tells.
- move=> x a xa; have [b hb] := eqP' x _ _ _ xa float_1.
  by exists b => //; exact: returns_bind (returns_ret _) hb.
- exact: addP.
- exact: addP.
- by move=> x a xa; exact: addP.
- exact: neg_yields.
- exact: neg_yields.
- by move=> x y a b xa yb; exact: finite_rounds (minus_cases xa yb).
- move=> x y a b xa yb; have [v nv vb] := neg_yields yb.
  by apply: (rounds_bind nv); exact: addP.
- exact: mulP.
- exact: mulP.
- by move=> x a xa; exact: mulP.
- exact: div_rounds.
- by move=> x y a _; exact: div_panics.
- move=> x a xa a0; rewrite -[(/ a)%R]Rmult_1_l -/(Rdiv 1 a).
  by apply: (rounds_bind (returns_ret _)); exact: div_rounds float_1 xa a0.
- by move=> x x0; apply: panics_bind2 (returns_ret _) _; exact: div_panics.
- move=> x a xa a0; have [h1 h2] := invP x a xa a0.
  rewrite /= /floats_try_inv bind_ret; split=> o.
    by have h := h1 o; exists (Bdiv mode_NE Bone x) => //; case: h => -> _; exact: returns_ret.
  by rewrite h2 //; exact: returns_ret.
- move=> x x0; rewrite /= /floats_try_inv bind_ret (Bdiv_zero float_1 x0).
  exact: returns_ret.
- move=> x a xa; exists (is_finite (Bdiv mode_NE Bone x)).
    rewrite /= /default_invertible /floats_try_inv bind_ret.
    by case: ifP => _; exact: returns_ret.
  have [a0|a0] := Req_EM_T a 0.
    by rewrite a0 in xa *; rewrite (Bdiv_zero float_1 xa); split=> // -[].
  have [h1 h2] := invP x a xa a0; split=> [h|[_ o]]; last by case: (h1 o).
  by split=> // o; rewrite h2 in h.
- move=> x y a b xa yb b0; rewrite /= /field_quo /assert_nonzero /= /floats_is_zero.
  by rewrite bind_ret (div_eqb yb b0); exact: div_rounds.
- move=> x y a _ yb; rewrite /= /field_quo /assert_nonzero /= /floats_is_zero.
  by have /(eqb_iff yb (float_0 false)) -> := erefl 0%R; exists 0.
- move=> x y a b xa yb b0; rewrite /= /field_rem /assert_nonzero /= /floats_is_zero.
  rewrite bind_ret (div_eqb yb b0); exists (B754_zero false) => //; exact: returns_ret.
- move=> x y a _ yb; rewrite /= /field_rem /assert_nonzero /= /floats_is_zero.
  by have /(eqb_iff yb (float_0 false)) -> := erefl 0%R; exists 0.
- move=> x y a b xa yb b0; have [h1 h2] := div_rounds xa yb b0; split=> o.
    have [z dz zr] := h1 o; exists z => //; rewrite /= /field_try_div.
    by apply: returns_bind dz _; exact: returns_ret.
  by apply: panics_bind; exact: h2.
Qed.

(** ** The rounded number is the nearest float *)
Lemma generic_B2R x : generic_format radix2 fexp (B2R x).
Proof. exact: generic_format_B2R. Qed.

Lemma rounded_nearest x r : float_is x (rnd r) -> nearest x r.
Proof.
move=> [fx e]; split=> // y fy; rewrite e.
have [_ h] := round_N_pt radix2 fexp (fun n => ~~ Z.even n) r.
exact: h (generic_B2R y).
Qed.

(** ** times and int *)
Section Times.
Hypotheses (w0 : Z.lt 0 (ptr_bits cfg)) (wmax : Z.le (ptr_bits cfg) emax).

Lemma isize_small n : is_isize cfg n -> ~ over (IZR n).
Proof.
rewrite /is_isize /in_i /imin /imax => /andP[/Z.leb_le h1 /Z.leb_le h2].
have pg : Z.lt 0 prec by exact: prec_gt_0.
have pe : Z.lt prec emax by exact: prec_lt_emax.
have le : (Rabs (IZR n) <= bpow radix2 (emax - 1))%R.
  apply: (Rle_trans _ (bpow radix2 (ptr_bits cfg - 1))); last by apply: bpow_le; lia.
  rewrite -abs_IZR -IZR_Zpower; last by lia.
  by apply: IZR_le => /=; lia.
have gf : generic_format radix2 fexp (bpow radix2 (emax - 1)).
  by apply: generic_format_bpow; rewrite /FLT_exp; lia.
have := abs_round_le_generic radix2 fexp ZnearestE _ _ gf le; rewrite -/(rnd (IZR n)).
rewrite /overflows; have : (bpow radix2 (emax - 1) < bpow radix2 emax)%R by apply: bpow_lt; lia.
move=> h3 h4 h5; have h6 : (Rabs (rnd (IZR n)) <= bpow radix2 (emax - 1))%R by apply: h4; exact: _.
by lra.
Qed.

Lemma of_isize n : is_isize cfg n ->
  float_is (float_of_isize prec_gt_0 prec_lt_emax n) (rnd (IZR n)).
Proof.
move=> hn; have := binary_normalize_correct prec emax prec_gt_0 prec_lt_emax mode_NE n 0 false.
have -> : F2R (Float radix2 n 0) = IZR n by rewrite /F2R /= Rmult_1_r.
have := isize_small hn; rewrite /overflows -/(rnd (IZR n)) => o.
by case: Rlt_bool_spec => [h [e [f _]]|h] //; case: o.
Qed.

Lemma times_cases n x a : is_isize cfg n -> float_is x a ->
  exists2 v, returns (ztimes A n x) v &
    (~ over (rnd (IZR n) * a) -> float_is v (rnd (rnd (IZR n) * a))) /\
    (over (rnd (IZR n) * a) -> exists s, v = B754_infinity s).
Proof.
move=> hn xa; have na := of_isize hn.
exists (Bmult mode_NE (float_of_isize prec_gt_0 prec_lt_emax n) x); first exact: returns_ret.
have [h1 h2] := mult_cases na xa; split=> // o; have := h2 o.
have := Bmult_correct prec emax prec_gt_0 prec_lt_emax mode_NE
  (float_of_isize prec_gt_0 prec_lt_emax n) x.
move: o; rewrite /overflows; case: na => [fn ->]; case: xa => [fx ->] o.
rewrite -/(rnd (rnd (IZR n) * a)); case: Rlt_bool_spec => [h|_]; first by lra.
by case: (Bmult _ _ _) => // s _ _; exists s.
Qed.

Lemma rounded_int n : Z.le (Z.abs n) (2 ^ prec) -> rnd (IZR n) = IZR n.
Proof.
have pg : Z.lt 0 prec by exact: prec_gt_0.
have pe : Z.lt prec emax by exact: prec_lt_emax.
move=> hn; apply: round_generic.
have [hlt|heq] : Z.lt (Z.abs n) (2 ^ prec) \/ Z.abs n = Z.pow 2 prec by lia.
  apply: generic_format_FLT; exists (Float radix2 n 0) => //.
    by rewrite /F2R /= Rmult_1_r.
  by change (Z.le (3 - emax - prec) 0); lia.
have gf : generic_format radix2 fexp (bpow radix2 prec).
  by apply: generic_format_bpow; rewrite /FLT_exp; lia.
rewrite -IZR_Zpower in gf; last by lia.
have [->|->] : n = Zpower radix2 prec \/ n = Z.opp (Zpower radix2 prec) by simpl; lia.
  exact: gf.
by rewrite opp_IZR; exact: generic_format_opp.
Qed.

Lemma times_rounds n x a : is_isize cfg n -> Z.le (Z.abs n) (2 ^ prec) -> float_is x a ->
  exists2 v, returns (ztimes A n x) v &
    (~ over (IZR n * a) -> float_is v (rnd (IZR n * a))) /\
    (over (IZR n * a) -> exists s, v = B754_infinity s).
Proof. by move=> hn hp /(times_cases hn); rewrite rounded_int. Qed.

Lemma int_rounds n : is_isize cfg n -> yields (int A n) (rnd (IZR n)).
Proof.
move=> hn; have [v hv [h1 _]] := times_cases hn float_1.
have e : (rnd (rnd (IZR n) * 1) = rnd (IZR n))%R.
  by rewrite Rmult_1_r; apply: round_generic; exact: generic_format_round.
exists v; first exact: returns_bind (returns_ret _) hv.
rewrite -e; apply: h1; rewrite /overflows e; exact: isize_small.
Qed.
End Times.
End Floats.
