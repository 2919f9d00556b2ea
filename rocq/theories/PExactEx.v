(** * PExactEx.v -- examples for floats without rounding. *)

From mathcomp Require Import all_ssreflect all_fingroup all_algebra zify ssrZ.
From Coq Require Import ZArith Lia Reals Lra SpecFloat.
From Flocq Require Import Core BinarySingleNaN.
From Verif Require Import Rust Traits MInts MConstr Wp RingSpec Spec PFloat PFloat3 PFloatEx MFloats FloatSpec
  FitSpec ExactSpec ExactQSpec PExact PExact2 PExact3.

Set Implicit Arguments.
Unset Strict Implicit.
Unset Printing Implicit Defensive.

Import GRing.Theory.
Local Open Scope ring_scope.

Lemma pow2_mod3 k : ((2 ^ Z.of_nat k) mod 3 <> 0)%Z.
Proof.
have: ((2 ^ Z.of_nat k) mod 3 = 1 \/ (2 ^ Z.of_nat k) mod 3 = 2)%Z; last lia.
elim: k => [|k IH]; first by left.
rewrite Nat2Z.inj_succ Z.pow_succ_r; last lia.
by rewrite -Z.mul_mod_idemp_r //; case: IH => ->; [right|left].
Qed.
Lemma third_not_float : ~ is_float 53 1024 (/ 3)%R.
Proof.
move=> [x [fx]]; case: x fx => [s|s||s m e h] //= _; first by lra.
rewrite /F2R /=; set n := cond_Zopp s _ => e1.
have e2 : (IZR (3 * n) * bpow radix2 e = 1)%R by rewrite mult_IZR; nra.
case: (Z.le_gt_cases 0 e) => he.
  move: e2; rewrite bpow_2 // -mult_IZR => /eq_IZR e2.
  have : (3 * n * 2 ^ e mod 3 = 0)%Z by rewrite -Z.mul_assoc Z.mul_comm Z.mod_mul.
  by rewrite e2.
have e3 : (3 * n = 2 ^ (- e))%Z.
  apply: eq_IZR; rewrite -bpow_2; last lia.
  have : (bpow radix2 e * bpow radix2 (- e) = 1)%R by rewrite -bpow_plus Z.add_opp_diag_r.
  by have := bpow_gt_0 radix2 e; have := bpow_gt_0 radix2 (- e); nra.
apply: (@pow2_mod3 (Z.to_nat (- e))); rewrite Z2Nat.id; last lia.
by rewrite -e3 Z.mul_comm Z.mod_mul.
Qed.

(** The matrix [[1, 1], [1, -1]], and the floats of its entries. *)
Definition had : 'M[Z]_2 := \matrix_(i, j) (if (i == ord_max) && (j == ord_max) then Zneg xH else Zpos xH).
Definition had_floats : seq f64 := [:: f64_num 1 0; f64_num 1 0; f64_num 1 0; f64_num (-1) 0].

Lemma one_is : is_int (f64_num 1 0) 1.
Proof.
have : float_is (f64_num 1 0) (F2R (Float radix2 (2 ^ 52) (-52))).
  by apply: (@float_num false 4503599627370496); vm_compute.
by rewrite /is_int /F2R /= /Z.pow_pos /=; have -> : (4503599627370496 * / 4503599627370496 = 1)%R by field.
Qed.
Lemma minus_is : is_int (f64_num (-1) 0) (-1).
Proof.
have : float_is (f64_num (-1) 0) (F2R (Float radix2 (- 2 ^ 52) (-52))).
  by apply: (@float_num true 4503599627370496); vm_compute.
rewrite /is_int /F2R /= /Z.pow_pos /=.
by have -> : (-4503599627370496 * / 4503599627370496 = -1)%R by field.
Qed.
Lemma had_entries : int_entries had_floats had.
Proof.
split=> // i j; rewrite mxE; case: i => [[|[|i]] hi] //; case: j => [[|[|j]] hj] //=.
all: by [exact: one_is|exact: minus_is].
Qed.
Lemma had_sign i j : had i j = Zpos xH \/ had i j = Zneg xH.
Proof. by rewrite mxE; case: ifP; auto. Qed.
Lemma had_minors : power_minors 1 had.
Proof.
move=> m f g /=; case: (leqP m 2) => hm; last first.
  left; have /injectivePn [i [j ij e]] : ~~ injectiveb f.
    by apply/injectiveP => /leq_card; rewrite !card_ord leqNgt hm.
  by apply: (determinant_alternate ij) => k; rewrite !mxE e.
case: m f g hm => [|[|[|//]]] f g _.
- by rewrite det_mx00; right; exists Z0.
- rewrite det_mx11 mxE; right; exists Z0 => //.
  by have [->|->] := had_sign (f ord0) (g ord0).
- have e i j : FitSpec.sub f g had i j = Zpos xH \/ FitSpec.sub f g had i j = Zneg xH.
    by rewrite mxE; exact: had_sign.
  move: (FitSpec.sub f g had) e => X e.
  rewrite (expand_det_row _ ord0) !big_ord_recl big_ord0 /cofactor !det_mx11 !mxE.
  case: (e ord0 ord0) => ->; case: (e (lift ord0 0) (lift ord0 0)) => ->;
    case: (e ord0 (lift ord0 ord0)) => ->; case: (e (lift ord0 0) (lift (lift ord0 ord0) 0)) => ->.
  all: by [left|right; exists (Zpos xH)].
Qed.
Lemma had_det : \det had = Zneg (xO xH).
Proof. by rewrite (expand_det_row _ ord0) !big_ord_recl big_ord0 /cofactor !det_mx11 !mxE. Qed.

(** The polynomials x^3 - 1 and x - 1, and the floats of their coefficients. *)
Definition cube_floats : seq f64 := [:: f64_num (-1) 0; f64_num 0 0; f64_num 0 0; f64_num 1 0].
Definition line_floats : seq f64 := [:: f64_num (-1) 0; f64_num 1 0].
Lemma zero_is : is_int (f64_num 0 0) 0.
Proof. by []. Qed.
Definition cube_poly : {poly Z} := Poly [:: Zneg xH; Z0; Z0; Zpos xH].
Definition line_poly : {poly Z} := Poly [:: Zneg xH; Zpos xH].
Lemma cube_seq : cube_poly = [:: Zneg xH; Z0; Z0; Zpos xH] :> seq Z.
Proof. by rewrite (@PolyK _ (Zpos xH)). Qed.
Lemma line_seq : line_poly = [:: Zneg xH; Zpos xH] :> seq Z.
Proof. by rewrite (@PolyK _ (Zpos xH)). Qed.
Lemma cube_is : poly_of (@is_int 53 1024) cube_floats cube_poly.
Proof.
rewrite /poly_of cube_seq.
by do !apply: reps_cons; [exact: minus_is|exact: zero_is|exact: zero_is|exact: one_is|exact: reps_nil].
Qed.
Lemma line_is : poly_of (@is_int 53 1024) line_floats line_poly.
Proof.
rewrite /poly_of line_seq.
by do !apply: reps_cons; [exact: minus_is|exact: one_is|exact: reps_nil].
Qed.
Lemma cube_bound i : (Z.abs cube_poly`_i <= 1)%Z.
Proof. by rewrite cube_seq; do 4 case: i => [|i] //=; rewrite nth_nil. Qed.
Lemma line_bound i : (Z.abs line_poly`_i <= 1)%Z.
Proof. by rewrite line_seq; do 2 case: i => [|i] //=; rewrite nth_nil. Qed.
Lemma line_lead : lead_coef line_poly = Zpos xH.
Proof. by rewrite lead_coefE line_seq. Qed.

(** 1/3 is not a float, 1/2 is one. *)
Lemma three_is : is_int (f64_num 3 0) 3.
Proof.
have : float_is (f64_num 3 0) (F2R (Float radix2 (3 * 2 ^ 51) (-51))).
  by apply: (@float_num false 6755399441055744); vm_compute.
by rewrite /is_int /F2R /= /Z.pow_pos /=; have -> : (6755399441055744 * / 2251799813685248 = 3)%R by field.
Qed.
Lemma two_is : is_int (f64_num 2 0) 2.
Proof.
have : float_is (f64_num 2 0) (F2R (Float radix2 (2 ^ 52) (-51))).
  by apply: (@float_num false 4503599627370496); vm_compute.
by rewrite /is_int /F2R /= /Z.pow_pos /=; have -> : (4503599627370496 * / 2251799813685248 = 2)%R by field.
Qed.
Lemma half_is : float_is (f64_num 1 (-1)) (/ 2).
Proof.
have : float_is (f64_num 1 (-1)) (F2R (Float radix2 (2 ^ 52) (-53))).
  by apply: (@float_num false 4503599627370496); vm_compute.
by rewrite /F2R /= /Z.pow_pos /=; have -> : (4503599627370496 * / 9007199254740992 = / 2)%R by field.
Qed.
Lemma invert_two_three cfg : let G := ExactFloats cfg prec64 emax64 in
  panics (finv G (f64_num 3 0)) /\ yields (finv G (f64_num 2 0)) (/ 2).
Proof.
move=> G; have h := exact_floats cfg prec64 emax64; split.
  by apply: (proj2 (ex_inv h three_is _)); [apply: IZR_neq|exact: third_not_float].
by apply: (proj1 (ex_inv h two_is _)); [apply: IZR_neq|exists (f64_num 1 (-1)); exact: half_is].
Qed.
Lemma half_denotes : denotes (f64_num 1 (-1)) (rat_of (Zpos xH) / rat_of (Zpos (xO xH))).
Proof.
apply: (float_denotes half_is); exists (Zpos xH), (Zpos (xO xH)); split=> //.
by rewrite /Rdiv Rmult_1_l.
Qed.
