(** * PFloat4.v -- laws of floating point arithmetic. *)

From Coq Require Import ZArith Reals Lra Lia SpecFloat.
From mathcomp Require Import all_ssreflect.
From Flocq Require Import Core BinarySingleNaN Plus_error Sterbenz Relative Mult_error.
From Verif Require Import Rust Traits Wp MFloats FloatSpec FloatLaw PFloat PFloat3 Refuted.

Set Implicit Arguments.
Unset Strict Implicit.
Unset Printing Implicit Defensive.

Section Floats.
Variables (cfg : Cfg) (prec emax : Z).
Context (prec_gt_0 : Prec_gt_0 prec) (prec_lt_emax : Prec_lt_emax prec emax).
Local Notation F := (binary_float prec emax).
Local Notation fexp := (FLT_exp (3 - emax - prec) prec).
Local Notation rnd := (rounded prec emax).
Local Notation over := (overflows prec emax).
Local Notation A := (ApproxFloats cfg prec_gt_0 prec_lt_emax).
Implicit Types (x y z v : F) (a b r : R).

Let RA := floats_rounding cfg prec_gt_0 prec_lt_emax.

Lemma gf x a : float_is x a -> generic_format radix2 fexp a.
Proof. by move=> [_ <-]; exact: generic_format_B2R. Qed.
Lemma rnd_gf r : generic_format radix2 fexp r -> rnd r = r.
Proof. by move=> h; exact: round_generic. Qed.
Lemma bounded x a : float_is x a -> (Rabs a < bpow radix2 emax)%R.
Proof. by move=> [_ <-]; exact: abs_B2R_lt_emax. Qed.

Lemma rounds_yields m r : rounds m r -> ~ over r -> yields (m : M F) (rnd r).
Proof. by move=> [h _] o; have [x] := h o; exists x. Qed.
Lemma yields_rounds (m : M F) r s : rounds m r -> yields m s -> s = rnd r /\ ~ over r.
Proof.
move=> [h1 h2] [v mv [_ <-]].
have no : ~ over r by move=> o; exact: returns_panics mv (h2 o).
have [u mu [_ <-]] := h1 no; split=> //.
by rewrite (returns_det mv mu).
Qed.
Lemma exact_yields (m : M F) r : rounds m r -> generic_format radix2 fexp r ->
  (Rabs r < bpow radix2 emax)%R -> yields m r.
Proof.
move=> h g l; rewrite -{1}(rnd_gf g); apply: rounds_yields h _.
by rewrite /overflows (rnd_gf g); lra.
Qed.
Lemma over_dec r : over r \/ ~ over r.
Proof.
rewrite /overflows; case: (Rle_lt_dec (bpow radix2 emax) (Rabs (rnd r))) => h; [by left|right].
by lra.
Qed.
Lemma rounds_agree (m m' : M F) r : rounds m r -> rounds m' r -> agree m m'.
Proof.
move=> h h'; case: (over_dec r) => o; [right|left].
  by split; [exact: h.2|exact: h'.2].
by exists (rnd r); split; exact: rounds_yields.
Qed.
Lemma rnd_opp r : rnd (- r) = (- rnd r)%R.
Proof. exact: round_NE_opp. Qed.
Lemma over_opp r : over (- r) <-> over r.
Proof. by rewrite /overflows rnd_opp Rabs_Ropp. Qed.
(** Rounding a negated result. *)
Lemma neg_agree (m m' : M F) r : rounds m r -> rounds m' (- r) ->
  agree (let! z := m in neg A z) m'.
Proof.
move=> h h'; case: (over_dec r) => o; [right|left].
  by split; [apply: panics_bind; exact: h.2|apply: h'.2; apply/over_opp].
exists (rnd (- r)); split; last by apply: rounds_yields h' _ => /over_opp.
have [v mv vr] := rounds_yields h o.
have [u nu ur] := fl_neg RA vr.
by rewrite rnd_opp; exists u => //; exact: returns_bind nu.
Qed.
Lemma agree_sym (m m' : M F) : agree m m' -> agree m' m.
Proof. by move=> [[r [h h']]|[h h']]; [left; exists r|right]. Qed.

Lemma half_ulp : (/ 2 * bpow radix2 (- prec + 1) = bpow radix2 (- prec))%R.
Proof. by rewrite bpow_plus /= /Z.pow_pos /=; field. Qed.
Lemma half_min : (/ 2 * bpow radix2 (3 - emax - prec) = bpow radix2 (2 - emax - prec))%R.
Proof.
have -> : Z.sub (Z.sub 3 emax) prec = Z.add (Z.sub (Z.sub 2 emax) prec) 1 by lia.
by rewrite bpow_plus /= /Z.pow_pos /=; field.
Qed.

Lemma tiny r : accurate_or_tiny prec emax r (rnd r).
Proof.
have [e [h [he [hh [p E]]]]] :=
  error_N_FLT radix2 (3 - emax - prec) prec prec_gt_0 (fun n => ~~ Z.even n) r.
have -> : rnd r = (r * (1 + e) + h)%R := E.
case: (Req_dec h 0) => [->|h0].
  by left; exists e; rewrite -half_ulp; split=> //; lra.
have e0 : e = 0%R by case: (Rmult_integral _ _ p).
by right; rewrite e0 -half_min; have -> : (r * (1 + 0) + h - r = h)%R by lra.
Qed.
Lemma plus_accurate a b : generic_format radix2 fexp a -> generic_format radix2 fexp b ->
  accurate prec (a + b) (rnd (a + b)).
Proof.
move=> ga gb.
have [e [he E]] := @FLT_plus_error_N_ex radix2 (3 - emax - prec) prec prec_gt_0 (fun n => ~~ Z.even n) a b ga gb.
exists e; split=> //; rewrite -half_ulp.
by apply: (Rle_trans _ _ _ he); exact: u_rod1pu_ro_le_u_ro.
Qed.

Lemma floats_laws : float_laws A.
Proof.
have fi x : finite x -> float_is x (B2R x) by [].
have e0 : (0 < bpow radix2 emax)%R by exact: bpow_gt_0.
have g0 : generic_format radix2 fexp 0 by exact: generic_format_0.
have one_lt : (1 < bpow radix2 emax)%R.
  change 1%R with (bpow radix2 0); apply: bpow_lt.
  by have : Z.lt 0 prec := prec_gt_0; have : Z.lt prec emax := prec_lt_emax; lia.
split.
- move=> x y /fi xa /fi yb; apply: (rounds_agree (fl_add RA xa yb)).
  by rewrite Rplus_comm; exact: fl_add.
- move=> x y /fi xa /fi yb; apply: (rounds_agree (fl_mul RA xa yb)).
  by rewrite Rmult_comm; exact: fl_mul.
- move=> x z a xa z0; have g := gf xa; have l := bounded xa; split; last split.
  + by apply: exact_yields g l; rewrite -[X in rounds _ X]Rplus_0_r; exact: fl_add.
  + by apply: exact_yields g l; rewrite -[X in rounds _ X]Rplus_0_l; exact: fl_add.
  + by apply: exact_yields g l; rewrite -[X in rounds _ X]Rminus_0_r; exact: fl_sub.
- move=> x o a xa o1; have g := gf xa; have l := bounded xa; split; last split.
  + by apply: exact_yields g l; rewrite -[X in rounds _ X]Rmult_1_r; exact: fl_mul.
  + by apply: exact_yields g l; rewrite -[X in rounds _ X]Rmult_1_l; exact: fl_mul.
  + apply: exact_yields g l; have -> : a = (a / 1)%R by field.
    by apply: (fl_div RA xa o1); lra.
- move=> x z a xa z0; split; apply: exact_yields g0 _; rewrite ?Rabs_R0 //.
    by rewrite -(Rmult_0_r a); exact: fl_mul.
  by rewrite -(Rmult_0_l a); exact: fl_mul.
- move=> x y a xa yb; apply: exact_yields g0 _; rewrite ?Rabs_R0 //.
  by rewrite -(Rplus_opp_r a); exact: fl_add.
- move=> x y a xa yb; apply: exact_yields g0 _; rewrite ?Rabs_R0 //.
  by have -> : 0%R = (a - a)%R by [lra|]; exact: fl_sub.
- move=> x y a xa yb a0; apply: exact_yields; last by rewrite Rabs_R1.
    by have -> : 1%R = (a / a)%R by [field|]; exact: fl_div.
  exact: gf (float_1 prec_gt_0 prec_lt_emax).
- move=> x y /fi xa /fi yb; apply: (rounds_agree (fl_sub RA xa yb)).
  have [z nz zb] := fl_neg RA yb; apply: (rounds_bind nz); exact: fl_add.
- move=> x y /fi xa /fi yb; apply: (neg_agree (fl_sub RA xa yb)).
  by rewrite Ropp_minus_distr; exact: fl_sub.
- move=> x y /fi xa /fi yb; apply: agree_sym; apply: (neg_agree (fl_mul RA xa yb)).
  have [z nz zb] := fl_neg RA xa; apply: (rounds_bind nz).
  by rewrite Ropp_mult_distr_l; exact: fl_mul.
- move=> x y a b r xa yb /(yields_rounds (fl_sub RA xa yb)) [-> _]; split.
    move=> h; apply: Rminus_diag_uniq; case: (Req_dec (a - b) 0) => // n0; exfalso.
    move: h; apply: round_plus_neq_0 => //; [exact: gf xa|].
    by apply: generic_format_opp; exact: gf yb.
  by move=> ->; rewrite Rminus_diag_eq //; exact: round_0.
- move=> x y a b xa yb hab; apply: (exact_yields (fl_sub RA xa yb)).
    by apply: sterbenz hab; [exact: gf xa|exact: gf yb].
  have := bounded xa; have := bounded yb; move=> l1 l2.
  apply: Rle_lt_trans l1; case: (Rle_lt_dec 0 b) => hb; last lra.
  rewrite [Rabs b]Rabs_pos_eq //; apply: Rabs_le; lra.
- move=> x a xa l; apply: exact_yields l.
    by have -> : (2 * a = a + a)%R by [lra|]; exact: fl_double.
  have -> : (2 * a = a * bpow radix2 1)%R by rewrite /= /Z.pow_pos /=; lra.
  by apply: mult_bpow_pos_exact_FLT; [exact: gf xa|].
- move=> x x' y a a' b r r' xa xa' yb le.
  move=> /(yields_rounds (fl_add RA xa yb)) [-> _] /(yields_rounds (fl_add RA xa' yb)) [-> _].
  by apply: round_le; lra.
- move=> x x' y a a' b r r' xa xa' yb le b0.
  move=> /(yields_rounds (fl_mul RA xa yb)) [-> _] /(yields_rounds (fl_mul RA xa' yb)) [-> _].
  by apply: round_le; apply: Rmult_le_compat_r.
- move=> x y a b r xa yb /(yields_rounds (fl_add RA xa yb)) [-> _].
  by apply: plus_accurate; [exact: gf xa|exact: gf yb].
- move=> x y a b r xa yb /(yields_rounds (fl_sub RA xa yb)) [-> _].
  by apply: plus_accurate; [exact: gf xa|apply: generic_format_opp; exact: gf yb].
- by move=> x y a b r xa yb /(yields_rounds (fl_mul RA xa yb)) [-> _]; exact: tiny.
- by move=> x y a b r xa yb b0 /(yields_rounds (fl_div RA xa yb b0)) [-> _]; exact: tiny.
- by move=> x a r xa a0 /(yields_rounds (fl_inv RA xa a0)) [-> _]; exact: tiny.
Qed.
End Floats.

(** ** The laws that fail *)
Lemma f64_laws_fail cfg :
  (shows (let! s := add (F64 cfg) (f64_num 1 0) (f64_num 1 (-53)) in
          add (F64 cfg) s (f64_num 1 (-53))) (S754_finite false (2 ^ 52) (-52)) /\
   shows (let! s := add (F64 cfg) (f64_num 1 (-53)) (f64_num 1 (-53)) in
          add (F64 cfg) (f64_num 1 0) s) (S754_finite false (2 ^ 52 + 1) (-52))) /\
  (panics (let! p := mul (F64 cfg) (f64_num 1 1000) (f64_num 1 1000) in
           mul (F64 cfg) p (f64_num 1 (-1000))) /\
   shows (let! p := mul (F64 cfg) (f64_num 1 1000) (f64_num 1 (-1000)) in
          mul (F64 cfg) (f64_num 1 1000) p) (S754_finite false (2 ^ 52) 948)) /\
  (shows (let! s := add (F64 cfg) (f64_num 1 0) (f64_num 1 (-53)) in
          mul (F64 cfg) (f64_num 3 0) s) (S754_finite false (3 * 2 ^ 51) (-51)) /\
   shows (let! p := mul (F64 cfg) (f64_num 3 0) (f64_num 1 0) in
          let! q := mul (F64 cfg) (f64_num 3 0) (f64_num 1 (-53)) in
          add (F64 cfg) p q) (S754_finite false (3 * 2 ^ 51 + 1) (-51))) /\
  shows (let! i := finv (F64 cfg) (f64_num 49 0) in mul (F64 cfg) (f64_num 49 0) i)
    (S754_finite false (2 ^ 53 - 1) (-53)).
Proof.
split; first by split; show 0%N.
split; first by split; [run 0%N|show 0%N].
split; first by split; show 0%N.
by show 0%N.
Qed.
