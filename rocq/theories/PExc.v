(** * PExc.v -- infinities and NaN as arguments of the floating point methods. *)

From Coq Require Import ZArith Reals Lra Lia.
From mathcomp Require Import all_ssreflect.
From Flocq Require Import Core BinarySingleNaN.
From Verif Require Import Rust Traits Wp MFloats Spec ModSpec FloatSpec ExcSpec PDefaults PFloat.

Set Implicit Arguments.
Unset Strict Implicit.
Unset Printing Implicit Defensive.

Section Exc.
Variables (cfg : Cfg) (prec emax : Z).
Context (prec_gt_0 : Prec_gt_0 prec) (prec_lt_emax : Prec_lt_emax prec emax).
Local Notation F := (binary_float prec emax).
Local Notation A := (ApproxFloats cfg prec_gt_0 prec_lt_emax).
Local Notation inf s := (B754_infinity s : F).
Local Notation nan := (B754_nan : F).
Implicit Types (x y z v : F) (s t : bool).

Lemma exc_finite_result x : exceptional x -> panics (finite_result x).
Proof. by rewrite /finite_result => ->; exists 0. Qed.
Lemma exc_plus x y : exceptional x \/ exceptional y -> exceptional (Bplus mode_NE x y).
Proof. by case: x y => [sx|sx||sx mx ex bx] [sy|sy||sy my ey by_] [] //= _; rewrite /Bplus; case: ifP. Qed.
Lemma exc_minus x y : exceptional x \/ exceptional y -> exceptional (Bminus mode_NE x y).
Proof. by case: x y => [sx|sx||sx mx ex bx] [sy|sy||sy my ey by_] [] //= _; rewrite /Bminus; case: ifP. Qed.
Lemma exc_mult x y : exceptional x \/ exceptional y -> exceptional (Bmult mode_NE x y).
Proof. by case: x y => [sx|sx||sx mx ex bx] [sy|sy||sy my ey by_] []. Qed.
Lemma exc_opp x : exceptional x -> exceptional (Bopp x).
Proof. by case: x. Qed.
Lemma exc_div x y : exceptional x -> exceptional (Bdiv mode_NE x y).
Proof. by case: x y => [sx|sx||sx mx ex bx] [sy|sy||sy my ey by_]. Qed.
Lemma exc_div_nan x : exceptional (Bdiv mode_NE x nan).
Proof. by case: x. Qed.
Lemma exc_eqb x y : exceptional x -> is_finite y -> Beqb x y = false.
Proof. by case: x y => [sx|sx||sx mx ex bx] [sy|sy||sy my ey by_] //=; case: sx. Qed.

(** Loops with a bad element *)
Lemma exc_power_loop op dbl n x r : Z.lt 0 n ->
  (forall y, panics (op y x)) -> panics (dbl x) -> panics (power_loop op dbl n x r : M (Z * F * F)).
Proof.
move=> n0 ho hd; rewrite /power_loop /while_loop.
have hb : panics (bind (if (Z.rem n 2 =? 0)%Z then ret r else op r x) (fun res =>
    bind (dbl x) (fun elem => ret (Z.quot n 2, elem, res)))).
  by case: ifP => _; [apply: panics_bind hd|apply: panics_bind; exact: ho].
case: hb => k hk; exists k.+1 => -[|j] //= kj; rewrite /bind /=.
have -> : (n >? 0)%Z = true by rewrite Z.gtb_lt.
by have := hk j.+1 (ltnW kj); rewrite /bind; case: ifP => /= _ ->.
Qed.

(** Products of one and zeros *)
Definition one_zero x (o : option bool) : Prop := x = if o is Some s then B754_zero s else Bone.
Definition oz_mul (a b : option bool) : option bool :=
  match a, b with Some s, Some t => Some (xorb s t) | Some s, None => Some s | None, o => o end.
Lemma oz_mulA : associative oz_mul.
Proof. by case=> [[]|] [[]|] [[]|]. Qed.
Lemma oz_mul1 : right_id None oz_mul.
Proof. by case. Qed.
Lemma one_zero_mul x (a : option bool) y (b : option bool) : one_zero x a -> one_zero y b ->
  gives False one_zero (mul A x y) (oz_mul a b).
Proof.
move=> -> -> /=; rewrite /floats_mul /finite_result.
have [one1 one2] : Bsign (Bone : F) = false /\ is_finite (Bone : F).
  by split; [exact: Bsign_Bone|exact: is_finite_Bone].
have onef : is_finite_strict (Bone : F) by exact: is_finite_strict_Bone.
case: a b => [s|] [t|] /=.
- by apply: ensures_ret.
- by move: one1 onef {one2}; move: (Bone : F) => [s0|s0||s0 m e b] //= -> _; rewrite /= Bool.xorb_false_r; apply: ensures_ret.
- by move: one1 onef {one2}; move: (Bone : F) => [s0|s0||s0 m e b] //= -> _; apply: ensures_ret; case: t.
have h := @mult_cases _ _ prec_gt_0 prec_lt_emax _ _ _ _ (@float_1 _ _ prec_gt_0 prec_lt_emax) (@float_1 _ _ prec_gt_0 prec_lt_emax).
have [h1 _] := h; rewrite Rmult_1_r in h1.
have pg : Z.lt 0 prec by exact: prec_gt_0.
have pe : Z.lt prec emax by exact: prec_lt_emax.
have no1 : ~ overflows prec emax 1.
  rewrite /overflows -[1%R]/(IZR 1) rounded_int; last by have := Z.pow_pos_nonneg 2 prec; lia.
  rewrite Rabs_R1; have : (bpow radix2 0 < bpow radix2 emax)%R by apply: bpow_lt; lia.
  by rewrite /=; lra.
have [f1 e1] := h1 no1; rewrite f1 /=; apply: ensures_ret; rewrite /one_zero.
rewrite -[1%R]/(IZR 1) rounded_int in e1; last by have := Z.pow_pos_nonneg 2 prec; lia.
apply: B2R_Bsign_inj => //; first by rewrite e1 Bone_correct.
rewrite Bsign_Bone; case: (Bmult mode_NE _ _) f1 e1 => //= [s _ /esym|s m e b _].
  by move/R1_neq_R0.
case: s => //= e1; have : (F2R (Float radix2 (Zneg m) e) < 0)%R by exact: F2R_lt_0.
by rewrite e1; lra.
Qed.
Lemma oz_npow s n : (0 < n)%nat -> npow oz_mul None (Some s) n = Some (s && odd n).
Proof.
case: n => // n _; elim: n => [|n IH]; first by rewrite /= andbT.
by move: IH; rewrite /npow !iterS => -> /=; case: s; case: (odd n).
Qed.

Hypotheses (w0 : Z.lt 0 (ptr_bits cfg)) (wmax : Z.le (ptr_bits cfg) emax).

Lemma isize_sign n : is_isize cfg n ->
  let x := float_of_isize prec_gt_0 prec_lt_emax n in
  is_finite x /\ if (n =? 0)%Z then exists s, x = B754_zero s
                 else B2R x <> 0%R /\ Bsign x = (n <? 0)%Z.
Proof.
move=> hn x.
have pg : Z.lt 0 prec by exact: prec_gt_0.
have pe : Z.lt prec emax by exact: prec_lt_emax.
have := binary_normalize_correct prec emax prec_gt_0 prec_lt_emax mode_NE n 0 false.
have -> : F2R (Float radix2 n 0) = IZR n by rewrite /F2R /= Rmult_1_r.
have := @isize_small cfg _ _ prec_gt_0 prec_lt_emax w0 wmax n hn.
rewrite /overflows -/(rounded prec emax (IZR n)) -/(float_of_isize prec_gt_0 prec_lt_emax n) -/x => o.
case: Rlt_bool_spec => [h [e [f sg]]|h]; last by case: o.
split=> //; case: Z.eqb_spec => n0.
  move: e; rewrite n0 rounded_int; last by have := Z.pow_pos_nonneg 2 prec; lia.
  by case: (x) f => // [s _ _|s m ex b _ /= /eq_0_F2R]; [exists s|case: s].
split.
  have lo : (1 <= Rabs (rounded prec emax (IZR n)))%R.
    apply: abs_round_ge_generic.
      by rewrite -[1%R]/(bpow radix2 0); apply: generic_format_bpow; rewrite /FLT_exp; lia.
    by rewrite -abs_IZR; apply: IZR_le; lia.
  by rewrite e => e0; move: lo; rewrite e0 Rabs_R0; lra.
rewrite sg; case: Rcompare_spec => h0; case: Z.ltb_spec => n1 //.
- by have := IZR_le _ _ n1; lra.
- by case: n0; exact: eq_IZR h0.
- by have := IZR_lt _ _ n1; lra.
Qed.

Lemma floats_exceptional : exceptional_arithmetic cfg A.
Proof.
have neg_pan x : exceptional x -> panics (neg A x) by move=> h; exact/exc_finite_result/exc_opp.
have div_pan x y : exceptional x -> panics (fdiv A x y).
  move=> h; rewrite /= /floats_div /floats_is_zero bind_ret.
  by case: Beqb => /=; [exists 0|apply: exc_finite_result; exact: exc_div].
have div_nan x : panics (fdiv A x nan).
  by rewrite /= /floats_div /floats_is_zero bind_ret; apply: exc_finite_result; exact: exc_div_nan.
have div_inf x s : finite x -> returns (fdiv A x (inf s)) (B754_zero (xorb (Bsign x) s)).
  by case: x => // [sx|sx mx ex bx] _; case: s; apply: returns_ret.
have try_inf s : returns (try_inv A (inf s)) (Some (B754_zero s)).
  have sg : Bsign (Bone : F) = false by exact: Bsign_Bone.
  have onef : is_finite_strict (Bone : F) by exact: is_finite_strict_Bone.
  rewrite /= /floats_try_inv /floats_one bind_ret.
  by move: sg onef; case: (Bone : F) => // t m e b /= -> _; case: s; exact: returns_ret.
have tryn : floats_try_inv prec_gt_0 prec_lt_emax nan = ret None.
  by rewrite /floats_try_inv /floats_one bind_ret; case: Bone.
have nz y : exceptional y -> Beqb y (B754_zero false) = false by move=> h; exact: exc_eqb.
have mulx y x : exceptional x -> panics (mul A y x) by move=> h; exact/exc_finite_result/exc_mult/or_intror.
split.
- by move=> x h; rewrite /= h; exact: returns_ret.
- by move=> x; split; rewrite /=; [|case: x => [s|s||s m e b]]; exact: returns_ret.
- move=> s x; split; rewrite /tells /=; exists (if x is B754_infinity t then s == t else false).
  + by case: s; case: x => [[]|[]||[] m e b]; exact: returns_ret.
  + by case: s; case: x => [[]|[]||[] m e b]; split.
  + by case: s; case: x => [[]|[]||[] m e b]; exact: returns_ret.
  + by case: s; case: x => [[]|[]||[] m e b]; split.
- by move=> x h; rewrite /= /floats_is_zero nz //; exact: returns_ret.
- move=> x h; rewrite /= /default_is_one /floats_one bind_ret /=.
  by rewrite exc_eqb //; [exact: returns_ret|exact: is_finite_Bone].
- by move=> x y h; exact/exc_finite_result/exc_plus.
- by move=> x y h; exact/exc_finite_result/exc_plus.
- by move=> x y h; exact/exc_finite_result/exc_minus.
- move=> x y h; rewrite /= /default_sub_assign.
  case fy: (is_finite y); last by apply: panics_bind; apply: neg_pan.
  have hx : exceptional x by case: h => //; rewrite /exceptional fy.
  have e : is_finite (Bopp y) by case: y fy {h}.
  rewrite /floats_neg /finite_result e bind_ret.
  by apply: exc_finite_result; apply: exc_plus; left.
- by move=> x y h; exact/exc_finite_result/exc_mult.
- by move=> x y h; exact/exc_finite_result/exc_mult.
- by move=> x h; exact/exc_finite_result/exc_plus/or_introl.
- by move=> x h; exact/exc_finite_result/exc_mult/or_introl.
- exact: neg_pan.
- exact: neg_pan.
- exact: div_pan.
- exact: div_nan.
- by rewrite /= /floats_inv /floats_one bind_ret; exact: div_nan.
- move=> x y h; rewrite /= /field_quo /assert_nonzero /=.
  rewrite /floats_is_zero bind_ret; case: Beqb; first by exists 0.
  exact: div_pan.
- by move=> x; exact: div_nan.
- move=> x y h; rewrite /= /field_quo_rem /assert_nonzero /=.
  rewrite /floats_is_zero bind_ret; case: Beqb; first by exists 0.
  apply: (@panics_bind2 _ _ _ _ tt); first exact: returns_ret.
  by apply: panics_bind; exact: div_pan.
- move=> x; apply: (@panics_bind2 _ _ _ _ tt); first exact: returns_ret.
  by apply: panics_bind; exact: div_nan.
- by move=> x y h; apply: panics_bind; exact: div_pan.
- by move=> x; apply: panics_bind; exact: div_nan.
- move=> n x n0 h; rewrite /= /default_ntimes /floats_zero bind_ret.
  apply: panics_bind; apply: exc_power_loop => //.
    by move=> y; exact/exc_finite_result/exc_plus/or_intror.
  by exact/exc_finite_result/exc_plus/or_intror.
- move=> n x n0 h; rewrite /= /default_fpower /floats_is_zero bind_ret nz //=.
  rewrite /default_gpower; have -> : (n <? 0)%Z = false by case: Z.ltb_spec => //; lia.
  by rewrite bind_ret /= /floats_one bind_ret; apply: panics_bind; apply: exc_power_loop => // [y|]; exact: mulx.
- move=> n hn n0; have [np|nn] : Z.lt 0 n \/ Z.lt n 0 by lia.
    rewrite /= /default_fpower /floats_is_zero bind_ret nz //=.
    rewrite /default_gpower; have -> : (n <? 0)%Z = false by case: Z.ltb_spec => //; lia.
    by rewrite bind_ret /= /floats_one bind_ret; apply: panics_bind; apply: exc_power_loop np _ _ => [y|]; apply: (mulx _ nan).
  rewrite /= /default_fpower /floats_is_zero bind_ret nz //=.
  rewrite /default_gpower; have -> : (n <? 0)%Z = true by case: Z.ltb_spec => //; lia.
  apply: panics_bind; rewrite /prim_i /multiplicative_inv /= tryn.
  by case: ifP => _; [|case: ifP => _]; exists 0.
- exact: div_inf.
- move=> s; rewrite /= /floats_inv /floats_one bind_ret.
  have := div_inf Bone s (is_finite_Bone prec emax prec_gt_0 prec_lt_emax).
  by rewrite Bsign_Bone Bool.xorb_false_l.
- move=> x s h; rewrite /= /field_quo /assert_nonzero /=.
  rewrite /floats_is_zero bind_ret; have -> : Beqb (inf s) (B754_zero false) = false by case: (s).
  by apply: (@returns_bind _ _ _ _ tt); [exact: returns_ret|exact: div_inf].
- move=> x s h; rewrite /= /field_quo_rem /assert_nonzero /=.
  rewrite /floats_is_zero bind_ret; have -> : Beqb (inf s) (B754_zero false) = false by case: (s).
  apply: (@returns_bind _ _ _ _ tt); first exact: returns_ret.
  by apply: returns_bind (div_inf _ _ h) _; exact: returns_ret.
- by move=> x s h; apply: returns_bind (div_inf _ _ h) _; exact: returns_ret.
- exact: try_inf.
- by move=> s; apply: returns_bind (try_inf s) _; exact: returns_ret.
- move=> n s [hn nm] n0; rewrite /= /default_fpower /floats_is_zero bind_ret nz //=.
  rewrite /default_gpower; have -> : (n <? 0)%Z = true by case: Z.ltb_spec => //; lia.
  have h : in_i (ptr_bits cfg) (- n).
    move: hn nm; rewrite /is_isize /in_i /imin /imax.
    case: Z.leb_spec => //= h1; case: Z.leb_spec => //= h2 _ h3.
    by case: Z.leb_spec; case: Z.leb_spec; lia.
  rewrite /prim_i h bind_ret.
  apply: returns_bind.
    apply: (returns_bind (v := B754_zero s)); last exact: returns_ret.
    by apply: returns_bind (try_inf s) _; exact: returns_ret.
  rewrite bind_ret /=.
  have n1 : Z.le 0 (- n) by lia.
  have [st [hst hr]] := ensures_False (@power_loop_ok False F (option_eqType bool_eqType) one_zero oz_mul None oz_mulA
    (fun o => erefl) oz_mul1 _ _ one_zero_mul (fun x u h => one_zero_mul h h) (- n)%Z (B754_zero s)
    (Some s) Bone None n1 erefl erefl).
  apply: returns_bind hst _; rewrite hr oz_npow /=; last by lia.
  have -> : odd (Z.to_nat (- n)) = Z.odd n.
    rewrite -Z.odd_opp -[in RHS](Z2Nat.id (- n)) //; elim: (Z.to_nat _) => // m IH.
    by rewrite Nat2Z.inj_succ Z.odd_succ -Z.negb_odd -IH.
  exact: returns_ret.
- by rewrite /= tryn; exact: returns_ret.
- by rewrite /= /default_invertible tryn; exact: returns_ret.
- by move=> x; exists 1 => -[].
- move=> x h; exists Bone; last exact: float_1.
  by rewrite /= /default_fpower /floats_is_zero bind_ret nz //=; exists 1 => -[].
- move=> x y h; rewrite /= /field_rem /assert_nonzero /=.
  by rewrite /floats_is_zero bind_ret nz //; exact: returns_ret.
- move=> x y b yb b0 _; rewrite /= /field_rem /assert_nonzero /=.
  by rewrite /floats_is_zero bind_ret (div_eqb yb b0); exact: returns_ret.
- move=> x y h; exists Bone; last exact: float_1.
  rewrite /= /field_gcd /= /floats_is_zero /andM bind_ret.
  case: h => h; first by rewrite nz // bind_ret; exact: returns_ret.
  by rewrite (nz y) //; case: Beqb; rewrite bind_ret; exact: returns_ret.
- move=> n; have -> : ztimes A n nan = ret nan by rewrite /= /floats_times; case: float_of_isize.
  exact: returns_ret.
- move=> n s hn; have [f] := isize_sign hn.
  rewrite /= /floats_times; case: float_of_isize f => // [t _|t m e b _].
    by case: Z.eqb_spec => [_ _|_ [h _]]; [exact: returns_ret|case: h].
  case: Z.eqb_spec => [_ [t' //]|_ [_ /= ->]].
  by rewrite /= Bool.xorb_comm; exact: returns_ret.
Qed.

Lemma floats_exceptional_order (tie : F -> F -> bool) :
  exceptional_order (ApproxFloats_lattice tie).
Proof.
split.
- by move=> x h; rewrite /= h; exact: returns_ret.
- by move=> x; split; case: x => [[]|[]||[] m e b]; exact: returns_ret.
- by move=> x; split; case: x => [[]|[]||[] m e b]; exact: returns_ret.
- by move=> x; split; case: x => [[]|[]||[] m e b]; exact: returns_ret.
- by case=> [[]|[]||[] m e b] // _; split; exact: returns_ret.
- case=> [[]|[]||[] m e b]; split; eexists; try exact: returns_ret; by split.
- by move=> x; split; rewrite /= /float_min /=; case: x => *; exact: returns_ret.
- by move=> x; split; rewrite /= /float_max /=; case: x => *; exact: returns_ret.
- case=> [[]|[]||[] m e b] // _; rewrite /= /float_min /=; split; rewrite /Bltb /=; rewrite ?if_same; exact: returns_ret.
- case=> [[]|[]||[] m e b] // _; rewrite /= /float_max /=; split; rewrite /Bltb /=; rewrite ?if_same; exact: returns_ret.
Qed.
End Exc.
