(** * PExact2.v -- the exact floats are rational numbers. *)

From mathcomp Require Import all_ssreflect all_fingroup all_algebra zify ssrZ.
From Coq Require Import ZArith Lia Reals Lra.
From Flocq Require Import Core BinarySingleNaN.
From Verif Require Import Rust Traits MInts MConstr Wp Spec PDefaults PEucl PFloat MFloats FloatSpec
  ExactSpec ExactQSpec PExact PFrac PFracProps.

Set Implicit Arguments.
Unset Strict Implicit.
Unset Printing Implicit Defensive.

Import GRing.Theory.
Local Notation ZR := [idomainType of Z].
Local Notation QF := rationals.
Local Notation phi := [rmorphism of @FracField.tofrac ZR].
Local Open Scope ring_scope.

Section Same.
Lemma rat_ofE a : rat_of a = phi a.
Proof. by []. Qed.
Lemma rat_of0 : rat_of 0%Z = 0.
Proof. exact: (rmorph0 phi). Qed.
Lemma rat_of1 : rat_of 1%Z = 1.
Proof. exact: (rmorph1 phi). Qed.
Lemma rat_ofM a b : rat_of (a * b)%Z = rat_of a * rat_of b.
Proof. exact: (rmorphM phi a b). Qed.
Lemma rat_ofD a b : rat_of (a + b)%Z = rat_of a + rat_of b.
Proof. exact: (rmorphD phi a b). Qed.
Lemma rat_ofN a : rat_of (- a)%Z = - rat_of a.
Proof. exact: (rmorphN phi a). Qed.
Lemma rat_of_neq0 (a : Z) : a <> Z0 -> rat_of a != 0.
Proof. by move=> h; rewrite /rat_of tofrac_eq0; apply/eqP. Qed.
Lemma IZR_neq0 (a : Z) : a <> Z0 -> IZR a <> IZR Z0.
Proof. exact: IZR_neq. Qed.

Lemma same_unique q q' r r' : same_number q r -> same_number q' r' -> (q = q' <-> r = r').
Proof.
move=> [a [b [b0 -> ->]]] [c [d [d0 -> ->]]].
have hb := IZR_neq0 b0; have hd := IZR_neq0 d0.
have h : (a * d = c * b)%Z <-> Rdiv (IZR a) (IZR b) = Rdiv (IZR c) (IZR d).
  split=> [e|e].
    have e' : (IZR a * IZR d = IZR c * IZR b)%R by rewrite -!mult_IZR e.
    by apply: (Rmult_eq_reg_r (IZR b * IZR d)); [field_simplify; lra|apply: Rmult_integral_contrapositive].
  apply: eq_IZR; rewrite !mult_IZR.
  have e' : (IZR a / IZR b * (IZR b * IZR d) = IZR c / IZR d * (IZR b * IZR d))%R by rewrite e.
  have e1 : (IZR a / IZR b * (IZR b * IZR d) = IZR a * IZR d)%R by field.
  have e2 : (IZR c / IZR d * (IZR b * IZR d) = IZR c * IZR b)%R by field.
  lra.
rewrite -h; split=> [/eqP|e].
  rewrite eqr_div; try exact: rat_of_neq0.
  by rewrite -!(rmorphM phi) /= (eqtype.inj_eq (@tofrac_inj ZR)) => /eqP.
apply/eqP; rewrite eqr_div; try exact: rat_of_neq0.
rewrite -!(rmorphM phi); apply/eqP; congr (phi _); exact: e.
Qed.
Lemma same_int (a : Z) : same_number (rat_of a) (IZR a).
Proof.
exists a, 1%Z; split=> //; last by rewrite /Rdiv Rinv_1 Rmult_1_r.
by rewrite rat_of1 divr1.
Qed.
Lemma same_add p q a b : same_number p a -> same_number q b -> same_number (p + q) (a + b)%R.
Proof.
move=> [x [y [y0 -> ->]]] [z [t [t0 -> ->]]].
exists (x * t + z * y)%Z, (y * t)%Z; split; first lia.
  rewrite addf_div; try exact: rat_of_neq0.
  by rewrite rat_ofD !rat_ofM.
rewrite plus_IZR !mult_IZR; have := IZR_neq0 y0; have := IZR_neq0 t0 => h1 h2; field; split; assumption.
Qed.
Lemma same_mul p q a b : same_number p a -> same_number q b -> same_number (p * q) (a * b)%R.
Proof.
move=> [x [y [y0 -> ->]]] [z [t [t0 -> ->]]].
exists (x * z)%Z, (y * t)%Z; split; first lia.
  by rewrite mulf_div !rat_ofM.
rewrite !mult_IZR; have := IZR_neq0 y0; have := IZR_neq0 t0 => h1 h2; field; split; assumption.
Qed.
Lemma same_opp p a : same_number p a -> same_number (- p) (- a)%R.
Proof.
move=> [x [y [y0 -> ->]]]; exists (- x)%Z, y; split=> //; first by rewrite -mulNr rat_ofN.
by rewrite opp_IZR; have := IZR_neq0 y0 => h; field.
Qed.
Lemma same_sub p q a b : same_number p a -> same_number q b -> same_number (p - q) (a - b)%R.
Proof. by move=> h1 h2; apply: same_add => //; exact: same_opp. Qed.
Lemma same_0 : same_number 0 0%R.
Proof. by have := same_int 0; rewrite rat_of0. Qed.
Lemma same_1 : same_number 1 1%R.
Proof. by have := same_int 1; rewrite rat_of1. Qed.
Lemma same_eq0 p a : same_number p a -> (p == 0) <-> a = 0%R.
Proof. by move=> h; rewrite -(same_unique h same_0); split=> /eqP. Qed.
Lemma same_inv p a : same_number p a -> p != 0 -> same_number p^-1 (/ a)%R.
Proof.
move=> h p0; have a0 : a <> 0%R by move/(same_eq0 h) => e; rewrite e in p0.
case: h p0 a0 => x [y [y0 -> ->]]; have [->|x0] := Z.eq_dec x 0.
  by rewrite rat_of0 mul0r eqxx.
move=> _ _; exists y, x; split=> //; first by rewrite invfM invrK mulrC.
by have := IZR_neq0 y0; have := IZR_neq0 x0 => h1 h2; field; split.
Qed.
Lemma same_mulrn p a n : same_number p a -> same_number (p *+ n) (INR n * a)%R.
Proof.
move=> h; elim: n => [|n IH]; first by rewrite mulr0n Rmult_0_l; exact: same_0.
rewrite mulrS S_INR; have := same_add h IH.
by have -> : (a + INR n * a = (INR n + 1) * a)%R by ring.
Qed.
Lemma same_zmul p a n : same_number p a -> same_number (zmul p n) (IZR n * a)%R.
Proof.
case: n => [|n|n] h /=; first by rewrite Rmult_0_l; exact: same_0.
  by have := same_mulrn (Pos.to_nat n) h; rewrite INR_IPR.
have -> : (IZR (Z.neg n) * a = - (IZR (Z.pos n) * a))%R by rewrite -Pos2Z.opp_pos opp_IZR; ring.
by apply: same_opp; have := same_mulrn (Pos.to_nat n) h; rewrite INR_IPR.
Qed.
Lemma same_float_ex m e : exists q, same_number q (F2R (Float radix2 m e)).
Proof.
case: (Z.le_gt_cases 0 e) => he.
  exists (rat_of (m * 2 ^ e)); have := same_int (m * 2 ^ e).
  by rewrite mult_IZR (IZR_Zpower radix2) //; exact: he.
exists (rat_of m / rat_of (2 ^ (- e))), m, (2 ^ (- e))%Z; split=> //.
  by have := Z.pow_pos_nonneg 2 (- e); lia.
rewrite /F2R /= (IZR_Zpower radix2); last lia.
by rewrite bpow_opp /Rdiv Rinv_inv.
Qed.
End Same.

(** ** The field *)
Section Field.
Variables (cfg : Cfg) (prec emax : Z).
Context (prec_gt_0 : Prec_gt_0 prec) (prec_lt_emax : Prec_lt_emax prec emax).
Local Notation F := (binary_float prec emax).
Local Notation G := (ExactFloats cfg prec_gt_0 prec_lt_emax).
Local Notation rep := (@denotes prec emax).

Lemma denotes_ex (x : F) : is_finite x = true -> exists q, rep x q.
Proof.
move=> fx; have [q hq] : exists q, same_number q (B2R x).
  by case: x {fx} => [s|s||s m e h]; rewrite /B2R; try exact: same_float_ex; exists 0; exact: same_0.
by exists q.
Qed.
Lemma float_denotes (x : F) q v : float_is x v -> same_number q v -> rep x q.
Proof. by move=> [fx e] h; split; rewrite ?e. Qed.

Lemma rep_mul x p y q : rep x p -> rep y q -> gives True rep (mul G x y) (p * q).
Proof.
move=> [fx hp] [fy hq]; apply: ensures_mono (exact_mul_ok cfg _ _ x y) _ => z hz.
by apply: float_denotes hz _; exact: same_mul.
Qed.
Lemma rep_add x p y q : rep x p -> rep y q -> gives True rep (add G x y) (p + q).
Proof.
move=> [fx hp] [fy hq]; apply: ensures_mono (exact_add_ok cfg _ _ x y) _ => z hz.
by apply: float_denotes hz _; exact: same_add.
Qed.
Lemma rep_sub x p y q : rep x p -> rep y q -> gives True rep (sub G x y) (p - q).
Proof.
move=> [fx hp] [fy hq]; apply: ensures_mono (exact_sub_ok cfg _ _ x y) _ => z hz.
by apply: float_denotes hz _; exact: same_sub.
Qed.
Lemma rep_neg x p : rep x p -> gives True rep (neg G x) (- p).
Proof.
move=> [fx hp]; apply: ensures_mono (exact_neg_ok cfg _ _ x) _ => z hz.
by apply: float_denotes hz _; exact: same_opp.
Qed.
Lemma rep_times n x p : rep x p -> gives True rep (ztimes G n x) (zmul p n).
Proof.
move=> [fx hp]; apply: ensures_mono (exact_times_ok cfg _ _ n x) _ => z hz.
by apply: float_denotes hz _; exact: same_zmul.
Qed.
Lemma rep_zero P : gives P rep (zero G) 0.
Proof. by apply: ensures_ret; split=> //; exact: same_0. Qed.
Lemma rep_one P : gives P rep (one G) 1.
Proof.
have [f e] := @float_1 prec emax prec_gt_0 prec_lt_emax.
by apply: ensures_ret; split=> //; rewrite e; exact: same_1.
Qed.
Lemma rep_equals P x p y q : rep x p -> rep y q -> answers P (equals G x y) (p == q).
Proof.
move=> [fx hp] [fy hq]; have [b r h] := exact_equals cfg _ _ fx fy; apply: ensures_returns r _.
by apply/idP/eqP => e; [apply/(same_unique hp hq)/h|apply/h/(same_unique hp hq)].
Qed.
Lemma rep_is_zero P x p : rep x p -> answers P (is_zero G x) (p == 0).
Proof.
move=> [fx hp]; have [b r h] := exact_is_zero cfg _ _ fx; apply: ensures_returns r _.
by apply/idP/idP => e; [apply/(same_eq0 hp)/h|apply/h/(same_eq0 hp)].
Qed.
Lemma rep_try_inv x p : rep x p -> ensures True (try_inv G x) (fun o =>
    match o with
    | Some y => exists2 q, rep y q & inverse_of *%R 1 p q
    | None => forall q, ~ inverse_of *%R 1 p q
    end).
Proof.
move=> [fx hp]; apply: ensures_mono (exact_try_inv_ok cfg _ _ fx) _ => -[z [h0 hz]|h0].
  have p0 : p != 0 by apply/negP => /(same_eq0 hp).
  exists p^-1; first by apply: float_denotes hz _; exact: same_inv.
  by split; rewrite ?mulfV ?mulVf.
move=> q [e _]; have /(same_eq0 hp)/eqP p0 := h0.
by move/eqP: e; rewrite p0 mul0r eq_sym oner_eq0.
Qed.

Lemma exact_ring_ok : ring_alg_spec cfg True rep *%R 1 (exact_ring cfg prec_gt_0 prec_lt_emax).
Proof.
split; [split|..].
- split; last exact: rep_equals.
    by move=> x p q [_ h1] [_ h2]; apply/(same_unique h1 h2).
  by move=> x p [fx _]; apply: ensures_ret.
- exact: (semigroup_default rep_mul).
- split; [exact: rep_one| |exact: rep_try_inv|].
    by move=> x p xp; exact: (default_is_one_ok (@rep_equals True) (rep_one True) xp).
  by move=> x p xp; exact: (default_invertible_ok (rep_try_inv xp)).
- exact: (cmonoid_default (@addrA QF) (@add0r QF) (@addr0 QF) (rep_zero True) (@rep_is_zero True) rep_add).
- split; [exact: rep_neg|exact: rep_neg|exact: rep_sub| |by move=> n x p _; exact: rep_times].
  by move=> x p y q xp yq; exact: (default_sub_assign_ok rep_neg rep_add xp yq).
- by apply: unitary_default (rep_one True) => n x p _; exact: rep_times.
Qed.

Lemma exact_field_ok : field_alg_spec cfg True rep G.
Proof.
have h := exact_ring_ok.
apply: field_alg_ok => //; split.
- move=> x p [fx hp] p0; apply: ensures_mono (exact_inv_ok cfg _ _ x) _ => z hz.
  by apply: float_denotes hz _; exact: same_inv.
- move=> x [fx hp]; apply: exact_inv_zero; split=> //.
  by apply/(same_eq0 hp).
- move=> x p y q [fx hp] [fy hq] q0; apply: ensures_mono (exact_div_ok cfg _ _ x y) _ => z hz.
  by apply: float_denotes hz _; apply: same_mul => //; exact: same_inv.
- move=> x p y [fx hp] [fy hq]; apply: (@exact_div_zero _ _ _ _ _ x y (B2R x)) => //.
  by split=> //; apply/(same_eq0 hq).
- by move=> n x p gn xp p0; exact: (default_fpower_ok h gn xp p0).
- by move=> n x x0; exact: (default_fpower_zero h n x0).
Qed.
End Field.
