(** * PExact.v -- what the exact floats return, the floats return. *)

From Coq Require Import ZArith Reals Lra Lia.
From mathcomp Require Import all_ssreflect.
From Flocq Require Import Core BinarySingleNaN.
From Verif Require Import Rust Traits MInts MConstr Wp MFloats FloatSpec PSim PGSim CallSpec ProfSpec
  PProf PProf2 PProf3 FloatProfSpec PProfF PFloat ExactSpec.

Set Implicit Arguments.
Unset Strict Implicit.
Unset Printing Implicit Defensive.

Local Notation r := (@gsim False).

Section Follow.
Variables (c1 c2 : Cfg) (prec emax : Z).
Context (prec_gt_0 : Prec_gt_0 prec) (prec_lt_emax : Prec_lt_emax prec emax).
Hypothesis hc : stricter c1 c2.
Local Notation F := (binary_float prec emax).
Local Notation G := (ExactFloats c1 prec_gt_0 prec_lt_emax).
Local Notation A := (ApproxFloats c2 prec_gt_0 prec_lt_emax).
Local Notation ok := (fun _ : Z => True).
Local Notation all := (fun _ : F => True).

Lemma exactly_follows v (m : M F) : r any (exactly v m) m.
Proof.
split=> // k x; rewrite /exactly /bind; case: (m k) => [z||] //=.
by rewrite /assert; case: ifP => //= _ [->].
Qed.
Lemma try_inv_follows x : r (in_option all) (exact_try_inv c1 prec_gt_0 prec_lt_emax x) (try_inv A x).
Proof.
split=> // k o; rewrite /exact_try_inv /= /floats_try_inv bind_ret /bind /=.
case: (is_finite _); rewrite /exactly /bind /=.
  by rewrite /assert; case: ifP => //= _ [<-].
by rewrite /assert; case: ifP => //= _ [<-].
Qed.

Let okP n : ok n -> Z.ltb n Z0 ->
  r any (prim_i c1 (ptr_bits c1) (Z.opp n)) (prim_i c2 (ptr_bits c2) (Z.opp n)).
Proof. by move=> _ _; exact: stricterP. Qed.

Lemma exact_ring_follows : ring_alg_rel r ok all (exact_ring c1 prec_gt_0 prec_lt_emax) A.
Proof.
have ha : rel2 r all (exact_add c1 prec_gt_0 prec_lt_emax) (add A).
  by move=> x y _ _; exact: exactly_follows.
have hm : rel2 r all (exact_mul c1 prec_gt_0 prec_lt_emax) (mul A).
  by move=> x y _ _; exact: exactly_follows.
have hd : rel1 r all (default_double (exact_add c1 prec_gt_0 prec_lt_emax)) (double A).
  by move=> x h; exact: ha.
have hn : rel1 r all (exact_neg c1 prec_gt_0 prec_lt_emax) (neg A).
  by move=> x _; exact: exactly_follows.
have hs : rel2 r all (exact_sub c1 prec_gt_0 prec_lt_emax) (sub A).
  by move=> x y _ _; exact: exactly_follows.
have ht n : rel1 r all (exact_times c1 prec_gt_0 prec_lt_emax n) (ztimes A n).
  by move=> x _; exact: exactly_follows.
have h0 : r all (zero A) (zero A) by exact: gsim_refl.
have h1 : r all (one A) (one A) by exact: gsim_refl.
have hi : rel1o r all (exact_try_inv c1 prec_gt_0 prec_lt_emax) (try_inv A).
  by move=> x _; exact: try_inv_follows.
split; [split|..].
- by split=> [x _|x y _ _]; exact: gsim_refl.
- by split; [exact: hm|exact: hm|move=> x h; exact: hm].
- by split; [exact: h1|move=> x _; exact: gsim_refl|exact: hi|exact: (gsim_invertible hi)].
- split; [exact: h0|by move=> x _; exact: gsim_refl|exact: ha|exact: ha|exact: hd|].
  by move=> n _ x h; exact: (gsim_ntimes _ h0 ha hd h).
- by split; [exact: hn|exact: hn|exact: hs|exact: (gsim_sub_assign hn ha)|move=> n _; exact: ht].
- by split=> n _; exact: (prof_int (ht n) h1).
Qed.
Lemma exact_follows : field_alg_rel r ok all G A.
Proof.
have h := exact_ring_follows.
apply: prof_field_alg => //; split.
- by move=> x _; exact: exactly_follows.
- by move=> x y _ _; exact: exactly_follows.
- move=> n okn x Qx; apply: (prof_fpower okP (ri_monoid_alg_rel h)) => //.
  all: try by move=> *; exact: gsim_refl.
Qed.

Lemma exact_eucl E (ty : E -> Prop) S : on_eucl all ty S ->
  eucl_alg_rel follows ok ty (S G c1) (S A c2) /\
  lattice_alg_rel follows ty (DivisibilityLattice (S G c1)) (DivisibilityLattice (S A c2)).
Proof.
move=> hS; have h := on_eucl_all okP exact_follows hS.
split; first exact: (map_eucl_alg (@gsim_follows) h).
exact: (map_lattice_alg (@gsim_follows) (prof_divlattice h)).
Qed.
Lemma exact_field E (ty : E -> Prop) S : on_field all ty S ->
  field_alg_rel follows ok ty (S G c1) (S A c2) /\
  forall n v, in_vec ty v -> follows ty (determinant (S G c1) n v) (determinant (S A c2) n v).
Proof.
move=> hS; have h := on_field_all okP exact_follows hS.
split=> [|n v Qv]; first exact: (map_field_alg (@gsim_follows) h).
exact: gsim_follows (prof_determinant n h Qv).
Qed.
Lemma exact_idom E (ty : E -> Prop) S : on_idom all ty S ->
  idom_alg_rel follows ok ty (S G c1) (S A c2) /\
  bounded_alg_rel follows ty (DivisibilityOrder (S G c1)) (DivisibilityOrder (S A c2)).
Proof.
move=> hS; have h := on_idom_all okP exact_follows hS.
split; first exact: (map_idom_alg (@gsim_follows) h).
exact: (map_bounded_alg (@gsim_follows) (prof_divorder h)).
Qed.
Lemma exact_ring_on E (ty : E -> Prop) S : on_ring all true ty S ->
  ring_alg_rel follows ok ty (S G c1) (S A c2).
Proof.
move=> hS; apply: (map_ring_alg (@gsim_follows)).
by apply: (on_ring_all okP _ exact_follows) hS => // _; exact: stricter_debug.
Qed.
Lemma exact_group_on E (ty : E -> Prop) S : on_group all true ty S ->
  group_alg_rel follows ok ty (S G c1) (S A c2).
Proof.
move=> hS; apply: (map_group_alg (@gsim_follows)).
by apply: (on_group_all okP _ exact_follows) hS => // _; exact: stricter_debug.
Qed.
End Follow.

(** ** When the exact floats panic *)
Section Arith.
Variables (cfg : Cfg) (prec emax : Z).
Context (prec_gt_0 : Prec_gt_0 prec) (prec_lt_emax : Prec_lt_emax prec emax).
Local Notation F := (binary_float prec emax).
Local Notation fexp := (FLT_exp (3 - emax - prec) prec).
Local Notation rnd := (rounded prec emax).
Local Notation over := (overflows prec emax).
Local Notation G := (ExactFloats cfg prec_gt_0 prec_lt_emax).
Local Notation A := (ApproxFloats cfg prec_gt_0 prec_lt_emax).
Local Notation isf := (is_float prec emax).
Implicit Types (x y z : F) (a b v : R).

Lemma float_rounded v : isf v -> rnd v = v /\ ~ over v.
Proof.
move=> [x [_ <-]].
have e : rnd (B2R x) = B2R x by apply: round_generic; exact: generic_format_B2R.
by split=> //; rewrite /overflows e => h; have := abs_B2R_lt_emax _ _ x; lra.
Qed.
Lemma exactly_ok (m : M F) v w : returns m w -> float_is w v -> yields (exactly v m) v.
Proof.
move=> mw [fw wv]; exists w => //; apply: returns_bind mw _.
by rewrite fw wv /assert /=; case: Req_bool_spec => // _; exists 0%nat.
Qed.
Lemma exactly_bad (m : M F) v w : returns m w -> ~ float_is w v -> panics (exactly v m).
Proof.
move=> mw h; apply: panics_bind2 mw _; rewrite /assert.
case fw: (is_finite w) => /=; last by exists 0%nat.
case: Req_bool_spec => e; last by exists 0%nat.
by case: h.
Qed.
Lemma exactly_result (m : M F) v : rounds m v -> exact_result (exactly v m) v.
Proof.
move=> [h1 h2]; split=> h.
  have [e o] := float_rounded h; have [w mw we] := h1 o; apply: exactly_ok mw _.
  by rewrite e in we.
case: (Rle_lt_dec (bpow radix2 emax) (Rabs (rnd v))) => o.
  exact: panics_bind (h2 o).
have [w mw we] := h1 (Rlt_not_le _ _ o).
by apply: exactly_bad mw _ => hw; apply: h; exists w.
Qed.

Lemma exact_floats : exact_arithmetic G.
Proof.
have H := floats_rounding cfg prec_gt_0 prec_lt_emax.
split.
- by move=> x y a b [fx <-] [fy <-]; apply: exactly_result; exact: (fl_add H).
- by move=> x y a b [fx <-] [fy <-]; apply: exactly_result; exact: (fl_sub H).
- by move=> x y a b [fx <-] [fy <-]; apply: exactly_result; exact: (fl_mul H).
- move=> x a [fx <-]; have [z h1 h2] := fl_neg H (conj fx (erefl (B2R x))).
  exact: exactly_ok h1 h2.
- by move=> x y a b [fx <-] [fy <-] b0; apply: exactly_result; exact: (fl_div H).
- by move=> x a [fx <-] a0; apply: exactly_result; exact: (fl_inv H).
- move=> x a [fx <-] a0; have [h1 h2] := fl_try_inv H (conj fx (erefl (B2R x))) a0; split=> h.
    have [e o] := float_rounded h; have [w mw we] := h1 o; rewrite e in we.
    have [z rz zv] := exactly_ok (returns_ret w) we.
    exists z => //; apply: returns_bind mw _; apply: returns_bind rz _; exact: returns_ret.
  case: (Rle_lt_dec (bpow radix2 emax) (Rabs (rnd (/ B2R x)))) => o.
    apply: panics_bind2 (h2 o) _; rewrite /assert.
    by case: Req_bool_spec => // _; exists 0%nat.
  have [w mw we] := h1 (Rlt_not_le _ _ o).
  apply: panics_bind2 mw _; apply: panics_bind; apply: exactly_bad (returns_ret w) _ => hw.
  by apply: h; exists w.
- move=> x [fx x0]; have h := fl_try_inv_zero H (conj fx x0).
  apply: returns_bind h _; rewrite x0 /assert; case: Req_bool_spec => // _.
  by exists 0%nat.
Qed.

(** ** The exact operations, panicking or not *)
Lemma exactly_ensures (m : M F) (Q : F -> Prop) v : ensures True m Q ->
  ensures True (exactly v m) (fun z => float_is z v).
Proof.
move=> h; apply: ensures_bind h _ => z _; rewrite /assert.
case fz: (is_finite z) => /=; last by right; split=> //; exists 0%nat.
case: Req_bool_spec => e /=; last by right; split=> //; exists 0%nat.
by apply: ensures_ret.
Qed.
Lemma fin_ensures x : ensures True (finite_result x) (fun _ => True).
Proof.
rewrite /finite_result /assert; case: (is_finite x); last by right; split=> //; exists 0%nat.
exact: ensures_ret.
Qed.
Lemma div_ensures x y : ensures True (floats_div prec_gt_0 prec_lt_emax x y) (fun _ => True).
Proof.
rewrite /floats_div /floats_is_zero bind_ret /assert; case: (Beqb y _); last exact: fin_ensures.
by right; split=> //; exists 0%nat.
Qed.
Lemma exact_mul_ok x y : ensures True (mul G x y) (fun z => float_is z (Rmult (B2R x) (B2R y))).
Proof. exact: exactly_ensures (fin_ensures _). Qed.
Lemma exact_add_ok x y : ensures True (add G x y) (fun z => float_is z (Rplus (B2R x) (B2R y))).
Proof. exact: exactly_ensures (fin_ensures _). Qed.
Lemma exact_sub_ok x y : ensures True (sub G x y) (fun z => float_is z (Rminus (B2R x) (B2R y))).
Proof. exact: exactly_ensures (fin_ensures _). Qed.
Lemma exact_neg_ok x : ensures True (neg G x) (fun z => float_is z (Ropp (B2R x))).
Proof. exact: exactly_ensures (fin_ensures _). Qed.
Lemma exact_times_ok n x : ensures True (ztimes G n x) (fun z => float_is z (Rmult (IZR n) (B2R x))).
Proof. exact: exactly_ensures (ensures_ret _ (erefl _)). Qed.
Lemma exact_div_ok x y : ensures True (fdiv G x y) (fun z => float_is z (Rdiv (B2R x) (B2R y))).
Proof. exact: exactly_ensures (div_ensures _ _). Qed.
Lemma exact_inv_ok x : ensures True (finv G x) (fun z => float_is z (Rinv (B2R x))).
Proof.
apply: exactly_ensures; rewrite /= /floats_inv bind_ret; exact: div_ensures.
Qed.
Lemma exact_inv_zero x : float_is x 0 -> panics (finv G x).
Proof. by move=> h; apply: panics_bind; exact: (fl_inv_zero (floats_rounding cfg _ _)). Qed.
Lemma exact_div_zero x y a : float_is x a -> float_is y 0 -> panics (fdiv G x y).
Proof. by move=> xa h; apply: panics_bind; exact: (fl_div_zero (floats_rounding cfg _ _) xa). Qed.
Lemma exact_try_inv_ok x : is_finite x = true -> ensures True (try_inv G x) (fun o =>
  if o is Some z then B2R x <> 0%R /\ float_is z (Rinv (B2R x)) else B2R x = 0%R).
Proof.
move=> fx; have [e|e] := Req_dec (B2R x) 0.
  by apply: ensures_returns (ex_try_inv_zero exact_floats (conj fx e)) _.
rewrite /= /exact_try_inv /= /floats_try_inv !bind_ret; case: ifP => _ /=.
  apply: (@ensures_bind _ _ _ _ _ (fun z => float_is z (/ B2R x))).
    exact: exactly_ensures (ensures_ret _ (erefl _)).
  by move=> z hz; apply: ensures_ret.
by rewrite /assert; case: Req_bool_spec => // _; right; split=> //; exists 0%nat.
Qed.
Lemma exact_equals x y : is_finite x = true -> is_finite y = true ->
  exists2 b, returns (equals G x y) b & (b = true <-> B2R x = B2R y).
Proof.
by move=> fx fy; exact: (fl_equals (floats_rounding cfg _ _) (conj fx (erefl _)) (conj fy (erefl _))).
Qed.
Lemma exact_is_zero x : is_finite x = true ->
  exists2 b, returns (is_zero G x) b & (b = true <-> B2R x = 0%R).
Proof. by move=> fx; exact: (fl_is_zero (floats_rounding cfg _ _) (conj fx (erefl _))). Qed.

(** ** Some floats *)
Lemma dyadic_float m e : (Z.abs m < 2 ^ prec)%Z -> (3 - emax - prec <= e)%Z ->
  (Rabs (IZR m * bpow radix2 e) < bpow radix2 emax)%R -> isf (IZR m * bpow radix2 e).
Proof.
move=> hm he hv.
have g : generic_format radix2 fexp (IZR m * bpow radix2 e)%R.
  apply: generic_format_FLT; exists (Float radix2 m e) => //.
have := binary_normalize_correct prec emax prec_gt_0 prec_lt_emax mode_NE m e false.
rewrite /F2R /= round_generic //; case: Rlt_bool_spec => [_ [h1 [h2 _]]|h]; last lra.
by exists (binary_normalize prec emax prec_gt_0 prec_lt_emax mode_NE m e false).
Qed.

Lemma exact_int1 : (2 <= prec)%Z -> yields (int G (Zpos xH)) 1.
Proof.
move=> p2; have h1 : (prec < emax)%Z := prec_lt_emax.
have b1 : (1 < bpow radix2 emax)%R by apply: (bpow_lt radix2 0); lia.
have g : generic_format radix2 fexp 1%R.
  by apply: (generic_format_bpow radix2 fexp 0); rewrite /FLT_exp; lia.
have e1 : float_is (float_of_isize prec_gt_0 prec_lt_emax (Zpos xH)) 1.
  have := binary_normalize_correct prec emax prec_gt_0 prec_lt_emax mode_NE (Zpos xH) 0 false.
  rewrite /F2R /= Rmult_1_r round_generic //; case: Rlt_bool_spec => [_ [h2 [h3 _]]|]; first by split.
  by rewrite Rabs_R1; lra.
have [h2 _] := mult_cases prec_gt_0 prec_lt_emax e1 (@float_1 prec emax prec_gt_0 prec_lt_emax).
have e : rnd (1 * 1) = 1%R by rewrite Rmult_1_r; exact: round_generic.
have f : float_is (Bmult mode_NE (float_of_isize prec_gt_0 prec_lt_emax (Zpos xH)) Bone : F) 1.
  by rewrite -e; apply: h2; rewrite /overflows e Rabs_R1; lra.
have [_ one1] := @float_1 prec emax prec_gt_0 prec_lt_emax.
have h3 := @exactly_ok (ztimes A (Zpos xH) Bone) 1 _ (returns_ret _) f.
case: h3 => x r xv; exists x => //.
rewrite /= /default_int bind_ret /exact_times one1 Rmult_1_r; exact: r.
Qed.

(** [v] is 0 or, up to the sign, a power of two with an exponent at most [K] in absolute
    value. *)
Definition power K v := exists s i, [/\ (Z.abs s <= 1)%Z, (Z.abs i <= K)%Z & v = (IZR s * bpow radix2 i)%R].

Lemma bpow_2 i : (0 <= i)%Z -> bpow radix2 i = IZR (2 ^ i).
Proof. by move=> h; rewrite (IZR_Zpower radix2). Qed.
Lemma power_bound K v : power K v -> (Rabs v <= bpow radix2 K)%R.
Proof.
move=> [s [i [hs hi ->]]]; rewrite Rabs_mult (Rabs_pos_eq (bpow _ _)); last exact: bpow_ge_0.
rewrite -abs_IZR; have h1 : (IZR (Z.abs s) <= 1)%R by apply: IZR_le.
have h2 : (bpow radix2 i <= bpow radix2 K)%R by apply: bpow_le; lia.
have h3 := bpow_gt_0 radix2 i; nra.
Qed.
Lemma power_mul K L v w : power K v -> power L w -> power (K + L) (v * w).
Proof.
move=> [s [i [hs hi ->]]] [t [j [ht hj ->]]]; exists (s * t)%Z, (i + j)%Z; split; [nia|lia|].
by rewrite mult_IZR bpow_plus; ring.
Qed.
Lemma power_opp K v : power K v -> power K (- v).
Proof.
move=> [s [i [hs hi ->]]]; exists (- s)%Z, i; split=> //; first by rewrite Z.abs_opp.
by rewrite opp_IZR; ring.
Qed.
Lemma power_inv K v : power K v -> v <> 0%R -> power K (/ v).
Proof.
move=> [s [i [hs hi ->]]] v0.
have s0 : s <> 0%Z by move=> e; apply: v0; rewrite e Rmult_0_l.
exists s, (- i)%Z; split=> //; first by rewrite Z.abs_opp.
rewrite bpow_opp; have := bpow_gt_0 radix2 i.
have [->|->] : s = 1%Z \/ s = (-1)%Z by lia.
  by move=> h; field; lra.
by move=> h; field; lra.
Qed.

Variable K : Z.
Hypothesis hK : (3 * K + 2 <= prec)%Z.
Lemma power_float v : power (2 * K) v -> isf v.
Proof.
move=> h; have hb := power_bound h; case: h hb => s [i [hs hi ->]] hb.
have h1 : (prec < emax)%Z := prec_lt_emax.
apply: dyadic_float; [|lia|].
  by have := Z.pow_gt_1 2 prec ltac:(lia); lia.
by apply: Rle_lt_trans hb _; apply: bpow_lt; lia.
Qed.
Lemma power_sum v w : power K v -> power (2 * K) w -> isf (v + w).
Proof.
move=> hv hw; have bv := power_bound hv; have bw := power_bound hw.
case: hv bv => s [i [hs hi ->]] bv; case: hw bw => t [j [ht hj ->]] bw.
have h1 : (prec < emax)%Z := prec_lt_emax.
set e := Z.min i j.
have ei : bpow radix2 i = (IZR (2 ^ (i - e)) * bpow radix2 e)%R.
  by rewrite -bpow_2 -?bpow_plus; [congr bpow; lia|lia].
have ej : bpow radix2 j = (IZR (2 ^ (j - e)) * bpow radix2 e)%R.
  by rewrite -bpow_2 -?bpow_plus; [congr bpow; lia|lia].
have E : (IZR s * bpow radix2 i + IZR t * bpow radix2 j =
    IZR (s * 2 ^ (i - e) + t * 2 ^ (j - e)) * bpow radix2 e)%R.
  by rewrite plus_IZR !mult_IZR ei ej; ring.
have hb := Rabs_triang (IZR s * bpow radix2 i) (IZR t * bpow radix2 j).
have b1 : (bpow radix2 K <= bpow radix2 (2 * K))%R by apply: bpow_le; lia.
have b2 : (bpow radix2 (2 * K + 1) < bpow radix2 emax)%R by apply: bpow_lt; lia.
rewrite bpow_plus in b2; have e2 : bpow radix2 1 = 2%R by [].
rewrite e2 in b2; rewrite E; apply: dyadic_float; [|lia|by rewrite -E; lra].
have p1 : (1 <= 2 ^ (i - e) <= 2 ^ (3 * K))%Z.
  by have := Z.pow_pos_nonneg 2 (i - e); have := Z.pow_le_mono_r 2 (i - e) (3 * K); lia.
have p2 : (1 <= 2 ^ (j - e) <= 2 ^ (3 * K))%Z.
  by have := Z.pow_pos_nonneg 2 (j - e); have := Z.pow_le_mono_r 2 (j - e) (3 * K); lia.
have p3 : (2 ^ (3 * K + 2) <= 2 ^ prec)%Z by apply: Z.pow_le_mono_r; lia.
have p4 : (2 ^ (3 * K + 2) = 4 * 2 ^ (3 * K))%Z by rewrite Z.pow_add_r; lia.
have q1 : (Z.abs (s * 2 ^ (i - e)) <= 2 ^ (3 * K))%Z by rewrite Z.abs_mul; nia.
have q2 : (Z.abs (t * 2 ^ (j - e)) <= 2 ^ (3 * K))%Z by rewrite Z.abs_mul; nia.
have q3 := Z.abs_triangle (s * 2 ^ (i - e)) (t * 2 ^ (j - e)).
have q4 : (0 < 2 ^ (3 * K))%Z by clear -p1; lia.
clear -q1 q2 q3 q4 p3 p4; lia.
Qed.
End Arith.
