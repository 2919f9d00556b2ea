(** * PFloatPow.v -- errors of multiples and powers of floats. *)

From Coq Require Import ZArith Reals Lra Lia.
From mathcomp Require Import all_ssreflect.
From Flocq Require Import Core BinarySingleNaN.
From Verif Require Import Rust Traits Wp MConstr MFloats Spec FloatSpec FloatLaw FloatErrSpec.
From Verif Require Import PFloat PFloat2 PFloat4 PFloatErr.

Set Implicit Arguments.
Unset Strict Implicit.
Unset Printing Implicit Defensive.

(** The loop of [times] and [power]: [elem_ok k e] for the [k]-fold element [e],
    [res_ok j q] for the [j]-fold result [q]. *)
Section Loop.
Variables (p : Prop) (E : Type) (op : E -> E -> M E) (dbl : E -> M E) (num : Z).
Variables (elem_ok res_ok : Z -> E -> Prop).
Local Open Scope Z_scope.
Hypothesis op_ok : forall j k q e, 0 <= j < k -> j + k <= num -> res_ok j q -> elem_ok k e ->
  ensures p (op q e) (res_ok (j + k)).
Hypothesis dbl_ok : forall k e, 0 < k <= num -> elem_ok k e ->
  ensures p (dbl e) (fun e' => 2 * k <= num -> elem_ok (2 * k) e').

Lemma ensures_power_loop x r : 0 <= num -> (0 < num -> elem_ok 1 x) -> res_ok 0 r ->
  ensures p (power_loop op dbl num x r) (fun s => res_ok num s.2).
Proof.
move=> n0 hx hr.
pose I (s : Z * E * E) := exists k j, [/\ 0 <= s.1.1, 0 <= j < k, num = s.1.1 * k + j,
  0 < s.1.1 -> elem_ok k s.1.2 & res_ok j s.2].
apply: (@ensures_while _ p _ _ I _ (fun s => Z.to_nat s.1.1)).
  by exists 1, 0; split=> //=; lia.
move=> [[m e] q] [k [j /= [m0 jk numE he hq]]]; apply: ensures_ret.
case: Z.gtb_spec => hm; last by move: hq; have -> : num = j by nia.
have he' := he hm; have kn : 0 < k <= num by nia.
have me : m = 2 * Z.quot m 2 + Z.rem m 2 by apply: Z.quot_rem'.
have [r0 r2] : 0 <= Z.rem m 2 /\ Z.rem m 2 < 2 by have := Z.rem_bound_pos m 2; lia.
have q0 : 0 <= Z.quot m 2 by apply: Z.quot_pos; lia.
apply: (@ensures_bind _ _ _ _ _ (res_ok (j + Z.rem m 2 * k))).
  case: Z.eqb_spec => r1; first by apply: ensures_ret; rewrite r1 Z.mul_0_l Z.add_0_r.
  have -> : Z.rem m 2 = 1 by lia.
  rewrite Z.mul_1_l; apply: op_ok => //; nia.
move=> q' hq'; apply: ensures_bind (dbl_ok kn he') _ => e' he''; apply: ensures_ret; split.
  exists (2 * k), (j + Z.rem m 2 * k); split=> //; cbn [fst snd]; [nia|nia|].
  by move=> h; apply: he''; nia.
apply/ltP; cbn [fst snd]; lia.
Qed.
End Loop.

Section Floats.
Variables (cfg : Cfg) (prec emax : Z).
Context (prec_gt_0 : Prec_gt_0 prec) (prec_lt_emax : Prec_lt_emax prec emax).
Local Notation F := (binary_float prec emax).
Local Notation fexp := (FLT_exp (3 - emax - prec) prec).
Local Notation rnd := (rounded prec emax).
Local Notation over := (overflows prec emax).
Local Notation A := (ApproxFloats cfg prec_gt_0 prec_lt_emax).
Local Notation u := (unit_error prec).
Local Notation eta := (tiny_error prec emax).
Local Notation after := (after_roundings prec).
Implicit Types (x y z v : F) (a b r t : R).
Local Open Scope R_scope.

Let RA := floats_rounding cfg prec_gt_0 prec_lt_emax.
Let u0 : 0 < u := u_gt0 prec.
Let u2 : u <= / 2 := u_le prec_gt_0.

Lemma pow_lo k : 0 < (1 - u) ^ k.
Proof. by apply: pow_lt; lra. Qed.
Lemma pow_lo_mono j k : (j <= k)%N -> (1 - u) ^ k <= (1 - u) ^ j.
Proof.
move=> h; rewrite -(subnKC h) pow_add; have := pow_lo j; set P := _ ^ j => P0.
have : (1 - u) ^ (k - j) <= 1 by rewrite -[X in _ <= X](pow1 (k - j)); apply: pow_incr; lra.
by nra.
Qed.
Lemma after_more j k t r : (j <= k)%N -> after j t r -> after k t r.
Proof.
move=> h [c [[c1 c2] ->]]; exists c; split=> //.
by have := pow_lo_mono h; have := pow1u_mono prec h; lra.
Qed.
Lemma after0 t : after 0 t t.
Proof. by exists 1; rewrite /=; split; [lra|ring]. Qed.
Lemma accurate_after t r : accurate prec t r -> after 1 t r.
Proof.
move=> [e [he ->]]; exists (1 + e); split=> //; rewrite !pow_1.
have he' : Rabs e <= u by [].
by have := Rle_abs e; have := Rle_abs (- e); rewrite Rabs_Ropp; lra.
Qed.
Lemma after_trans j k r s t : after j r s -> after k s t -> after (j + k) r t.
Proof.
move=> [c [[c1 c2] ->]] [c' [[c1' c2'] ->]]; exists (c * c'); split; last ring.
have := pow_lo j; have := pow_lo k; rewrite !pow_add => h1 h2.
by split; apply: Rmult_le_compat; lra.
Qed.
Lemma after_mult j k s t r q : after j s r -> after k t q -> after (j + k) (s * t) (r * q).
Proof.
move=> [c [[c1 c2] ->]] [c' [[c1' c2'] ->]]; exists (c * c'); split; last ring.
have := pow_lo j; have := pow_lo k; rewrite !pow_add => h1 h2.
by split; apply: Rmult_le_compat; lra.
Qed.

(** ** Repeated addition *)
Section Times.
Variables (x : F) (a : R) (num : Z).
Hypothesis xa : float_is x a.
Hypothesis num0 : (0 <= num)%Z.

Definition times_res (j : Z) (q : F) : Prop :=
  exists2 r, float_is q r & after (Z.to_nat (Z.log2 j)) (IZR j * a) r.
Definition times_elem (k : Z) (e : F) : Prop := float_is e (IZR k * a).

(** Adding numbers of the same sign. *)
Lemma after_add (n : nat) j k r : (0 < j)%Z -> (0 < k)%Z ->
  after n (IZR j * a) r -> after n (IZR (j + k) * a) (r + IZR k * a).
Proof.
move=> /IZR_lt j0 /IZR_lt k0 [c [[c1 c2] ->]]; rewrite plus_IZR.
exists ((IZR j * c + IZR k) / (IZR j + IZR k)); split; last by field; lra.
have h1 : (1 - u) ^ n <= 1 by rewrite -[X in _ <= X](pow1 n); apply: pow_incr; lra.
have h2 := pow1u prec n.
split.
  apply: (Rmult_le_reg_r (IZR j + IZR k)); first lra.
  rewrite /Rdiv Rmult_assoc Rinv_l; last lra.
  by nra.
apply: (Rmult_le_reg_r (IZR j + IZR k)); first lra.
rewrite /Rdiv Rmult_assoc Rinv_l; last lra.
by nra.
Qed.

Let big := bpow radix2 emax <= 2 * IZR num * (Rabs a * (1 + u) ^ Z.to_nat (Z.log2 num)).

Lemma times_near : ensures big (ntimes A num x)
  (fun y => exists2 r, float_is y r & after (Z.to_nat (Z.log2 num)) (IZR num * a) r).
Proof.
have e0 : 0 < bpow radix2 emax := bpow_gt_0 _ _.
have a0 := Rabs_pos a.
apply: ensures_bret.
apply: ensures_bind (@ensures_power_loop big _ (add_assign A) (double A) num times_elem times_res
  _ _ x (B754_zero false) num0 _ _) _; last 1 first.
- by move=> s [r sr h]; apply: ensures_ret; exists r.
- move=> j k q e [j0 jk] jkn [r qr jr] ek.
  have kp : (0 < k)%Z by lia.
  have kE : 0 < IZR k by exact: IZR_lt.
  have [j0'|jp] : j = 0%Z \/ (0 < j)%Z by lia.
    have r0 : r = 0 by move: jr => [c [_ ->]]; rewrite j0'; ring.
    rewrite j0' Z.add_0_l; have ge := gf ek; have be := bounded ek.
    apply: (rounds_ensures (fl_add_assign RA qr ek)).
      by rewrite r0 Rplus_0_l /overflows (rnd_gf ge); lra.
    move=> v; rewrite r0 Rplus_0_l (rnd_gf ge) => vE; exists (IZR k * a) => //.
    exact: after_more (leq0n _) (after0 _).
  have h1 : after (Z.to_nat (Z.log2 j)) (IZR (j + k) * a) (r + IZR k * a) by exact: after_add jr.
  have h2 := accurate_after (plus_accurate prec_gt_0 (gf qr) (gf ek)).
  have h3 : after (Z.to_nat (Z.log2 (j + k))) (IZR (j + k) * a) (rnd (r + IZR k * a)).
    apply: after_more (after_trans h1 h2).
    have l0 := Z.log2_nonneg j.
    have : (Z.log2 j + 1 <= Z.log2 (j + k))%Z.
      by rewrite Z.add_1_r -Z.log2_double //; apply: Z.log2_le_mono; lia.
    by move=> l1; apply/leP; rewrite addn1; lia.
  apply: (rounds_ensures (fl_add_assign RA qr ek)); last by move=> v vE; exists (rnd (r + IZR k * a)).
  rewrite /overflows /big; case: h3 => c [[c1 c2] ->] o; apply: (Rle_trans _ _ _ o).
  have c0 : 0 <= c by have := pow_lo (Z.to_nat (Z.log2 (j + k))); lra.
  rewrite !Rabs_mult (Rabs_pos_eq c) // (Rabs_pos_eq (IZR (j + k))); last by apply: IZR_le; lia.
  have jkE : 0 <= IZR (j + k) by apply: IZR_le; lia.
  have jkn' : IZR (j + k) <= IZR num by exact: IZR_le.
  have ll : (Z.to_nat (Z.log2 (j + k)) <= Z.to_nat (Z.log2 num))%N.
    have lm := Z.log2_le_mono _ _ jkn; have l0 := Z.log2_nonneg (j + k).
    by apply/leP; apply/Z2Nat.inj_le => //; lia.
  have c3 : c <= (1 + u) ^ Z.to_nat (Z.log2 num) by have := pow1u_mono prec ll; lra.
  have : Rabs a * c <= Rabs a * (1 + u) ^ Z.to_nat (Z.log2 num) by apply: Rmult_le_compat_l.
  have : 0 <= Rabs a * c by nra.
  rewrite Rmult_assoc; set P := Rabs a * c; set P' := Rabs a * _ => P0 PP.
  have : IZR (j + k) * P <= IZR num * P' by apply: Rmult_le_compat; lra.
  have : 0 <= IZR num * P' by apply: Rmult_le_pos; lra.
  by lra.
- move=> k e [k0 kn] ek; have kE : 0 < IZR k by exact: IZR_lt.
  have twice : 2 * (IZR k * a) = IZR (2 * k) * a by rewrite [in RHS]mult_IZR; ring.
  case: (Rlt_le_dec (Rabs (2 * (IZR k * a))) (bpow radix2 emax)) => h.
    have [v mv vE] := law_double (floats_laws cfg prec_gt_0 prec_lt_emax) ek h.
    by left; exists v; split=> // _; rewrite /times_elem -twice.
  right; split.
    rewrite /big; apply: (Rle_trans _ _ _ h).
    rewrite !Rabs_mult (Rabs_pos_eq 2); last lra.
    rewrite (Rabs_pos_eq (IZR k)); last lra.
    have kn' : IZR k <= IZR num by exact: IZR_le.
    have P1 := pow1u prec (Z.to_nat (Z.log2 num)).
    have h1 : Rabs a <= Rabs a * (1 + u) ^ Z.to_nat (Z.log2 num) by nra.
    have : IZR k * Rabs a <= IZR num * (Rabs a * (1 + u) ^ Z.to_nat (Z.log2 num)).
      by apply: Rmult_le_compat; lra.
    by lra.
  apply: (fl_double RA ek).2; apply/overflow_threshold.
  have -> : IZR k * a + IZR k * a = 2 * (IZR k * a) by ring.
  by have := bpow_ge_0 radix2 (emax - prec - 1); lra.
- by move=> _; rewrite /times_elem Rmult_1_l.
- by exists 0 => //; rewrite Rmult_0_l; exact: after0.
Qed.
End Times.

(** ** Powers *)
Lemma emax2 : (2 <= emax)%Z.
Proof. by have : (0 < prec)%Z := prec_gt_0; have : (prec < emax)%Z := prec_lt_emax; lia. Qed.
Lemma emax_gt1 : 2 < bpow radix2 emax.
Proof.
apply: (Rlt_le_trans _ (bpow radix2 2)); first by rewrite /= /Z.pow_pos /=; lra.
by apply: bpow_le; exact: emax2.
Qed.

(** Above the subnormal numbers products are accurate. *)
Lemma normal_accurate t : bpow radix2 (2 - emax) <= Rabs t -> accurate prec t (rnd t).
Proof.
move=> h; have t0 : 0 < Rabs t by have := bpow_gt_0 radix2 (2 - emax); lra.
have tn : t <> 0 by move=> t1; rewrite t1 Rabs_R0 in t0; lra.
have [//|g] := tiny emax prec_gt_0 t.
exists ((rnd t - t) / t); split; last by field.
rewrite /Rdiv Rabs_mult Rabs_inv; apply: (Rmult_le_reg_r (Rabs t)) => //.
rewrite Rmult_assoc Rinv_l; last lra.
rewrite Rmult_1_r; apply: (Rle_trans _ _ _ g).
have -> : (2 - emax - prec = - prec + (2 - emax))%Z by lia.
rewrite bpow_plus; apply: Rmult_le_compat_l => //; exact: bpow_ge_0.
Qed.
Lemma over_accurate t : over t -> accurate prec t (rnd t).
Proof.
move=> o; apply: normal_accurate; apply: (Rle_trans _ 1).
  by change 1 with (bpow radix2 0); apply: bpow_le; have := emax2; lia.
case: (Rle_lt_dec 1 (Rabs t)) => // lt; exfalso.
have := rnd_error emax prec_gt_0 t; have := Rabs_triang_inv (rnd t) t.
have e1 : eta <= / 2.
  have -> : / 2 = bpow radix2 (- 1) by [].
  by apply: bpow_le; have := emax2; have : (0 < prec)%Z := prec_gt_0; lia.
have := emax_gt1; move: o; rewrite /overflows => o.
have : u * Rabs t <= / 2 * 1 by apply: Rmult_le_compat; try exact: Rabs_pos; lra.
by lra.
Qed.

Section Power.
Variables (x : F) (b : R) (num : Z).
Hypothesis xb : float_is x b.
Hypothesis num0 : (0 < num)%Z.

Definition power_res (j : Z) (q : F) : Prop :=
  exists2 r, float_is q r & after (Z.to_nat j).-1 (b ^ Z.to_nat j) r.
Definition power_elem (k : Z) (e : F) : Prop :=
  exists2 r, float_is e r & after (Z.to_nat k).-1 (b ^ Z.to_nat k) r.

Definition power_big := bpow radix2 emax <= (Rabs b * (1 + u)) ^ Z.to_nat (2 * num).
Definition power_normal := bpow radix2 (2 - emax) <= (Rabs b * (1 - u)) ^ Z.to_nat num.
Hypothesis normal : power_normal.

Lemma big_mono (k : nat) : (k <= Z.to_nat (2 * num))%N ->
  bpow radix2 emax <= (Rabs b * (1 + u)) ^ k -> power_big.
Proof.
move=> kn h; rewrite /power_big; apply: (Rle_trans _ _ _ h); apply: Rle_pow; last exact/leP.
case: (Rle_lt_dec 1 (Rabs b * (1 + u))) => // lt; exfalso.
have b0 := Rabs_pos b.
have : (Rabs b * (1 + u)) ^ k <= 1 ^ k by apply: pow_incr; split; nra.
by rewrite pow1; have := emax_gt1; lra.
Qed.
Lemma normal_mono (k : nat) : (k <= Z.to_nat num)%N ->
  bpow radix2 (2 - emax) <= (Rabs b * (1 - u)) ^ k.
Proof.
move=> kn; have b0 := Rabs_pos b.
case: (Rle_lt_dec 1 (Rabs b * (1 - u))) => h.
  apply: (Rle_trans _ 1); last exact: pow_R1_Rle.
  by change 1 with (bpow radix2 0); apply: bpow_le; have := emax2; lia.
apply: (Rle_trans _ _ _ normal); rewrite -(subnKC kn) pow_add.
have h1 : 0 <= Rabs b * (1 - u) by nra.
have : 0 <= (Rabs b * (1 - u)) ^ k by exact: pow_le.
have : (Rabs b * (1 - u)) ^ (Z.to_nat num - k) <= 1.
  by rewrite -[X in _ <= X](pow1 (Z.to_nat num - k)); apply: pow_incr; lra.
by nra.
Qed.

(** The product of a [j]-th and a [k]-th power. *)
Lemma power_product (j k : nat) (q e : F) r s : (0 < j)%N -> (0 < k)%N ->
  float_is q r -> after j.-1 (b ^ j) r -> float_is e s -> after k.-1 (b ^ k) s ->
  (over (r * s) -> bpow radix2 emax <= (Rabs b * (1 + u)) ^ (j + k)) /\
  ((j + k <= Z.to_nat num)%N -> after (j + k).-1 (b ^ (j + k)) (rnd (r * s))).
Proof.
move=> j0 k0 qr rj es sk; have b0 := Rabs_pos b.
have h := after_mult rj sk; rewrite -pow_add plusE in h.
have jk1 : (j.-1 + k.-1 + 1 = (j + k).-1)%N.
  by case: (j) (k) j0 k0 => // j' [] //= k' _ _; rewrite -!plusE /=; lia.
have [c [[c1 c2] rs]] := h.
have c0 : 0 < c by have := pow_lo (j.-1 + k.-1); lra.
have absE : Rabs (r * s) = Rabs b ^ (j + k) * c.
  by rewrite rs Rabs_mult RPow_abs (Rabs_pos_eq c) //; lra.
have bp : 0 <= Rabs b ^ (j + k) by exact: pow_le.
split=> [o|jkn].
  have [e' [he rE]] := over_accurate o; move: (o); rewrite /overflows rE => o'.
  apply: (Rle_trans _ _ _ o'); rewrite Rabs_mult absE Rpow_mult_distr Rmult_assoc.
  apply: Rmult_le_compat_l => //.
  have he' : Rabs (1 + e') <= 1 + u.
    by apply: (Rle_trans _ _ _ (Rabs_triang _ _)); rewrite Rabs_R1; have : Rabs e' <= u by []; lra.
  have c3 : c <= (1 + u) ^ (j.-1 + k.-1) by [].
  have : c * Rabs (1 + e') <= (1 + u) ^ (j.-1 + k.-1) * (1 + u) ^ 1.
    by rewrite pow_1; apply: Rmult_le_compat => //; [lra|exact: Rabs_pos].
  rewrite -pow_add plusE jk1 => h2; apply: (Rle_trans _ _ _ h2).
  by apply: pow1u_mono; exact: leq_pred.
have acc : accurate prec (r * s) (rnd (r * s)).
  apply: normal_accurate; apply: (Rle_trans _ _ _ (normal_mono jkn)).
  rewrite absE Rpow_mult_distr; apply: Rmult_le_compat_l => //.
  apply: (Rle_trans _ _ _ _ c1); apply: pow_lo_mono.
  by apply: (leq_trans (leq_addr 1 _)); rewrite jk1 leq_pred.
by rewrite -jk1; apply: after_trans h _; exact: accurate_after.
Qed.

Lemma power_loop_near : ensures power_big (power_loop (mul_assign A) (square A) num x Bone)
  (fun s => power_res num s.2).
Proof.
apply: (@ensures_power_loop power_big _ (mul_assign A) (square A) num power_elem power_res).
- move=> j k q e [j0 jk] jkn [r qr jr] [s es ks].
  have kp : (0 < Z.to_nat k)%N by apply/ltP; lia.
  have njk : Z.to_nat (j + k) = (Z.to_nat j + Z.to_nat k)%N by apply: Z2Nat.inj_add; lia.
  have le1 : (Z.to_nat j + Z.to_nat k <= Z.to_nat num)%N by rewrite -njk; apply/leP; lia.
  have [j1|jp] : j = 0%Z \/ (0 < j)%Z by lia.
    move: jr; rewrite j1 /= => -[c [[c1 c2] rc]].
    have r1 : r = 1 by rewrite rc; lra.
    have gs := gf es; have bs := bounded es.
    apply: (rounds_ensures (fl_mul_assign RA qr es)).
      by rewrite r1 Rmult_1_l /overflows (rnd_gf gs); lra.
    by move=> v; rewrite r1 Rmult_1_l (rnd_gf gs) => vE; exists s => //; rewrite Z.add_0_l.
  have jp' : (0 < Z.to_nat j)%N by apply/ltP; lia.
  have [h1 h2] := power_product jp' kp qr jr es ks.
  apply: (rounds_ensures (fl_mul_assign RA qr es)).
    by move=> /h1; apply: big_mono; apply: (leq_trans le1); apply/leP; lia.
  by move=> v vE; exists (rnd (r * s)) => //; rewrite njk; exact: h2.
- move=> k e [k0 kn] [s es ks].
  have kp : (0 < Z.to_nat k)%N by apply/ltP; lia.
  have [h1 h2] := power_product kp kp es ks es ks.
  apply: (rounds_ensures (fl_square RA es)).
    by move=> /h1; apply: big_mono; apply/leP; rewrite -plusE; lia.
  move=> v vE kn2; exists (rnd (s * s)) => //.
  have -> : Z.to_nat (2 * k) = (Z.to_nat k + Z.to_nat k)%N by rewrite -plusE; lia.
  by apply: h2; apply/leP; rewrite -plusE; lia.
- by lia.
- by move=> _; exists b => //=; rewrite Rmult_1_r; exact: after0.
- by exists 1 => /=; [split; [exact: is_finite_Bone|exact: Bone_correct]|exact: after0].
Qed.
End Power.

Lemma power_near x a num : float_is x a -> (0 < num)%Z ->
  bpow radix2 (2 - emax) <= (Rabs a * (1 - u)) ^ Z.to_nat num ->
  ensures (bpow radix2 emax <= (Rabs a * (1 + u)) ^ Z.to_nat (2 * num)) (fpower A num x)
    (fun y => exists2 r, float_is y r & after (Z.to_nat num).-1 (a ^ Z.to_nat num) r).
Proof.
move=> xa n0 normal.
have a0 : a <> 0.
  move=> a0; move: normal; rewrite a0 Rabs_R0 Rmult_0_l pow_i; last by lia.
  by have := bpow_gt_0 radix2 (2 - emax); lra.
have [bz zr zE] := fl_is_zero RA xa.
set p := (p in ensures p).
have hz : ensures p (is_zero A x) (fun c => c = false).
  by left; exists bz; split=> //; case: (bz) zE => // -[/(_ erefl)].
apply: ensures_bind hz _ => _ ->; rewrite /= /default_gpower.
have -> : (num <? 0)%Z = false by apply/Z.ltb_ge; lia.
apply: ensures_bret; apply: ensures_bret; cbn [fst snd].
by apply: ensures_bind (power_loop_near xa n0 normal) _ => s h; exact: ensures_ret.
Qed.

Lemma power_neg_near x a num : float_is x a -> a <> 0 -> (num < 0)%Z -> good_isize cfg num ->
  bpow radix2 (2 - emax) <= (Rabs (/ a) * (1 - u) ^ 2) ^ Z.to_nat (- num) ->
  ensures (bpow radix2 emax <= (Rabs (/ a) * (1 + u) ^ 2) ^ Z.to_nat (2 * - num)) (fpower A num x)
    (fun y => exists2 r, float_is y r &
       after (2 * Z.to_nat (- num)).-1 (/ a ^ Z.to_nat (- num)) r).
Proof.
move=> xa a0 n0 gn normal; set N := Z.to_nat (- num) in normal *.
have N0 : (0 < N)%N by apply/ltP; rewrite /N; lia.
have N1 : N = N.-1.+1 by rewrite prednK.
have emin1 : bpow radix2 (2 - emax) <= 1.
  by change 1 with (bpow radix2 0); apply: bpow_le; have := emax2; lia.
have i0 : 0 <= Rabs (/ a) := Rabs_pos _.
have u1 : 0 < (1 - u) ^ 2 <= 1 by split; [apply: pow_lt|rewrite -(pow1 2); apply: pow_incr]; lra.
have inorm : bpow radix2 (2 - emax) <= Rabs (/ a).
  case: (Rle_lt_dec 1 (Rabs (/ a))) => h; first lra.
  apply: (Rle_trans _ _ _ normal); rewrite N1 -tech_pow_Rmult.
  have h1 : 0 <= Rabs (/ a) * (1 - u) ^ 2 <= 1 by nra.
  have : (Rabs (/ a) * (1 - u) ^ 2) ^ N.-1 <= 1.
    by rewrite -[X in _ <= X](pow1 N.-1); apply: pow_incr.
  have : 0 <= (Rabs (/ a) * (1 - u) ^ 2) ^ N.-1 by apply: pow_le; lra.
  by nra.
have [bz zr zE] := fl_is_zero RA xa; set p := (p in ensures p).
have hz : ensures p (is_zero A x) (fun c => c = false).
  by left; exists bz; split=> //; case: (bz) zE => // -[/(_ erefl)].
apply: ensures_bind hz _ => _ ->; rewrite /= /default_gpower.
have -> : (num <? 0)%Z = true by apply/Z.ltb_lt.
have -> : prim_i cfg (ptr_bits cfg) (- num) = ret (- num)%Z.
  rewrite /prim_i; have [] := gn; rewrite /is_isize /in_i /imin /imax.
  by case: Z.leb_spec => // h1; case: Z.leb_spec => // h2 _ h3; rewrite !ifT //; apply/andP; split; apply/Z.leb_le; lia.
apply: (@ensures_bind _ _ _ _ _ (fun s : Z * F => s.1 = (- num)%Z /\ exists2 r, float_is s.2 r &
    accurate prec (/ a) r)).
  apply: ensures_bret.
  have [h1 h2] := fl_try_inv RA xa a0.
  have acc := normal_accurate inorm.
  case: (over_dec prec emax (/ a)) => o.
    right; split; last by apply: panics_bind; apply: panics_bind2 (h2 o) _; exact: panics_panic.
    have [e [he rE]] := over_accurate o; move: (o); rewrite /overflows rE /p => o'.
    have h3 : bpow radix2 emax <= Rabs (/ a) * (1 + u) ^ 2.
      apply: (Rle_trans _ _ _ o'); rewrite Rabs_mult; apply: Rmult_le_compat_l => //.
      apply: (Rle_trans _ (1 + u)); last by rewrite /=; nra.
      by apply: (Rle_trans _ _ _ (Rabs_triang _ _)); rewrite Rabs_R1; have : Rabs e <= u by []; lra.
    apply: (Rle_trans _ _ _ h3); rewrite -{1}[Rabs (/ a) * _]pow_1.
    by apply: Rle_pow; [have := emax_gt1; lra|lia].
  have [y ty yr] := h1 o.
  apply: (@ensures_bind _ _ _ _ _ (fun z => z = y)).
    by apply: ensures_returns erefl; apply: returns_bind ty _; exact: returns_ret.
  by move=> _ ->; apply: ensures_ret; split=> //; exists (rnd (/ a)).
move=> [m y] /= [-> [r yr racc]]; apply: ensures_bret.
have nn : (0 < - num)%Z by lia.
have [c [[c1 c2] rc]] := accurate_after racc; rewrite !pow_1 in c1 c2.
have rE : Rabs r = Rabs (/ a) * c by rewrite rc Rabs_mult (Rabs_pos_eq c) //; lra.
have rnormal : power_normal r (- num).
  rewrite /power_normal -/N; apply: (Rle_trans _ _ _ normal); apply: pow_incr.
  by split; [nra|rewrite rE /= Rmult_1_r -Rmult_assoc; apply: Rmult_le_compat_r; nra].
apply: ensures_bind (ensures_weaken _ (power_loop_near yr nn rnormal)) _.
  rewrite /power_big /p => h; apply: (Rle_trans _ _ _ h); apply: pow_incr.
  have r0 := Rabs_pos r.
  by split; [nra|rewrite rE /= Rmult_1_r -Rmult_assoc; apply: Rmult_le_compat_r; nra].
move=> s [q sq qE]; apply: ensures_ret; exists q => //.
have rp k : after k (/ a ^ k) (r ^ k).
  elim: k => [|k IH] /=; first by rewrite Rinv_1; exact: after0.
  rewrite -add1n Rinv_mult; apply: after_mult => //; exact: accurate_after.
have := after_trans (rp N) qE; rewrite -/N; congr after.
by apply/eqP; rewrite -eqSS; case: (N) N0 => // k _; apply/eqP; rewrite mul2n -addnn -plusE /=; lia.
Qed.

(** ** Exact multiples and powers *)
Lemma small_format (z e : Z) : (Z.abs z <= 2 ^ prec)%Z -> (3 - emax - prec <= e)%Z ->
  generic_format radix2 fexp (IZR z * bpow radix2 e).
Proof.
move=> hz he; have p0 : (0 < prec)%Z := prec_gt_0.
have := @scaled_exact prec emax prec_gt_0 e 0; rewrite Z.add_0_r; apply=> //.
rewrite Rabs_mult -abs_IZR (Rabs_pos_eq (bpow _ _)); last exact: bpow_ge_0.
rewrite bpow_plus; apply: Rmult_le_compat_r; first exact: bpow_ge_0.
by rewrite -(IZR_Zpower radix2); [exact: IZR_le|lia].
Qed.

Section ExactTimes.
Variables (x : F) (z e num : Z).
Local Notation a := (IZR z * bpow radix2 e).
Hypothesis xa : float_is x a.
Hypothesis num0 : (0 <= num)%Z.
Hypothesis small : (num * Z.abs z <= 2 ^ prec)%Z.
Hypothesis emin : (3 - emax - prec <= e)%Z.
Let big := bpow radix2 emax <= 2 * IZR num * Rabs a.

Lemma times_exact : ensures big (ntimes A num x) (fun y => float_is y (IZR num * a)).
Proof.
have e0 : 0 < bpow radix2 emax := bpow_gt_0 _ _.
have a0 := Rabs_pos a.
have nE : 0 <= IZR num by exact: IZR_le.
apply: ensures_bret.
apply: ensures_bind (@ensures_power_loop big _ (add_assign A) (double A) num
  (fun k v => float_is v (IZR k * a)) (fun k v => float_is v (IZR k * a))
  _ _ x (B754_zero false) num0 _ _) _; last 1 first.
- by move=> s h; exact: ensures_ret.
- move=> j k q v [j0 jk] jkn qj vk.
  have jkE : IZR j * a + IZR k * a = IZR (j + k) * a by rewrite plus_IZR; ring.
  have g : generic_format radix2 fexp (IZR (j + k) * a).
    rewrite -Rmult_assoc -mult_IZR; apply: small_format => //.
    by rewrite Z.abs_mul (Z.abs_eq (j + k)); nia.
  have jk0 : 0 <= IZR (j + k) <= IZR num by split; apply: IZR_le; lia.
  apply: (rounds_ensures (fl_add_assign RA qj vk)); rewrite jkE /overflows (rnd_gf g) //.
  move=> o; rewrite /big; apply: (Rle_trans _ _ _ o).
  by rewrite Rabs_mult (Rabs_pos_eq (IZR _)); nra.
- move=> k v [k0 kn] vk.
  have twice : 2 * (IZR k * a) = IZR (2 * k) * a by rewrite [in RHS]mult_IZR; ring.
  case: (Rlt_le_dec (Rabs (2 * (IZR k * a))) (bpow radix2 emax)) => h.
    have [w mw wE] := law_double (floats_laws cfg prec_gt_0 prec_lt_emax) vk h.
    by left; exists w; split=> // _; rewrite -twice.
  right; split.
    rewrite /big; apply: (Rle_trans _ _ _ h).
    have kn' : 0 <= IZR k <= IZR num by split; apply: IZR_le; lia.
    by rewrite 2!Rabs_mult (Rabs_pos_eq 2) ?(Rabs_pos_eq (IZR k)); nra.
  apply: (fl_double RA vk).2; apply/overflow_threshold.
  have -> : IZR k * a + IZR k * a = 2 * (IZR k * a) by ring.
  by have := bpow_ge_0 radix2 (emax - prec - 1); lra.
- by move=> _; rewrite Rmult_1_l.
- by rewrite Rmult_0_l.
Qed.
End ExactTimes.

Lemma over_big t : over t -> bpow radix2 (emax - 1) <= Rabs t.
Proof.
rewrite /overflows => o; case: (Rle_lt_dec (bpow radix2 (emax - 1)) (Rabs t)) => // lt; exfalso.
have p0 : (0 < prec)%Z := prec_gt_0; have e2 := emax2.
have gb : generic_format radix2 fexp (bpow radix2 (emax - 1)).
  by apply: generic_format_bpow; rewrite /FLT_exp; lia.
have : Rabs (rnd t) <= bpow radix2 (emax - 1).
  by apply: abs_round_le_generic => //; lra.
have : bpow radix2 (emax - 1) < bpow radix2 emax by apply: bpow_lt; lia.
lra.
Qed.

Section ExactPower.
Variables (x : F) (z e num : Z).
Local Notation a := (IZR z * bpow radix2 e).
Hypothesis xa : float_is x a.
Hypothesis num0 : (0 < num)%Z.
Hypothesis small : (Z.abs z ^ num <= 2 ^ prec)%Z.
Hypothesis emin : (3 - emax - prec <= num * e)%Z.
Let big := bpow radix2 (emax - 1) <= Rabs a ^ Z.to_nat (2 * num).

Lemma exact_pow (k : Z) : (0 <= k)%Z ->
  a ^ Z.to_nat k = IZR (z ^ k) * bpow radix2 (k * e).
Proof.
move=> k0; rewrite -{2 3}(Z2Nat.id k k0); elim: (Z.to_nat k) => [|n IH].
  by rewrite /=; ring.
rewrite -tech_pow_Rmult IH Nat2Z.inj_succ Z.pow_succ_r; last lia.
by rewrite mult_IZR Z.mul_succ_l bpow_plus; ring.
Qed.
Lemma exact_mono (j k : nat) : (j <= k)%N ->
  bpow radix2 (emax - 1) <= Rabs a ^ j -> bpow radix2 (emax - 1) <= Rabs a ^ k.
Proof.
move=> jk h; apply: (Rle_trans _ _ _ h); apply: Rle_pow; last exact/leP.
case: (Rle_lt_dec 1 (Rabs a)) => // lt; exfalso.
have : Rabs a ^ j <= 1 ^ j by apply: pow_incr; split; [exact: Rabs_pos|lra].
rewrite pow1; have e2 := emax2.
have : bpow radix2 1 <= bpow radix2 (emax - 1) by apply: bpow_le; lia.
by rewrite /=; lra.
Qed.

Lemma power_exact : ensures big (fpower A num x) (fun y => float_is y (a ^ Z.to_nat num)).
Proof.
have [bz zr zE] := fl_is_zero RA xa.
have hz : ensures big (is_zero A x) (fun c => c = bz) by left; exists bz.
apply: ensures_bind hz _ => _ ->.
case: (bz) zE => [[/(_ erefl) aE _]|_].
  by apply: ensures_ret; rewrite aE pow_i //; lia.
rewrite /= /default_gpower.
have -> : (num <? 0)%Z = false by apply/Z.ltb_ge; lia.
apply: ensures_bret; apply: ensures_bret; cbn [fst snd].
have p0 : (0 < prec)%Z := prec_gt_0; have e2 := emax2.
apply: ensures_bind (@ensures_power_loop big _ (mul_assign A) (square A) num
  (fun k v => float_is v (a ^ Z.to_nat k)) (fun k v => float_is v (a ^ Z.to_nat k))
  _ _ x Bone _ _ _) _; last 1 first.
- by move=> s h; exact: ensures_ret.
- move=> j k q v [j0 jk] jkn qj vk.
  have njk : Z.to_nat (j + k) = (Z.to_nat j + Z.to_nat k)%N by apply: Z2Nat.inj_add; lia.
  have jkE : a ^ Z.to_nat j * a ^ Z.to_nat k = a ^ Z.to_nat (j + k) by rewrite njk -pow_add.
  have g : generic_format radix2 fexp (a ^ Z.to_nat (j + k)).
    rewrite exact_pow; last lia.
    apply: small_format; last by nia.
    rewrite Z.abs_pow; apply: Z.le_trans small.
    have [z0|z0] : (Z.abs z = 0 \/ 0 < Z.abs z)%Z by lia.
      by rewrite z0 !Z.pow_0_l; lia.
    by apply: Z.pow_le_mono_r.
  apply: (rounds_ensures (fl_mul_assign RA qj vk)); rewrite jkE ?(rnd_gf g) //.
  move=> /over_big; rewrite -RPow_abs; apply: exact_mono; apply/leP; lia.
- move=> k v [k0 kn] vk.
  have nkk : Z.to_nat (2 * k) = (Z.to_nat k + Z.to_nat k)%N by rewrite -plusE; lia.
  have kE : a ^ Z.to_nat k * a ^ Z.to_nat k = a ^ Z.to_nat (2 * k) by rewrite nkk -pow_add.
  apply: (rounds_ensures (fl_square RA vk)); rewrite kE.
    by move=> /over_big; rewrite -RPow_abs; apply: exact_mono; apply/leP; lia.
  move=> w wE kn2; move: wE; rewrite rnd_gf // exact_pow; last lia.
  apply: small_format; last by nia.
  rewrite Z.abs_pow; apply: Z.le_trans small.
  have [z0|z0] : (Z.abs z = 0 \/ 0 < Z.abs z)%Z by lia.
    by rewrite z0 !Z.pow_0_l; lia.
  by apply: Z.pow_le_mono_r.
- by lia.
- by move=> _; rewrite /= Rmult_1_r.
- by split; [exact: is_finite_Bone|exact: Bone_correct].
Qed.
End ExactPower.
End Floats.
