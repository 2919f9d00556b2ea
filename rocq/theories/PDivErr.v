(** * PDivErr.v -- the backward error of the division of polynomials over floats. *)

From Coq Require Import ZArith Reals Lra Lia.
From mathcomp Require Import all_ssreflect zify.
From Flocq Require Import Core BinarySingleNaN.
From Verif Require Import Rust RustFacts Traits Wp MConstr MFloats FloatSpec FloatErrSpec LuSpec.
From Verif Require Import DivErrSpec PFloat PFloat3 PFloatEx PFloat4 PFloatErr PDefaults PLu PLu2.

Set Implicit Arguments.
Unset Strict Implicit.
Unset Printing Implicit Defensive.

Section DivErr.
Variables (cfg : Cfg) (prec emax : Z).
Context (prec_gt_0 : Prec_gt_0 prec) (prec_lt_emax : Prec_lt_emax prec emax).
Local Notation F := (binary_float prec emax).
Local Notation rnd := (rounded prec emax).
Local Notation A := (ApproxFloats cfg prec_gt_0 prec_lt_emax).
Local Notation d0 := (B754_zero false : F).
Local Notation u := (unit_error prec).
Local Notation eta := (tiny_error prec emax).
Implicit Types (v w q r : seq F) (i j k c : nat).
Let RA := floats_rounding cfg prec_gt_0 prec_lt_emax.
Let u0 : (0 < u)%R. Proof. exact: u_gt0. Qed.
Let e0 : (0 < eta)%R. Proof. exact: eta_gt0. Qed.

(** ** One coefficient *)
(** If [x] is replaced by anything near it, then [t] is near the sum of that and [D]. *)
Definition carries c (t x D B : R) : Prop := forall T S b : R,
  (0 <= b -> Rabs T <= S -> Rabs (x - T) <= b ->
   Rabs (t - (D + T)) <= (1 + u) ^ c * b + ((1 + u) ^ c - 1) * (B + S) +
     2 * INR c * (1 + u) ^ c * eta)%R.

Local Open Scope R_scope.
Lemma carries0 t : carries 0 t t 0 0.
Proof. by move=> T S b b0 TS h; rewrite /= Rplus_0_l; lra. Qed.

Lemma carries_step c t x D B (p x' : R) :
  Rabs (x - (x' + p)) <= u * (Rabs x' + Rabs p) + 2 * eta -> 0 <= B ->
  carries c t x D B -> carries c.+1 t x' (D + p) (B + Rabs p).
Proof.
move=> h B0 hc T S b b0 TS hT.
have xb : Rabs x' <= S + b.
  by have := Rabs_triang (x' - T) T; rewrite (_ : x' - T + T = x'); [lra|ring].
have p0 := Rabs_pos p; have S0 : 0 <= S by have := Rabs_pos T; lra.
have h1 : Rabs (x - (p + T)) <= (1 + u) * b + u * (S + Rabs p) + 2 * eta.
  have -> : x - (p + T) = (x - (x' + p)) + (x' - T) by ring.
  apply: (Rle_trans _ _ _ (Rabs_triang _ _)).
  have : u * Rabs x' <= u * (S + b) by apply: Rmult_le_compat_l; lra.
  lra.
have h2 : Rabs (p + T) <= S + Rabs p by have := Rabs_triang p T; lra.
have b1 : 0 <= (1 + u) * b + u * (S + Rabs p) + 2 * eta.
  have := Rmult_le_pos _ _ (Rlt_le _ _ u0) b0.
  have := Rmult_le_pos _ _ (Rlt_le _ _ u0) (Rplus_le_le_0_compat _ _ S0 p0); lra.
have {hc} := hc _ _ _ b1 h2 h1.
rewrite (_ : D + (p + T) = D + p + T); last ring.
move=> h3; apply: (Rle_trans _ _ _ h3); rewrite S_INR -tech_pow_Rmult.
have g := @pow1u prec c; set G := (1 + u) ^ c in g *; have i0 := pos_INR c.
have z1 : 0 <= u * G * B by apply: Rmult_le_pos => //; apply: Rmult_le_pos; lra.
have z2 : 0 <= (2 * INR c + 2) * (u * G) * eta.
  by apply: Rmult_le_pos; [apply: Rmult_le_pos; [lra|apply: Rmult_le_pos; lra]|lra].
lra.
Qed.

Lemma step_error (x p g q x' : R) : p = q * g -> x' = rnd (x + rnd (g * - q)) ->
  Rabs (x - (x' + p)) <= u * (Rabs x' + Rabs p) + 2 * eta.
Proof.
move=> -> E; have h1 := @rnd_fore prec emax prec_gt_0 (g * - q).
have h2 := @rnd_back prec emax prec_gt_0 (x + rnd (g * - q)); rewrite -E in h2.
have -> : x - (x' + q * g) = - (x' - (x + rnd (g * - q))) - (rnd (g * - q) - g * - q) by ring.
have -> : Rabs (q * g) = Rabs (g * - q) by rewrite -Rabs_Ropp; congr Rabs; ring.
apply: (Rle_trans _ _ _ (Rabs_triang _ _)); rewrite !Rabs_Ropp; lra.
Qed.

Lemma quotient_error (x a q : R) : a <> 0 -> q = rnd (x / a) ->
  Rabs (x - q * a) <= u * Rabs (q * a) + eta * Rabs a.
Proof.
move=> a0 E; have h := @rnd_back prec emax prec_gt_0 (x / a); rewrite -E in h.
have -> : x - q * a = (q - x / a) * - a by field.
rewrite !Rabs_mult Rabs_Ropp; have := Rmult_le_compat_r _ _ _ (Rabs_pos a) h; lra.
Qed.

(** The end of a coefficient *)
Lemma carries_end c d t x D B T b e : (c <= d)%N -> 0 <= B -> 0 <= e ->
  b = u * Rabs T + e * eta -> Rabs (x - T) <= b -> carries c t x D B ->
  Rabs (t - (D + T)) <= ((1 + u) ^ d.+1 - 1) * (B + Rabs T) + (1 + u) ^ d * (2 * INR d + e) * eta.
Proof.
move=> cd B0 ee bE hT hc; have T0 := Rabs_pos T.
have b0 : 0 <= b.
  rewrite bE; have := Rmult_le_pos _ _ (Rlt_le _ _ u0) T0.
  by have := Rmult_le_pos _ _ ee (Rlt_le _ _ e0); lra.
have h := hc T _ b b0 (Rle_refl _) hT; apply: (Rle_trans _ _ _ h).
have m1 : (1 + u) ^ c <= (1 + u) ^ d by exact: pow1u_mono.
have m2 : INR c <= INR d by apply: le_INR; exact/leP.
rewrite -tech_pow_Rmult; have g := @pow1u prec c; set G := (1 + u) ^ c in g m1 *.
set H := (1 + u) ^ d in m1 *; have i0 := pos_INR c.
apply: (@Rle_trans _ (H * b + (H - 1) * (B + Rabs T) + 2 * INR d * H * eta)).
  apply: Rplus_le_compat.
    by apply: Rplus_le_compat; apply: Rmult_le_compat_r; lra.
  by apply: Rmult_le_compat_r; [lra|apply: Rmult_le_compat; lra].
rewrite bE; have z : 0 <= u * H * B by apply: Rmult_le_pos => //; apply: Rmult_le_pos; lra.
lra.
Qed.
Local Close Scope R_scope.

(** ** Subtracting a multiple of the divisor *)
Section Rows.
Variables (v0 w : seq F).
Hypothesis fv : all_finite v0.
Hypothesis fw : all_finite w.
Hypothesis w0 : (0 < size w)%N.
Hypothesis vw : (size w <= size v0)%N.
Local Notation m := (size w).-1.
Local Notation l := (size v0 - m)%N.

Lemma finite_coef v k : all_finite v -> (k < size v)%N -> float_is (nth d0 v k) (coef v k).
Proof. by move=> h kv; split=> //; exact: h. Qed.

Lemma subtract_row i r b (q : R) : (i < l)%N -> size r = size v0 -> all_finite r -> float_is b (- q)%R ->
  ensures True (for_loop 0 (size w - 1) (fun j rem =>
        let! y := vget w j in
        let! e := mul A y b in
        let! d := vget rem (i + j) in
        let! d := add A d e in
        vset rem (i + j) d) r)
    (fun r' => [/\ size r' = size v0, all_finite r' &
       forall k, coef r' k = if (i <= k < i + m)%N
         then rnd (coef r k + rnd (coef w (k - i) * - q)) else coef r k]).
Proof.
move=> il sr fr bq.
pose I j r' := [/\ size r' = size v0, all_finite r' &
       forall k, coef r' k = if (i <= k < i + j)%N
         then rnd (coef r k + rnd (coef w (k - i) * - q)) else coef r k].
have I0 : I 0%N r by split=> // k; rewrite addn0; case: ifP => // /andP[h1 h2]; exfalso; lia.
apply: ensures_mono (@ensures_for _ True 0 (size w - 1) _ _ I I0 _) _; last first.
  by move=> r'; rewrite add0n subn1.
move=> j r1 /andP[_]; rewrite add0n => jm [s1 f1 E1].
have jw : (j < size w)%N by lia.
have jv : (i + j < size r1)%N by rewrite s1; lia.
rewrite (vgetE d0 jw) bind_ret.
apply: ensures_bind (rounds_true (fl_mul RA (finite_coef fw jw) bq) (fun _ h => h)) _ => c cE.
rewrite (vgetE d0 jv) bind_ret.
have ce : coef r1 (i + j) = coef r (i + j) by rewrite E1 ltnn andbF.
apply: ensures_bind (rounds_true (fl_add RA (finite_coef f1 jv) cE) (fun _ h => h)) _ => d dE.
rewrite (vsetE d0) //; apply: ensures_ret; rewrite ce in dE.
have ss : size (set_nth d0 r1 (i + j) d) = size v0 by rewrite size_set_nth s1; lia.
split=> // [k|k].
  rewrite ss nth_set_nth /= => kv; case: eqP => _; first by case: dE.
  by apply: f1; rewrite s1.
rewrite /coef nth_set_nth /=; case: eqVneq => [->|kij].
  by have [_ ->] := dE; rewrite leq_addr addnS ltnS leqnn addKn.
rewrite -/(coef r1 k) E1 addnS ltnS [(k <= i + j)%N]leq_eqVlt (negbTE kij).
by [].
Qed.

(** ** The loop *)
Definition partial t (qr : seq F * seq F) : Prop :=
  let: (q, r) := qr in
  [/\ [/\ size q = l, all_finite q, size r = size v0 & all_finite r],
      forall i, (i < t)%N -> coef q i = 0%R,
      forall k, (k < t + m)%N -> exists c, [/\ (c <= l - t)%N, (c <= k.+1 - t)%N &
        carries c (coef v0 k) (coef r k) (product_coef q w k) (product_size q w k)] &
      forall k, (t + m <= k < size v0)%N ->
        (Rabs (coef v0 k - product_coef q w k) <=
         ((1 + u) ^ (minn l m).+1 - 1) * product_size q w k +
         (1 + u) ^ (minn l m) * (2 * INR (minn l m) + Rabs (coef w m)) * eta)%R].

Lemma product_size_ge0 q k : (0 <= product_size q w k)%R.
Proof. by apply: total_ge0 => i; case: ifP => _; [exact: Rabs_pos|lra]. Qed.

(** Changing a coefficient of the quotient that was zero *)
Lemma product_set q i z k : (i < size q)%N -> coef q i = 0%R ->
  product_coef (set_nth d0 q i z) w k =
    (product_coef q w k + (if (i <= k)%N then B2R z * coef w (k - i) else 0))%R /\
  product_size (set_nth d0 q i z) w k =
    (product_size q w k + (if (i <= k)%N then Rabs (B2R z * coef w (k - i)) else 0))%R.
Proof.
move=> iq q0; rewrite /product_coef /product_size size_set_nth (maxn_idPr iq).
have cs j : coef (set_nth d0 q i z) j = if j == i then B2R z else coef q j.
  by rewrite /coef nth_set_nth /=; case: eqP.
split.
  rewrite (@total_ext _ _ (fun j => if j == i
      then (if (i <= k)%N then B2R z * coef w (k - i) else 0)%R
      else (if (j <= k)%N then coef q j * coef w (k - j) else 0)%R)).
    by rewrite total_update // q0 Rmult_0_l; case: ifP => _; lra.
  by move=> j _; rewrite cs; case: (eqVneq j i) => [->|].
rewrite (@total_ext _ _ (fun j => if j == i
    then (if (i <= k)%N then Rabs (B2R z * coef w (k - i)) else 0)%R
    else (if (j <= k)%N then Rabs (coef q j * coef w (k - j)) else 0)%R)).
  by rewrite total_update // q0 Rmult_0_l Rabs_R0; case: ifP => _; lra.
by move=> j _; rewrite cs; case: (eqVneq j i) => [->|].
Qed.

Lemma coef_beyond v k : (size v <= k)%N -> coef v k = 0%R.
Proof. by move=> h; rewrite /coef nth_default. Qed.

Lemma division_step i q r a : (i < l)%N -> float_is a (coef w m) -> coef w m <> 0%R ->
  partial i.+1 (q, r) ->
  ensures True (
      let! x := vget r (i + size w - 1) in
      let! z1 := fdiv A x a in
      let! quo := vset q i z1 in
      let! b := neg A z1 in
      let! rem := for_loop 0 (size w - 1) (fun j rem =>
        let! y := vget w j in
        let! e := mul A y b in
        let! d := vget rem (i + j) in
        let! d := add A d e in
        vset rem (i + j) d) r in
      ret (quo, rem)) (partial i).
Proof.
move=> il aE a0 [[sq fq sr fr] q0 open_ closed].
have -> : (i + size w - 1 = i + m)%N by lia.
have imv : (i + m < size v0)%N by lia.
have imr : (i + m < size r)%N by rewrite sr.
rewrite (vgetE d0 imr) bind_ret.
apply: ensures_bind (rounds_true (fl_div RA (finite_coef fr imr) aE a0) (fun _ h => h)) _ => z [fz zE].
have iq : (i < size q)%N by rewrite sq.
rewrite (vsetE d0) // bind_ret.
have zf : float_is z (B2R z) by [].
apply: ensures_bind (yields_true True (fl_neg RA zf) (fun _ h => h)) _ => b bE.
apply: ensures_bind (subtract_row il sr fr bE) _ => r' [sr' fr' rE].
apply: ensures_ret.
have q0i : coef q i = 0%R by exact: q0.
have pE k := @product_set q i z k iq q0i.
have sq' : size (set_nth d0 q i z) = l by rewrite size_set_nth (maxn_idPr iq).
split.
- split=> // k; rewrite sq' nth_set_nth /= => kl; case: eqP => // _; apply: fq; by rewrite sq.
- move=> j ji; rewrite /coef nth_set_nth /= ltn_eqF // -/(coef q j); apply: q0; exact: ltnW.
- move=> k km; have [p1 p2] := pE k; rewrite p1 p2.
  have [|c [c1 c2 hc]] := open_ k; first by lia.
  case: (leqP i k) => ik; last first.
    rewrite !Rplus_0_r rE leqNgt ik /=; exists c; split=> //; lia.
  rewrite rE ik km /=; exists c.+1; split; [lia|lia|].
  apply: carries_step hc; last exact: product_size_ge0.
  exact: (@step_error _ _ (coef w (k - i)) (B2R z)).
- move=> k /andP[k1 kv]; have [p1 p2] := pE k; rewrite p1 p2.
  have ik : (i <= k)%N by lia.
  rewrite ik; move: k1; rewrite leq_eqVlt => /orP[/eqP ke|k1]; last first.
    rewrite [coef w (k - i)]coef_beyond; last by lia.
    rewrite Rmult_0_r Rabs_R0 !Rplus_0_r; apply: closed; lia.
  have -> : (k - i = m)%N by lia.
  have [|c [c1 c2 hc]] := open_ k; first by lia.
  have hq := @quotient_error (coef r k) (coef w m) (B2R z) a0 _.
  rewrite ke in zE; have {hq} hq := hq zE.
  apply: carries_end hq hc; [lia|exact: product_size_ge0|exact: Rabs_pos|].
  by rewrite [(eta * _)%R]Rmult_comm.
Qed.

Lemma partial_start z : float_is z 0%R -> partial l (nseq l z, v0).
Proof.
move=> [fz z0].
have cz k : coef (nseq l z) k = 0%R by rewrite /coef nth_nseq; case: ifP.
have p0 k : product_coef (nseq l z) w k = 0%R /\ product_size (nseq l z) w k = 0%R.
  by split; apply: total_0 => i _; case: ifP => // _; rewrite cz Rmult_0_l ?Rabs_R0.
split.
- split=> //; first by rewrite size_nseq.
  by move=> k; rewrite size_nseq => kl; rewrite nth_nseq kl.
- by move=> i _; exact: cz.
- move=> k _; have [-> ->] := p0 k; exists 0%N; split=> //; exact: carries0.
- by move=> k /andP[h1 h2]; exfalso; lia.
Qed.

(** ** Trimming the remainder *)
Lemma trim_index r : size r = size v0 -> all_finite r ->
  ensures True (poly_trim_index A r (size w - 1)) (fun i =>
    [/\ (i <= m)%N, forall k, (i <= k < m)%N -> coef r k = 0%R &
        (0 < i)%N -> coef r i.-1 <> 0%R]).
Proof.
move=> sr fr; rewrite subn1.
pose I i := (i <= m)%N /\ forall k, (i <= k < m)%N -> coef r k = 0%R.
have I0 : I m by split=> // k /andP[h1 h2]; exfalso; lia.
apply: (@ensures_while _ True _ _ I _ id m I0) => i [im hi].
case: ltnP => i0; last by apply: ensures_ret; split=> //; lia.
have ir : (i - 1 < size r)%N by rewrite sr; lia.
rewrite (vgetE d0 ir) bind_ret.
apply: (tells_true True (fl_is_zero RA (finite_coef fr ir))) => -[] hb.
  have z : coef r (i - 1) = 0%R by exact/hb.
  apply: ensures_ret; split; last by rewrite /=; lia.
  split; first lia; move=> k /andP[k1 k2]; case: (leqP i k) => ik; first by apply: hi; rewrite ik.
  by have -> : k = (i - 1)%N by lia.
by split=> // _; rewrite -subn1 => z; move/hb: z.
Qed.

Lemma division_near : coef w m <> 0%R ->
  ensures True (poly_quo_rem A v0 w) (fun qr => near_division v0 w qr.1 qr.2).
Proof.
move=> a0; rewrite /poly_quo_rem.
apply: ensures_assert_bind; first by rewrite -lt0n.
rewrite ltnNge vw /=.
apply: ensures_bind (yields_true True (fl_zero RA) (fun _ h => h)) _ => z zE.
have mw : (size w - 1 < size w)%N by lia.
rewrite (vgetE d0 mw) bind_ret.
have aE : float_is (nth d0 w (size w - 1)) (coef w m) by rewrite subn1; apply: finite_coef => //; lia.
apply: ensures_bind (tells_true True (fl_is_zero RA aE) (fun _ h => h)) _ => b hb.
apply: ensures_assert_bind; first by apply/negP => /hb.
have -> : vresize [::] (size v0 - size w + 1) z = nseq l z.
  by rewrite /vresize /= subn0; congr nseq; lia.
rewrite size_nseq.
have st : partial l (nseq l z, v0) by exact: partial_start.
apply: ensures_bind (@ensures_for_rev _ True l _ _ partial st _) _.
  by move=> i [q r] il h; exact: division_step.
move=> [q r] [[sq fq sr fr] _ open_ closed].
apply: ensures_bind (trim_index sr fr) _ => i [im iz il]; apply: ensures_ret => /=.
have ir : (i <= size r)%N by rewrite sr; lia.
have st' : size (take i r) = i by rewrite size_takel.
have ct k : coef (take i r) k = if (k < i)%N then coef r k else 0%R.
  rewrite /coef; case: ltnP => ki; first by rewrite nth_take.
  by rewrite nth_default ?st'.
split=> //=.
- by rewrite st'; lia.
- by move=> k; rewrite st' => ki; rewrite nth_take //; apply: fr; lia.
- rewrite st' => i0; rewrite ct prednK // leqnn; exact: il.
move=> k kv; rewrite /division_error sq ct.
case: (ltnP k m) => km; last first.
  rewrite ifF ?Rplus_0_r ?Rabs_R0 ?Rplus_0_r; first by apply: closed; rewrite add0n km.
  by apply/negbTE; rewrite -leqNgt; lia.
have -> : (if (k < i)%N then coef r k else 0%R) = coef r k.
  by case: ltnP => ki //; rewrite iz // ki.
have [|c [c1 c2 hc]] := open_ k; first by rewrite add0n.
have cd : (c <= minn l m)%N by lia.
have hT : (Rabs (coef r k - coef r k) <= u * Rabs (coef r k) + Rabs (coef w m) * eta)%R.
  rewrite Rminus_diag_eq // Rabs_R0.
  have := Rmult_le_pos _ _ (Rlt_le _ _ u0) (Rabs_pos (coef r k)).
  have := Rmult_le_pos _ _ (Rabs_pos (coef w m)) (Rlt_le _ _ e0); lra.
exact: (carries_end cd (product_size_ge0 _ _) (Rabs_pos _) erefl hT hc).
Qed.
End Rows.
End DivErr.

(** 0.6 *)
Lemma sixth_is : float_is (nth (B754_zero false) tenths 5)
  (F2R (Float radix2 5404319552844595 (-53))).
Proof. by apply: (@float_num false 5404319552844595); vm_compute. Qed.
Lemma sixth_nz : F2R (Float radix2 5404319552844595 (-53)) <> 0%R.
Proof. by apply: Rgt_not_eq; apply: F2R_gt_0. Qed.
