(** * PFloatErr.v -- errors of sums of products of floats. *)

From Coq Require Import ZArith Reals Lra Lia.
From mathcomp Require Import all_ssreflect.
From Flocq Require Import Core BinarySingleNaN.
From Verif Require Import Rust Traits Wp MConstr MFloats FloatSpec FloatLaw FloatErrSpec SumSpec.
From Verif Require Import PFloat PFloat4 PSums.

Set Implicit Arguments.
Unset Strict Implicit.
Unset Printing Implicit Defensive.

Section Sums.
Variables (cfg : Cfg) (prec emax : Z).
Context (prec_gt_0 : Prec_gt_0 prec) (prec_lt_emax : Prec_lt_emax prec emax).
Local Notation F := (binary_float prec emax).
Local Notation fexp := (FLT_exp (3 - emax - prec) prec).
Local Notation rnd := (rounded prec emax).
Local Notation over := (overflows prec emax).
Local Notation A := (ApproxFloats cfg prec_gt_0 prec_lt_emax).
Local Notation u := (unit_error prec).
Local Notation eta := (tiny_error prec emax).
Implicit Types (x y z v : F) (a b r t : R) (l : seq (F * F)).
Local Open Scope R_scope.

Let RA := floats_rounding cfg prec_gt_0 prec_lt_emax.

Lemma u_gt0 : 0 < u. Proof. exact: bpow_gt_0. Qed.
Lemma eta_gt0 : 0 < eta. Proof. exact: bpow_gt_0. Qed.
Lemma u_le : u <= / 2.
Proof.
have -> : / 2 = bpow radix2 (- 1) by [].
by apply: bpow_le; have : (0 < prec)%Z := prec_gt_0; lia.
Qed.
Lemma pow1u k : 1 <= (1 + u) ^ k.
Proof. by apply: pow_R1_Rle; have := u_gt0; lra. Qed.
Lemma pow1u_mono j k : (j <= k)%N -> (1 + u) ^ j <= (1 + u) ^ k.
Proof. by move=> h; apply: Rle_pow; [have := u_gt0; lra|exact/leP]. Qed.

Lemma sum_rcons (s : seq R) t : sum_of (rcons s t) = sum_of s + t.
Proof. by elim: s => [|a s IH] /=; [lra|rewrite IH; lra]. Qed.
Lemma terms_rcons l x y : terms (rcons l (x, y)) = rcons (terms l) (B2R x * B2R y).
Proof. by rewrite /terms map_rcons. Qed.
Lemma total_rcons l x y : total (rcons l (x, y)) = total l + B2R x * B2R y.
Proof. by rewrite /total terms_rcons sum_rcons. Qed.
Lemma magnitude_rcons l x y : magnitude (rcons l (x, y)) = magnitude l + Rabs (B2R x * B2R y).
Proof. by rewrite /magnitude terms_rcons map_rcons sum_rcons. Qed.
Lemma magnitude_ge0 l : 0 <= magnitude l.
Proof.
rewrite /magnitude; elim: (terms l) => [|t s IH] /=; first lra.
by have := Rabs_pos t; lra.
Qed.
Lemma total_magnitude l : Rabs (total l) <= magnitude l.
Proof.
rewrite /total /magnitude; elim: (terms l) => [|t s IH] /=; first by rewrite Rabs_R0; lra.
by have := Rabs_triang t (sum_of s); lra.
Qed.
Lemma magnitude_cat l l' : magnitude (l ++ l') = magnitude l + magnitude l'.
Proof.
rewrite /magnitude /terms !map_cat; elim: (map _ (map _ l)) => [|t s IH] /=; first lra.
by rewrite IH; lra.
Qed.

Lemma sum_error_cat l l' : sum_error l <= sum_error (l ++ l').
Proof.
have m0 := magnitude_ge0 l; have m0' := magnitude_ge0 l'; have e0 := eta_gt0.
rewrite /sum_error magnitude_cat size_cat.
have h1 : (1 + u) ^ size l <= (1 + u) ^ (size l + size l') by apply: pow1u_mono; exact: leq_addr.
have h2 : (1 + u) ^ (size l).-1 <= (1 + u) ^ (size l + size l').-1.
  by apply: pow1u_mono; case: (size l) => //= k; exact: leq_addr.
have h3 : INR (size l) <= INR (size l + size l') by apply: le_INR; apply/leP; exact: leq_addr.
have i0 := pos_INR (size l); have g1 := pow1u (size l); have g2 := pow1u (size l).-1.
have h4 : INR (size l) * (1 + u) ^ (size l).-1 <=
    INR (size l + size l') * (1 + u) ^ (size l + size l').-1.
  by apply: Rmult_le_compat => //; lra.
have h5 := Rmult_le_compat_r _ _ _ (Rlt_le _ _ e0) h4.
apply: Rplus_le_compat => //.
apply: Rmult_le_compat; lra.
Qed.
Lemma too_large_more l l' : too_large l -> too_large (l ++ l').
Proof.
rewrite /too_large magnitude_cat => h; have := sum_error_cat l l'; have := magnitude_ge0 l'; lra.
Qed.

(** Rounding a product. *)
Lemma rnd_error t : Rabs (rnd t - t) <= u * Rabs t + eta.
Proof.
have [[e [he ->]]|h] := tiny emax prec_gt_0 t; last first.
  by have := Rabs_pos t; have := u_gt0; move: h; rewrite /tiny_error; nra.
have -> : t * (1 + e) - t = e * t by ring.
rewrite Rabs_mult; have := Rabs_pos t; have := eta_gt0.
by have : Rabs e <= u by []; nra.
Qed.

Lemma sum_bound l (s : F) z t : float_is s (B2R s) -> float_is z (B2R z) ->
  Rabs (B2R s - total l) <= sum_error l -> Rabs (B2R z - t) <= u * Rabs t + eta ->
  Rabs (rnd (B2R s + B2R z) - (total l + t)) <=
  (((1 + u) ^ (size l).+1 - 1) * (magnitude l + Rabs t) +
   INR (size l).+1 * (1 + u) ^ size l * eta).
Proof.
move=> sf zf se ze; have u0 := u_gt0; have e0 := eta_gt0; have t0 := Rabs_pos t.
have m0 := magnitude_ge0 l; have tm := total_magnitude l.
have gs := gf sf; have gz := gf zf.
case: l se m0 tm => [|p l] se m0 tm.
  have s0 : B2R s = 0.
    move: se; rewrite /sum_error /total /magnitude /= => se.
    have : Rabs (B2R s - 0) <= 0 by apply: (Rle_trans _ _ _ se); lra.
    by rewrite Rminus_0_r => h; apply: Rabs_eq_R0; have := Rabs_pos (B2R s); lra.
  rewrite s0 Rplus_0_l (rnd_gf gz) /total /magnitude /= !Rplus_0_l.
  by apply: (Rle_trans _ _ _ ze); lra.
have [e [he ->]] := plus_accurate prec_gt_0 gs gz.
set l1 := p :: l in se m0 tm *; set k := size l.
have sz : size l1 = k.+1 by [].
have g := pow1u k.+1; have g0 := pow1u k.
move: se; rewrite /sum_error sz !S_INR -!tech_pow_Rmult [k.+1.-1]/=.
set S := total l1 in tm *; set M := magnitude l1 in m0 tm *; set G := (1 + u) ^ k in g g0 *.
move=> se.
have I0 := pos_INR k.
have hS : Rabs ((B2R s + B2R z) * (1 + e) - (S + t)) <=
    (1 + u) * (Rabs (B2R s - S) + Rabs (B2R z - t)) + u * (M + Rabs t).
  have -> : (B2R s + B2R z) * (1 + e) - (S + t) =
    (1 + e) * ((B2R s - S) + (B2R z - t)) + e * (S + t) by ring.
  apply: (Rle_trans _ _ _ (Rabs_triang _ _)); rewrite !Rabs_mult; apply: Rplus_le_compat.
    apply: Rmult_le_compat; [exact: Rabs_pos|exact: Rabs_pos| |exact: Rabs_triang].
    by apply: (Rle_trans _ _ _ (Rabs_triang _ _)); rewrite Rabs_R1; have : Rabs e <= u by []; lra.
  apply: Rmult_le_compat => //; try exact: Rabs_pos.
  by apply: (Rle_trans _ _ _ (Rabs_triang _ _)); lra.
apply: (Rle_trans _ _ _ hS).
have h1 : (1 + u) * (Rabs (B2R s - S) + Rabs (B2R z - t)) <=
    (1 + u) * ((((1 + u) * G - 1) * M + (INR k + 1) * G * eta) + (u * Rabs t + eta)).
  by apply: Rmult_le_compat_l; lra.
have IG : 0 <= INR k * G by nra.
have GG : G <= (1 + u) * G by nra.
have tG : (1 + u) * (1 + u) * Rabs t <= (1 + u) * ((1 + u) * G) * Rabs t.
  by apply: Rmult_le_compat_r => //; nra.
have eG : (1 + u) * eta <= (1 + u) * G * eta by apply: Rmult_le_compat_r; nra.
apply: (Rle_trans _ _ _ (Rplus_le_compat_r _ _ _ h1)).
suff : (1 + u) * eta + ((1 + u) * (1 + u) * Rabs t) <=
  (1 + u) * G * eta + (1 + u) * ((1 + u) * G) * Rabs t.
  by move=> h; ring_simplify in h; ring_simplify; lra.
lra.
Qed.

(** ** Near sums *)
Lemma rounds_ensures (m : M F) t (p : Prop) (Q : F -> Prop) : rounds m t ->
  (over t -> p) -> (forall v, float_is v (rnd t) -> Q v) -> ensures p m Q.
Proof.
move=> [h1 h2] hp hQ; case: (over_dec prec emax t) => o; first by right; split; [exact: hp|exact: h2].
by have [v mv /hQ vQ] := h1 o; left; exists v.
Qed.

Lemma near0 : ensures False (zero A) (near_total [::]).
Proof.
apply: ensures_ret; split=> //; rewrite /sum_error /total /magnitude /= Rminus_0_r Rabs_R0.
by lra.
Qed.
Lemma near_step add_op l (s : F) x y :
  (forall s z a b, float_is s a -> float_is z b -> rounds (add_op s z) (a + b)) ->
  finite x -> finite y -> near_total l s ->
  ensures (too_large (rcons l (x, y))) (mul A x y) (fun z =>
    ensures (too_large (rcons l (x, y))) (add_op s z) (near_total (rcons l (x, y)))).
Proof.
move=> hadd fx fy [fs se]; set t := B2R x * B2R y.
have u0 := u_gt0; have e0 := eta_gt0; have m0 := magnitude_ge0 l; have t0 := Rabs_pos t.
have bnd : sum_error (rcons l (x, y)) =
    (((1 + u) ^ (size l).+1 - 1) * (magnitude l + Rabs t) + INR (size l).+1 * (1 + u) ^ size l * eta).
  by rewrite /sum_error magnitude_rcons size_rcons.
have g := pow1u (size l); have i0 := pos_INR (size l).
apply: (rounds_ensures (fl_mul RA (conj fx erefl) (conj fy erefl))).
  rewrite /too_large magnitude_rcons -/t bnd /overflows => o.
  have h := rnd_error t; have h2 := Rabs_triang_inv (rnd t) t.
  suff : u * Rabs t + eta <= ((1 + u) ^ (size l).+1 - 1) * (magnitude l + Rabs t) +
     INR (size l).+1 * (1 + u) ^ size l * eta by lra.
  apply: Rplus_le_compat.
    apply: Rmult_le_compat; try lra; rewrite -tech_pow_Rmult; nra.
  by rewrite S_INR; have := Rmult_le_pos _ _ i0 (Rle_trans _ _ _ Rle_0_1 g); nra.
move=> z [fz zE]; have ze : Rabs (B2R z - t) <= u * Rabs t + eta by rewrite zE; exact: rnd_error.
have sb := sum_bound (conj fs erefl) (conj fz erefl) se ze.
apply: (rounds_ensures (hadd _ _ _ _ (conj fs erefl) (conj fz erefl))).
  rewrite /too_large magnitude_rcons -/t bnd /overflows => o.
  have h2 := Rabs_triang_inv (rnd (B2R s + B2R z)) (total l + t).
  have h3 := Rabs_triang (total l) t; have h4 := total_magnitude l; lra.
by move=> w [fw wE]; split=> //; rewrite wE total_rcons bnd.
Qed.

Variable n : nat.
Local Notation d := (B754_zero false : F).
Local Close Scope R_scope.

Lemma matrix_near (v1 v2 : seq F) : size v1 = n * n -> size v2 = n * n ->
  (forall k, k < n * n -> finite (nth d v1 k)) -> (forall k, k < n * n -> finite (nth d v2 k)) ->
  ensures (exists i j, [/\ i < n, j < n & too_large (row_column d n v1 v2 i j)])
    (mul (MatrixRing cfg A n) v1 v2)
    (fun w => size w = n * n /\ forall i j, i < n -> j < n ->
       near_total (row_column d n v1 v2 i j) (nth d w (i * n + j))).
Proof.
apply: matrix_mul_sums; [exact: too_large_more|exact: near0|move=> l s x y fx fy sl].
by apply: near_step sl => //; exact: (fl_add_assign RA).
Qed.
Lemma poly_near (v1 v2 : seq F) :
  (forall k, k < size v1 -> finite (nth d v1 k)) -> (forall k, k < size v2 -> finite (nth d v2 k)) ->
  ensures (exists2 k, k < (size v1 + size v2).-1 & too_large (convolution d v1 v2 k))
    (mul (PolyRing A) v1 v2)
    (fun w => size w = (if (size v1 == 0) || (size v2 == 0) then 0 else (size v1 + size v2).-1) /\
       forall k, k < size w -> near_total (convolution d v1 v2 k) (nth d w k)).
Proof.
apply: poly_mul_sums; [exact: too_large_more|exact: near0|move=> l s x y fx fy sl].
by apply: near_step sl => //; exact: (fl_add RA).
Qed.

(** ** Exact sums *)
Variables e f : Z.
Hypothesis low : (3 - emax - prec <= e + f)%Z.
Local Notation exact_sum := (exact_sum (e + f)).

Lemma scaled_exact (z : Z) : (Rabs (IZR z * bpow radix2 (e + f)) <= bpow radix2 (prec + (e + f)))%R ->
  generic_format radix2 fexp (IZR z * bpow radix2 (e + f)).
Proof.
move=> h; have p0 : (0 < prec)%Z := prec_gt_0.
have hz : (Z.abs z <= 2 ^ prec)%Z.
  apply: le_IZR; rewrite abs_IZR (IZR_Zpower radix2); last lia.
  apply: (Rmult_le_reg_r (bpow radix2 (e + f))); first exact: bpow_gt_0.
  rewrite -bpow_plus; apply: Rle_trans h; rewrite Rabs_mult.
  by rewrite [Rabs (bpow _ _)]Rabs_pos_eq; [right|exact: bpow_ge_0].
have [lt|eq] : (Z.abs z < 2 ^ prec)%Z \/ Z.abs z = (2 ^ prec)%Z by lia.
  apply: generic_format_FLT; exists (Float radix2 z (e + f)) => //=.
have e1 : (IZR (Z.abs z) * bpow radix2 (e + f) = bpow radix2 (prec + (e + f)))%R.
  rewrite eq [RHS]bpow_plus; congr Rmult; apply: (IZR_Zpower radix2); lia.
have g : generic_format radix2 fexp (bpow radix2 (prec + (e + f))).
  apply: generic_format_bpow; rewrite /FLT_exp; lia.
have [zp|zn] := Zabs_dec z; first by rewrite zp e1.
by rewrite zn opp_IZR Ropp_mult_distr_l_reverse e1; exact: generic_format_opp.
Qed.

Definition exact_acc l (s : F) : Prop :=
  finite s /\ (exact_sum l -> B2R s = total l /\ exists k, total l = (IZR k * bpow radix2 (e + f))%R).

Lemma exact_more l l' : ~ exact_sum l -> ~ exact_sum (l ++ l').
Proof.
move=> h [h1 h2]; apply: h; move: h1 h2; rewrite magnitude_cat.
by have := magnitude_ge0 l'; split; lra.
Qed.
Lemma exact_dec l : exact_sum l \/ ~ exact_sum l.
Proof.
rewrite /exact_sum; case: (Rle_lt_dec (magnitude l) (bpow radix2 (prec + (e + f)))) => h1.
  by case: (Rlt_le_dec (magnitude l) (bpow radix2 emax)) => h2; [left|right; lra].
by right; lra.
Qed.

Lemma exact0 : ensures False (zero A) (exact_acc [::]).
Proof. by apply: ensures_ret; split=> // _; split=> //; exists Z0; rewrite Rmult_0_l. Qed.
Lemma exact_step add_op l (s : F) x y :
  (forall s z a b, float_is s a -> float_is z b -> rounds (add_op s z) (a + b)) ->
  scaled e x -> scaled f y -> exact_acc l s ->
  ensures (~ exact_sum (rcons l (x, y))) (mul A x y) (fun z =>
    ensures (~ exact_sum (rcons l (x, y))) (add_op s z) (exact_acc (rcons l (x, y)))).
Proof.
move=> hadd [i xi] [j yj] [fs sE].
have tE : (B2R x * B2R y = IZR (i * j) * bpow radix2 (e + f))%R.
  by rewrite xi.2 yj.2 bpow_plus mult_IZR; ring.
set t := (B2R x * B2R y)%R in tE *; have t0 := Rabs_pos t; have m0 := magnitude_ge0 l.
have [ok|nok] := exact_dec (rcons l (x, y)); last first.
  apply: (rounds_ensures (fl_mul RA (conj xi.1 erefl) (conj yj.1 erefl))) => // z [fz zE].
  by apply: (rounds_ensures (hadd _ _ _ _ (conj fs erefl) (conj fz erefl))) => // w [fw wE].
have [ok1 ok2] := ok; rewrite magnitude_rcons -/t in ok1 ok2.
have okl : exact_sum l by split; lra.
have [{}sE [k kE]] := sE okl.
have gt : generic_format radix2 fexp t by rewrite tE; apply: scaled_exact; rewrite -tE; lra.
apply: (rounds_ensures (fl_mul RA (conj xi.1 erefl) (conj yj.1 erefl))).
  by rewrite -/t /overflows (rnd_gf gt) => o; lra.
move=> z [fz]; rewrite -/t (rnd_gf gt) => zE.
have h3 := Rabs_triang (total l) t; have h4 := total_magnitude l.
have rE : (B2R s + B2R z = IZR (k + i * j) * bpow radix2 (e + f))%R.
  by rewrite sE zE kE tE [in RHS]plus_IZR; ring.
have gr : generic_format radix2 fexp (B2R s + B2R z)%R.
  by rewrite rE; apply: scaled_exact; rewrite -rE sE zE; lra.
apply: (rounds_ensures (hadd _ _ _ _ (conj fs erefl) (conj fz erefl))).
  by rewrite /overflows (rnd_gf gr) sE zE => o; lra.
move=> w [fw]; rewrite (rnd_gf gr) => wE; split=> // _; rewrite total_rcons -/t wE sE zE.
by split=> //; exists (k + i * j)%Z; rewrite -rE sE zE.
Qed.

Lemma matrix_exact (v1 v2 : seq F) : size v1 = n * n -> size v2 = n * n ->
  (forall k, k < n * n -> scaled e (nth d v1 k)) -> (forall k, k < n * n -> scaled f (nth d v2 k)) ->
  (forall i j, i < n -> j < n -> exact_sum (row_column d n v1 v2 i j)) ->
  ensures False (mul (MatrixRing cfg A n) v1 v2)
    (fun w => size w = n * n /\ forall i j, i < n -> j < n ->
       float_is (nth d w (i * n + j)) (total (row_column d n v1 v2 i j))).
Proof.
move=> s1 s2 h1 h2 ok.
have := @matrix_mul_sums _ d (scaled e) (scaled f) exact_acc (fun l => ~ exact_sum l) exact_more A n
  exact0 (fun l s x y hx hy hs => exact_step (fl_add_assign RA) hx hy hs) v1 v2 s1 s2 h1 h2.
move=> /(ensures_weaken (q := False)) h; apply: ensures_mono (h _) _.
  by move=> [i [j [hi hj]]]; apply; exact: ok.
move=> w [sw wE]; split=> // i j hi hj; have [fw rw] := wE i j hi hj.
by split=> //; exact: (rw (ok i j hi hj)).1.
Qed.
Lemma poly_exact (v1 v2 : seq F) :
  (forall k, k < size v1 -> scaled e (nth d v1 k)) -> (forall k, k < size v2 -> scaled f (nth d v2 k)) ->
  (forall k, k < (size v1 + size v2).-1 -> exact_sum (convolution d v1 v2 k)) ->
  ensures False (mul (PolyRing A) v1 v2)
    (fun w => size w = (if (size v1 == 0) || (size v2 == 0) then 0 else (size v1 + size v2).-1) /\
       forall k, k < size w -> float_is (nth d w k) (total (convolution d v1 v2 k))).
Proof.
move=> h1 h2 ok.
have := @poly_mul_sums _ d (scaled e) (scaled f) exact_acc (fun l => ~ exact_sum l) exact_more A A
  exact0 (fun l s x y hx hy hs => exact_step (fl_add RA) hx hy hs) v1 v2 h1 h2.
move=> /(ensures_weaken (q := False)) h; apply: ensures_mono (h _) _.
  by move=> [k hk]; apply; exact: ok.
move=> w [sw wE]; split=> // k kw; have [fw rw] := wE k kw.
split=> //; apply: (rw (ok k _)).1; move: kw; rewrite sw; case: ifP => //.
Qed.
End Sums.
