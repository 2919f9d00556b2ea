(** * PLu.v -- the backward error of Gaussian elimination over floats. *)

From Coq Require Import ZArith Reals Lra Lia.
From mathcomp Require Import all_ssreflect.
From Flocq Require Import Core Relative BinarySingleNaN.
From Verif Require Import Rust Traits Wp MConstr MFloats FloatSpec FloatErrSpec LuSpec.
From Verif Require Import PFloat PFloat4 PFloatErr.

Set Implicit Arguments.
Unset Strict Implicit.
Unset Printing Implicit Defensive.

Section Real.
Variables (prec emax : Z).
Context (prec_gt_0 : Prec_gt_0 prec) (prec_lt_emax : Prec_lt_emax prec emax).
Local Notation fexp := (FLT_exp (3 - emax - prec) prec).
Local Notation rnd := (rounded prec emax).
Local Notation u := (unit_error prec).
Local Notation eta := (tiny_error prec emax).
Implicit Types (n k t i j : nat) (X : nat -> nat -> nat -> R) (f g : nat -> R).
Local Open Scope R_scope.

Let u0 : 0 < u. Proof. exact: u_gt0. Qed.
Let e0 : 0 < eta. Proof. exact: eta_gt0. Qed.

(** ** Rounding errors relative to the result *)
Lemma rnd_back r : Rabs (rnd r - r) <= u * Rabs (rnd r) + eta.
Proof.
have hu : / 2 * bpow radix2 (- prec + 1) = u by exact: half_ulp.
have he : / 2 * bpow radix2 (3 - emax - prec) = eta by exact: half_min.
case: (Rle_lt_dec (bpow radix2 (3 - emax - prec + prec - 1)) (Rabs r)) => h.
  have := @relative_error_N_FLT_round radix2 (3 - emax - prec) prec prec_gt_0 (fun z => ~~ Z.even z) r h.
  by rewrite hu -/(rounded _ _ _) => h1; apply: (Rle_trans _ _ _ h1); rewrite /rounded; lra.
have h1 := @error_le_half_ulp radix2 fexp _ (fun z => ~~ Z.even z) r.
have h2 : Rabs r < bpow radix2 (3 - emax - prec + prec).
  by apply: (Rlt_le_trans _ _ _ h); apply: bpow_le; lia.
rewrite ulp_FLT_small // he -/(rounded prec emax r) in h1.
have h3 := Rmult_le_pos _ _ (Rlt_le _ _ u0) (Rabs_pos (rnd r)).
by apply: (@Rle_trans _ eta); [exact: (h1 (FLT_exp_valid _ _))|lra].
Qed.
Lemma rnd_fore r : Rabs (rnd r - r) <= u * Rabs r + eta.
Proof. exact: rnd_error. Qed.

(** The reciprocal of a reciprocal. *)
Lemma reciprocal p : (3 <= prec)%Z -> p <> 0 -> Rabs p < bpow radix2 emax ->
  rnd (/ p) <> 0 /\ Rabs (p - / rnd (/ p)) <= 5 * u * Rabs (/ rnd (/ p)).
Proof.
move=> p3 p0 pb; set c := rnd (/ p).
have pp : 0 < Rabs p by exact: Rabs_pos_lt.
have ep : eta * Rabs p <= 4 * u.
  have -> : 4 * u = eta * bpow radix2 emax.
    rewrite /unit_error /tiny_error -bpow_plus (_ : 4 = bpow radix2 2) // -bpow_plus.
    by congr bpow; lia.
  by apply: Rmult_le_compat_l; lra.
have h := rnd_fore (/ p); rewrite -/c in h.
have h1 : Rabs (c * p - 1) <= 5 * u.
  have -> : c * p - 1 = (c - / p) * p by field.
  rewrite Rabs_mult; apply: (@Rle_trans _ ((u * Rabs (/ p) + eta) * Rabs p)).
    by apply: Rmult_le_compat_r; lra.
  rewrite Rmult_plus_distr_r Rmult_assoc -Rabs_mult Rinv_l // Rabs_R1; lra.
have u8 : u <= / 8.
  have -> : / 8 = bpow radix2 (- 3) by [].
  by apply: bpow_le; lia.
have c0 : c <> 0.
  by move=> c0; move: h1; rewrite c0 Rmult_0_l /Rminus Rplus_0_l Rabs_Ropp Rabs_R1; lra.
split=> //.
have -> : p - / c = (c * p - 1) * / c by field.
by rewrite Rabs_mult; apply: Rmult_le_compat_r => //; exact: Rabs_pos.
Qed.

(** ** Sums *)
Lemma total_S k f : total_of k.+1 f = total_of k f + f k.
Proof.
rewrite /total_of -[k.+1]addn1 iotaD map_cat add0n /=.
by elim: [seq f t | t <- iota 0 k] => [|a s IH] /=; lra.
Qed.
Lemma total_ext k f g : (forall t, (t < k)%N -> f t = g t) -> total_of k f = total_of k g.
Proof.
elim: k => // k IH h; rewrite !total_S IH ?h // => t tk; apply: h; exact: ltnW.
Qed.
Lemma total_0 k f : (forall t, (t < k)%N -> f t = 0) -> total_of k f = 0.
Proof.
elim: k => // k IH h; rewrite total_S IH ?h //; first lra.
by move=> t tk; apply: h; exact: ltnW.
Qed.
Lemma total_ge0 k f : (forall t, 0 <= f t) -> 0 <= total_of k f.
Proof.
by move=> h; elim: k => [|k IH]; [rewrite /total_of /=; lra|rewrite total_S; have := h k; lra].
Qed.
Lemma total_add k f g : total_of k (fun t => f t + g t) = total_of k f + total_of k g.
Proof. by elim: k => [|k IH]; [rewrite /total_of /=; lra|rewrite !total_S IH; lra]. Qed.
Lemma total_scale k c f : total_of k (fun t => c * f t) = c * total_of k f.
Proof. by elim: k => [|k IH]; [rewrite /total_of /=; lra|rewrite !total_S IH; lra]. Qed.
Lemma total_swap k l (h : nat -> nat -> R) :
  total_of k (fun s => total_of l (h s)) = total_of l (fun t => total_of k (h^~ t)).
Proof.
elim: k => [|k IH]; first by rewrite [RHS]total_0.
by rewrite total_S IH -total_add; apply: total_ext => t _; rewrite total_S.
Qed.
(** Terms that vanish at the end *)
Lemma total_cut k l f : (l <= k)%N -> (forall t, (l <= t < k)%N -> f t = 0) ->
  total_of k f = total_of l f.
Proof.
elim: k => [|k IH] lk h; first by move: lk; rewrite leqn0 => /eqP ->.
move: lk; rewrite leq_eqVlt => /orP[/eqP -> //|]; rewrite ltnS => lk.
rewrite total_S IH ?h ?lk ?leqnn //; first lra.
by move=> t /andP[h1 h2]; apply: h; rewrite h1 ltnW.
Qed.

(** ** The factors *)
Section Factors.
Variables (n k : nat) (X : nat -> nat -> nat -> R).
Hypothesis p3 : (3 <= prec)%Z.
Hypothesis hX : elimination prec emax n k X.
Local Notation low := (lower prec emax X).
Local Notation upp := (upper X).
Local Notation term i j := (fun t => low i t * upp t j).
Local Notation aterm i j := (fun t => Rabs (low i t * upp t j)).

(** One step. *)
Lemma step t i j : (t < k)%N -> (t < i < n)%N -> (t < j < n)%N ->
  Rabs (X t i j - (X t.+1 i j + low i t * upp t j)) <=
  u * (Rabs (X t.+1 i j) + Rabs (low i t * upp t j)) + 2 * eta.
Proof.
move=> tk ti tj; have := el_below hX tk ti tj.
have -> : low i t = X t i t by rewrite /lower; case/andP: ti => ->.
have -> : upp t j = X t.+1 t j by rewrite /upper; case/andP: tj => ->.
set x := X t i j; set y := X t.+1 i j; set l := X t i t; set w := X t.+1 t j => E.
have h1 := rnd_fore (w * - l); have h2 := rnd_back (x + rnd (w * - l)); rewrite -E in h2.
have -> : x - (y + l * w) = - (y - (x + rnd (w * - l))) - (rnd (w * - l) - w * - l) by ring.
have -> : Rabs (l * w) = Rabs (w * - l) by rewrite -Rabs_Ropp; congr Rabs; ring.
apply: (Rle_trans _ _ _ (Rabs_triang _ _)); rewrite !Rabs_Ropp; lra.
Qed.

(** Where the sum of the terms of an entry ends *)
Definition stop i j := minn k (minn i j).

(** The error after [t] steps: [stop i j - t] steps are missing. *)
Definition part i j t : R := total_of (stop i j) (term i j) - total_of t (term i j).
Definition last i j : R :=
  if (k <= i)%N && (k <= j)%N then X k i j else low i (stop i j) * upp (stop i j) j.
Definition extra i : R := if (i < k)%N then Rabs (low i i) else 0.

Lemma extra_ge0 i : 0 <= extra i.
Proof. by rewrite /extra; case: ifP => _; [exact: Rabs_pos|lra]. Qed.

Lemma pow5 : 5 * u <= (1 + u) ^ 5 - 1.
Proof. have h : 0 <= u * u by nra. simpl; nra. Qed.

Lemma base i j : (i < n)%N -> (j < n)%N ->
  Rabs (X (stop i j) i j - last i j) <=
  ((1 + u) ^ 5 - 1) * Rabs (last i j) + extra i * eta.
Proof.
move=> ilt jlt; have ex := extra_ge0 i; have p5 := pow5.
have ex' : 0 <= extra i * eta by apply: Rmult_le_pos; lra.
have triv x y : x = y -> Rabs (x - y) <= ((1 + u) ^ 5 - 1) * Rabs y + extra i * eta.
  by move=> ->; rewrite Rminus_diag_eq // Rabs_R0; have := Rabs_pos y; nra.
rewrite /last /stop.
case: ifP => [/andP[ki kj]|hk].
  by apply: triv; congr (X _ _ _); rewrite (minn_idPl _) // leq_min ki.
case: (ltngtP i j) => ij.
- (* above the diagonal *)
  have ik : (i < k)%N by move: hk; rewrite (leqNgt k i); case: (ltnP i k) => // ki; lia.
  have -> : minn k i = i by lia.
  have -> : low i i = / rnd (/ X i i i) by rewrite /lower ltnn eqxx.
  have -> : upp i j = X i.+1 i j by rewrite /upper ij.
  have [c0 _] := reciprocal p3 (el_pivot hX ik) (el_bound hX ik).
  rewrite /extra ik /lower ltnn eqxx; set c := rnd _ in c0 *.
  rewrite (el_row hX ik) ?ij // -/c; set x := X i i j.
  have h := rnd_back (x * c).
  have -> : x - / c * rnd (x * c) = (rnd (x * c) - x * c) * - / c by field.
  rewrite Rabs_mult Rabs_Ropp Rabs_mult; have hc := Rabs_pos (/ c).
  have h3 := Rmult_le_compat_r _ _ _ hc h.
  apply: (Rle_trans _ _ _ h3); have := Rabs_pos (rnd (x * c)) => hr.
  have := Rmult_le_pos _ _ hc hr; nra.
- (* below the diagonal *)
  have jk : (j < k)%N by move: hk; rewrite andbC (leqNgt k j); case: (ltnP j k) => // kj; lia.
  apply: triv; have -> : minn k j = j by lia.
  by rewrite /lower /upper ij ltnn eqxx Rmult_1_r.
- (* on the diagonal *)
  have ik : (i < k)%N by move: hk; rewrite -ij andbb => /negbT; rewrite -ltnNge.
  rewrite -ij (minn_idPr (ltnW ik)) /lower /upper ltnn eqxx Rmult_1_r.
  have [c0 h] := reciprocal p3 (el_pivot hX ik) (el_bound hX ik).
  by have := Rmult_le_compat_r _ _ _ (Rabs_pos (/ rnd (/ X i i i))) p5; lra.
Qed.

(** The sum from [t] on *)
Definition from i j t d : R := total_of d (fun s => low i (t + s) * upp (t + s) j).
Definition afrom i j t d : R := total_of d (fun s => Rabs (low i (t + s) * upp (t + s) j)).

Lemma total_front d f : total_of d.+1 f = f 0%N + total_of d (fun s => f s.+1).
Proof.
elim: d => [|d IH]; first by rewrite /total_of /=; lra.
by rewrite total_S IH total_S; lra.
Qed.

Lemma errors i j d t : (i < n)%N -> (j < n)%N -> (t + d = stop i j)%N ->
  Rabs (X t i j - (from i j t d + last i j)) <=
  ((1 + u) ^ (d + 5) - 1) * (afrom i j t d + Rabs (last i j)) +
  (1 + u) ^ d * (2 * INR d + extra i) * eta.
Proof.
move=> ilt jlt; elim: d t => [|d IH] t td.
  rewrite addn0 in td; rewrite td /from /afrom /total_of /= !Rplus_0_l.
  by apply: (Rle_trans _ _ _ (base ilt jlt)); rewrite /=; lra.
have tk : (t < k)%N by rewrite /stop in td; lia.
have ti : (t < i < n)%N by rewrite /stop in td; lia.
have tj : (t < j < n)%N by rewrite /stop in td; lia.
have h1 := step tk ti tj.
have {IH} h2 := IH t.+1; rewrite addSnnS in h2; have {h2} h2 := h2 td.
have ff : from i j t d.+1 = low i t * upp t j + from i j t.+1 d.
  rewrite /from total_front addn0; congr (_ + _); apply: total_ext => s _.
  by rewrite addSnnS.
have fa : afrom i j t d.+1 = Rabs (low i t * upp t j) + afrom i j t.+1 d.
  rewrite /afrom total_front addn0; congr (_ + _); apply: total_ext => s _.
  by rewrite addSnnS.
have at_ : Rabs (from i j t.+1 d + last i j) <= afrom i j t.+1 d + Rabs (last i j).
  apply: (Rle_trans _ _ _ (Rabs_triang _ _)); apply: Rplus_le_compat_r.
  rewrite /from /afrom; elim: (d) => [|e IH]; first by rewrite /total_of /= Rabs_R0; lra.
  rewrite !total_S; apply: (Rle_trans _ _ _ (Rabs_triang _ _)); lra.
rewrite ff fa; set a := low i t * upp t j in h1 *; set y := X t.+1 i j in h1 h2 *.
set Fr := from i j t.+1 d in h2 at_ *; set L := last i j in h2 at_ *.
set S := afrom i j t.+1 d in h2 at_ *; set G := extra i in h2 *.
have G0 : 0 <= G by exact: extra_ge0.
have S0 : 0 <= S by apply: total_ge0 => s; exact: Rabs_pos.
have L0 := Rabs_pos L; have a0 := Rabs_pos a.
have g := @pow1u prec d; have i0 := pos_INR d.
have g5 := @pow1u prec (d + 5).
have yb : Rabs y <= (S + Rabs L) + Rabs (y - (Fr + L)).
  have -> : y = (Fr + L) + (y - (Fr + L)) by ring.
  apply: (Rle_trans _ _ _ (Rabs_triang _ _)); have -> : Fr + L + (y - (Fr + L)) - (Fr + L) = y - (Fr + L) by ring.
  lra.
have -> : X t i j - (a + Fr + L) = (X t i j - (y + a)) + (y - (Fr + L)) by ring.
apply: (Rle_trans _ _ _ (Rabs_triang _ _)).
set B := Rabs (y - (Fr + L)) in h2 yb *.
have B0 : 0 <= B by exact: Rabs_pos.
apply: (@Rle_trans _ ((1 + u) * B + u * (Rabs a + (S + Rabs L)) + 2 * eta)).
  nra.
rewrite S_INR addSn -!tech_pow_Rmult.
have h3 : (1 + u) * B <= (1 + u) * (((1 + u) ^ (d + 5) - 1) * (S + Rabs L) +
  (1 + u) ^ d * (2 * INR d + G) * eta) by apply: Rmult_le_compat_l; lra.
set P := (1 + u) ^ (d + 5) in h2 h3 g5 *; set Q := (1 + u) ^ d in g h2 h3 *.
have ha : u * Rabs a <= ((1 + u) * P - 1) * Rabs a by apply: Rmult_le_compat_r; nra.
have hq : 2 * eta <= (1 + u) * Q * (2 * eta).
  have : 1 <= (1 + u) * Q by nra.
  by nra.
have -> : ((1 + u) * P - 1) * (Rabs a + S + Rabs L) + (1 + u) * Q * (2 * (INR d + 1) + G) * eta =
  ((1 + u) * ((P - 1) * (S + Rabs L) + Q * (2 * INR d + G) * eta) + u * (S + Rabs L)) +
  ((1 + u) * P - 1) * Rabs a + (1 + u) * Q * (2 * eta) by ring.
lra.
Qed.

(** The whole sum ends at [stop]. *)
Lemma lower0 i t : (i < t)%N -> low i t = 0.
Proof. by move=> h; rewrite /lower ltnNge (ltnW h) /= gtn_eqF. Qed.
Lemma upper0 t j : (j < t)%N -> upp t j = 0.
Proof. by move=> h; rewrite /upper ltnNge (ltnW h) /= gtn_eqF. Qed.

Lemma whole i j : total_of k (term i j) + rest X k i j = from i j 0 (stop i j) + last i j /\
  total_of k (aterm i j) + Rabs (rest X k i j) = afrom i j 0 (stop i j) + Rabs (last i j).
Proof.
rewrite /rest /last /from /afrom.
case: ifP => [/andP[ki kj]|hk].
  by have -> : stop i j = k by rewrite /stop; lia.
have sk : (stop i j < k)%N.
  rewrite /stop; case: (leqP k i) hk => [ki|ik] hk; last by lia.
  by case: (leqP k j) hk => // jk _; lia.
have sz t : (stop i j < t < k)%N -> low i t * upp t j = 0.
  move=> /andP[st tk]; case: (ltnP i t) => it; first by rewrite lower0 // Rmult_0_l.
  by rewrite [upp _ _]upper0 ?Rmult_0_r //; rewrite /stop in st; lia.
rewrite Rabs_R0 !Rplus_0_r; split.
  by rewrite (@total_cut k (stop i j).+1) // ?total_S // => t /andP[h1 h2]; apply: sz; rewrite h1.
rewrite (@total_cut k (stop i j).+1) // ?total_S // => t /andP[h1 h2].
by rewrite sz ?Rabs_R0 // h1.
Qed.

Theorem factors_near i j : (i < n)%N -> (j < n)%N ->
  Rabs (X 0 i j - factored prec emax X k i j) <= factor_error prec emax X k i j.
Proof.
move=> ilt jlt; have [w1 w2] := whole i j.
rewrite /factored /factor_error /factored_size w1 w2.
have h := @errors i j (stop i j) 0 ilt jlt (add0n _).
apply: (Rle_trans _ _ _ h).
set d := stop i j; have dk : (d <= k)%N by rewrite /d /stop; lia.
have S0 : 0 <= afrom i j 0 d by apply: total_ge0 => s; exact: Rabs_pos.
have L0 := Rabs_pos (last i j); have G0 := extra_ge0 i; rewrite /extra in G0 *.
set G := if _ then _ else _ in G0 *.
have m1 : (1 + u) ^ (d + 5) <= (1 + u) ^ (k + 5) by apply: pow1u_mono; lia.
have m2 : (1 + u) ^ d <= (1 + u) ^ k by apply: pow1u_mono.
have m3 : INR d <= INR k by apply: le_INR; exact/leP.
have i0 := pos_INR d; have g := @pow1u prec d.
apply: Rplus_le_compat; first by apply: Rmult_le_compat_r; lra.
apply: Rmult_le_compat_r; first lra.
by apply: Rmult_le_compat; lra.
Qed.

(** ** The product of the pivots *)
Theorem pivots_near :
  Rabs (pivot_product prec emax X k - prod_of k (fun t => low t t)) <= product_error prec emax X k.
Proof.
rewrite /product_error; have : (k <= k)%N by [].
elim: {1 3 4 5 6 7}k => [|t IH] tk.
  by rewrite muln0 /= Rminus_diag_eq // Rabs_R0; lra.
have {IH} IH := IH (ltnW tk).
have [_ h] := reciprocal p3 (el_pivot hX tk) (el_bound hX tk).
rewrite mulnS pow_add [pivot_product _ _ _ _]/= [prod_of _ _]/=
  [lost _ _ _ _](_ : _ = (1 + u) ^ 6 * Rabs (low t t) * lost prec emax X t + eta) //.
move: h; have -> : / rnd (/ X t t t) = low t t by rewrite /lower ltnn eqxx.
set p := X t t t; set l := low t t; set D := pivot_product _ _ _ _ in IH *.
set P := prod_of _ _ in IH *; set r := lost _ _ _ _ in IH *.
set W := (1 + u) ^ (6 * t) in IH * => h.
have h1 := rnd_fore (D * p).
have W1 : 1 <= W by exact: pow1u.
have l0 := Rabs_pos l; have P0 := Rabs_pos P; set e := Rabs (D - P) in IH *.
have ee : 0 <= e by exact: Rabs_pos.
have Db : Rabs D <= Rabs P + e.
  by have := Rabs_triang P (D - P); rewrite -/e (_ : P + (D - P) = D) //; ring.
have pb : Rabs p <= (1 + 5 * u) * Rabs l.
  by have := Rabs_triang l (p - l); rewrite (_ : l + (p - l) = p); [lra|ring].
have D0 := Rabs_pos D; have q0 := Rabs_pos p.
have -> : rnd (D * p) - P * l = (rnd (D * p) - D * p) + D * (p - l) + (D - P) * l by ring.
apply: (@Rle_trans _ (u * (Rabs D * Rabs p) + eta + Rabs D * (5 * u * Rabs l) + e * Rabs l)).
  apply: (Rle_trans _ _ _ (Rabs_triang _ _)); rewrite Rabs_mult.
  apply: Rplus_le_compat_r; apply: (Rle_trans _ _ _ (Rabs_triang _ _)).
  rewrite -Rabs_mult [Rabs (D * (p - l))]Rabs_mult; apply: Rplus_le_compat => //.
  by apply: Rmult_le_compat_l.
pose q := (1 + u) * (1 + 5 * u).
have q1 : 1 <= q by rewrite /q; nra.
have q6 : q <= (1 + u) ^ 6.
  have -> : (1 + u) ^ 6 = (1 + u) * (1 + u) ^ 5 by [].
  by apply: Rmult_le_compat_l; have := pow5; lra.
have s1 : u * (Rabs D * Rabs p) + Rabs D * (5 * u * Rabs l) <= (q - 1) * (Rabs D * Rabs l).
  have : Rabs D * Rabs p <= Rabs D * ((1 + 5 * u) * Rabs l) by exact: Rmult_le_compat_l.
  by rewrite /q => hh; have := Rmult_le_compat_l _ _ _ (Rlt_le _ _ u0) hh; lra.
have s2 : (q - 1) * (Rabs D * Rabs l) <= (q - 1) * ((Rabs P + e) * Rabs l).
  by apply: Rmult_le_compat_l; [lra|exact: Rmult_le_compat_r].
have s3 : q * e * Rabs l <= q * ((W - 1) * Rabs P + r) * Rabs l.
  by apply: Rmult_le_compat_r => //; apply: Rmult_le_compat_l; lra.
rewrite Rabs_mult; set V := (1 + u) ^ 6 in q6 *.
have s4 : q * ((W - 1) * Rabs P + r) * Rabs l + (q - 1) * (Rabs P * Rabs l) <=
   (V * W - 1) * (Rabs P * Rabs l) + V * Rabs l * r.
  have r0 : 0 <= r.
    rewrite /r; elim: (t) => [|s IHs] /=; first lra.
    have := @pow1u prec 6; have := Rabs_pos (low s s) => a1 a2.
    have := Rmult_le_pos _ _ (Rmult_le_pos _ _ (Rle_trans _ _ _ Rle_0_1 a2) a1) IHs; simpl; lra.
  have x1 : 0 <= Rabs P * Rabs l by exact: Rmult_le_pos.
  have x2 : 0 <= Rabs l * r by exact: Rmult_le_pos.
  have x3 : q * W <= V * W by apply: Rmult_le_compat_r; lra.
  have x4 := Rmult_le_compat_r _ _ _ x1 x3; have x5 := Rmult_le_compat_r _ _ _ x2 q6.
  lra.
lra.
Qed.

(** ** A column without a pivot *)
Lemma total_update m f c s : (s < m)%N ->
  total_of m (fun j => if j == s then c else f j) = total_of m f - f s + c.
Proof.
elim: m => // m IH; rewrite ltnS leq_eqVlt => /orP[/eqP ->|sm]; rewrite !total_S.
  by rewrite eqxx (@total_ext m _ f) => [|t tm]; [lra|rewrite ltn_eqF].
by rewrite IH // gtn_eqF //; lra.
Qed.

Lemma kernel_upper d : (k < n)%N -> (d <= k)%N -> exists z : nat -> R,
  [/\ z k = 1, forall j, (k < j)%N -> z j = 0 &
      forall s, (k - d <= s < k)%N -> total_of n (fun j => upp s j * z j) = 0].
Proof.
move=> ltkn; elim: d => [|d IH] dk.
  exists (fun j => if j == k then 1 else 0); split; first by rewrite eqxx.
    by move=> j kj; rewrite gtn_eqF.
  by move=> s; rewrite subn0 => /andP[h1 h2]; exfalso; lia.
have [z [zk zj hz]] := IH (ltnW dk).
pose s := (k - d.+1)%N; pose c := z s - total_of n (fun j => upp s j * z j).
have sk : (s < k)%N by rewrite /s; lia.
exists (fun j => if j == s then c else z j); split.
- by rewrite gtn_eqF.
- by move=> j kj; rewrite gtn_eqF ?zj //; lia.
have eu r : total_of n (fun j => upp r j * (if j == s then c else z j)) =
    total_of n (fun j => upp r j * z j) - upp r s * z s + upp r s * c.
  rewrite -(@total_update n (fun j => upp r j * z j) (upp r s * c) s); last lia.
  by apply: total_ext => j _; case: eqP => [->|].
move=> r /andP[r1 r2]; rewrite eu; case: (ltngtP r s) => rs; first by exfalso; rewrite /s in rs; lia.
  by rewrite [upp r s]upper0 // hz; [lra|rewrite r2 andbT; rewrite /s in rs; lia].
by rewrite rs [upp s s](_ : _ = 1) /c; [lra|rewrite /upper ltnn eqxx].
Qed.

Theorem factored_singular : (k < n)%N -> (forall i, (k <= i < n)%N -> X k i k = 0) ->
  exists z : nat -> R, (exists2 j, (j < n)%N & z j <> 0) /\
    forall i, (i < n)%N -> total_of n (fun j => factored prec emax X k i j * z j) = 0.
Proof.
move=> ltkn hk; have [z [zk zj hz]] := @kernel_upper k ltkn (leqnn k).
exists z; split; first by exists k => //; rewrite zk; lra.
move=> i ilt.
rewrite (@total_ext n _ (fun j => total_of k (fun t => low i t * (upp t j * z j)) + rest X k i j * z j)).
  rewrite total_add total_swap total_0 => [|t tk]; last first.
    by rewrite total_scale hz ?Rmult_0_r // subnn.
  rewrite total_0 ?Rplus_0_r // => j jlt; rewrite /rest.
  case: (ltngtP k j) => kj.
  - by rewrite zj // Rmult_0_r.
  - by rewrite andbF Rmult_0_l.
  - rewrite -kj andbT; case: ifP => ki; last by rewrite Rmult_0_l.
    by rewrite hk ?ki // Rmult_0_l.
move=> j _; rewrite /factored Rmult_plus_distr_r; congr (_ + _).
rewrite Rmult_comm -total_scale; apply: total_ext => t _; ring.
Qed.
End Factors.
End Real.
