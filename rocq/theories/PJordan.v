(** * PJordan.v -- the errors of Gauss-Jordan elimination over floats. *)

From Coq Require Import ZArith Reals Lra Lia.
From mathcomp Require Import all_ssreflect.
From Flocq Require Import Core BinarySingleNaN.
From Verif Require Import FloatSpec FloatErrSpec LuSpec JordanSpec.
From Verif Require Import PFloat PFloat4 PFloatErr PLu.

Set Implicit Arguments.
Unset Strict Implicit.
Unset Printing Implicit Defensive.

Section Jordan.
Variables (prec emax : Z).
Context (prec_gt_0 : Prec_gt_0 prec).
Local Notation rnd := (rounded prec emax).
Local Notation u := (unit_error prec).
Local Notation eta := (tiny_error prec emax).
Implicit Types (t i j : nat) (y z : nat -> R).
Local Open Scope R_scope.
Let u0 : 0 < u. Proof. exact: u_gt0. Qed.
Let e0 : 0 < eta. Proof. exact: eta_gt0. Qed.

Section Trace.
Variables (n k : nat) (W : nat -> nat -> nat -> R).
Hypothesis p3 : (3 <= prec)%Z.
Hypothesis hW : jordan prec emax n k W.
Hypothesis kn : (k <= n)%N.
Local Notation mult := (multiplier prec emax W).
Local Notation undo := (undo prec emax W).
Local Notation undo_all := (undo_all prec emax W).
Local Notation grow := (grow prec emax W).
Local Notation grow_all := (grow_all prec emax W).
Local Notation small := (small prec emax W).
Local Notation underflow := (underflow prec emax W).

(** ** Linearity and monotonicity on the rows below [n] *)
Definition same y z := forall i, (i < n)%N -> y i = z i.
Definition below y z := forall i, (i < n)%N -> y i <= z i.

Lemma undo_same t y z : (t < n)%N -> same y z -> same (undo t y) (undo t z).
Proof. by move=> tn h i ilt; rewrite /undo !h. Qed.
Lemma undo_all_same d y z : (d <= n)%N -> same y z -> same (undo_all d y) (undo_all d z).
Proof.
elim: d y z => [|d IH] y z dn h //=; apply: IH; first exact: ltnW.
exact: undo_same.
Qed.
Lemma grow_same t y z : (t < n)%N -> same y z -> same (grow t y) (grow t z).
Proof. by move=> tn h i ilt; rewrite /grow !h. Qed.
Lemma grow_all_same d y z : (d <= n)%N -> same y z -> same (grow_all d y) (grow_all d z).
Proof.
elim: d y z => [|d IH] y z dn h //=; apply: IH; first exact: ltnW.
exact: grow_same.
Qed.
Lemma same_trans y z x : same y z -> same z x -> same y x.
Proof. by move=> h1 h2 i ilt; rewrite h1 ?h2. Qed.
Lemma undo_all_add d y z : (d <= n)%N ->
  same (undo_all d (fun i => y i + z i)) (fun i => undo_all d y i + undo_all d z i).
Proof.
elim: d y z => [|d IH] y z dn //=.
apply: same_trans (IH _ _ (ltnW dn)); apply: undo_all_same; first exact: ltnW.
by move=> i _; rewrite /undo; case: eqP => _; ring.
Qed.
Lemma undo_all_scale d c y : (d <= n)%N ->
  same (undo_all d (fun i => c * y i)) (fun i => c * undo_all d y i).
Proof.
elim: d y => [|d IH] y dn //=.
apply: same_trans (IH _ (ltnW dn)); apply: undo_all_same; first exact: ltnW.
by move=> i _; rewrite /undo; case: eqP => _; ring.
Qed.
Lemma undo_all_sum d m (c : nat -> R) (f : nat -> nat -> R) : (d <= n)%N ->
  same (undo_all d (fun i => total_of m (fun t => c t * f t i)))
       (fun i => total_of m (fun t => c t * undo_all d (f t) i)).
Proof.
move=> dn; elim: m => [|m IH].
  move=> i ilt; rewrite [RHS]/total_of /= -(Rmult_0_l (undo_all d (fun _ => 0) i)).
  rewrite -(@undo_all_scale d 0 (fun _ => 0) dn i ilt); apply: undo_all_same => // a _.
  by rewrite /total_of /=; ring.
apply: (@same_trans _ (undo_all d (fun i => total_of m (fun t => c t * f t i) + c m * f m i))).
  by apply: undo_all_same => // i _; rewrite total_S.
move=> i ilt; rewrite undo_all_add // total_S IH // undo_all_scale //.
Qed.
Lemma grow_all_add d y z : (d <= n)%N ->
  same (grow_all d (fun i => y i + z i)) (fun i => grow_all d y i + grow_all d z i).
Proof.
elim: d y z => [|d IH] y z dn //=.
apply: same_trans (IH _ _ (ltnW dn)); apply: grow_all_same; first exact: ltnW.
by move=> i _; rewrite /grow; case: eqP => _; ring.
Qed.
Lemma grow_all_scale d c y : (d <= n)%N ->
  same (grow_all d (fun i => c * y i)) (fun i => c * grow_all d y i).
Proof.
elim: d y => [|d IH] y dn //=.
apply: same_trans (IH _ (ltnW dn)); apply: grow_all_same; first exact: ltnW.
by move=> i _; rewrite /grow; case: eqP => _; ring.
Qed.
Lemma grow_all_sum d m (c : nat -> R) (f : nat -> nat -> R) : (d <= n)%N ->
  same (grow_all d (fun i => total_of m (fun t => c t * f t i)))
       (fun i => total_of m (fun t => c t * grow_all d (f t) i)).
Proof.
move=> dn; elim: m => [|m IH].
  move=> i ilt; rewrite [RHS]/total_of /= -(Rmult_0_l (grow_all d (fun _ => 0) i)).
  rewrite -(@grow_all_scale d 0 (fun _ => 0) dn i ilt); apply: grow_all_same => // a _.
  by rewrite /total_of /=; ring.
apply: (@same_trans _ (grow_all d (fun i => total_of m (fun t => c t * f t i) + c m * f m i))).
  by apply: grow_all_same => // i _; rewrite total_S.
move=> i ilt; rewrite grow_all_add // total_S IH // grow_all_scale //.
Qed.
Lemma grow_mono t y z : (t < n)%N -> below y z -> below (grow t y) (grow t z).
Proof.
move=> tn h i ilt; rewrite /grow; apply: Rplus_le_compat.
  by case: eqP => _; [lra|exact: h].
by apply: Rmult_le_compat_l; [exact: Rabs_pos|exact: h].
Qed.
Lemma grow_all_mono d y z : (d <= n)%N -> below y z -> below (grow_all d y) (grow_all d z).
Proof.
elim: d y z => [|d IH] y z dn h //=; apply: IH; first exact: ltnW.
exact: grow_mono.
Qed.
Lemma grow_all_ge0 d y : (d <= n)%N -> below (fun _ => 0) y -> below (fun _ => 0) (grow_all d y).
Proof.
elim: d y => [|d IH] y dn h //=; apply: IH; first exact: ltnW.
move=> i ilt; rewrite /grow; have := Rmult_le_pos _ _ (Rabs_pos (mult d i)) (h d dn).
by case: eqP => _; [lra|have := h i ilt; lra].
Qed.
Lemma undo_abs t y : (t < n)%N ->
  below (fun i => Rabs (undo t y i)) (grow t (fun i => Rabs (y i))).
Proof.
move=> tn i ilt; rewrite /undo /grow; apply: (Rle_trans _ _ _ (Rabs_triang _ _)).
by rewrite Rabs_mult; case: eqP => _; [rewrite Rabs_R0|]; lra.
Qed.
Lemma undo_all_abs d y : (d <= n)%N ->
  below (fun i => Rabs (undo_all d y i)) (grow_all d (fun i => Rabs (y i))).
Proof.
elim: d y => [|d IH] y dn; first by move=> i _ /=; lra.
move=> i ilt /=; apply: (Rle_trans _ _ _ (IH _ (ltnW dn) i ilt)).
by apply: grow_all_mono => //; [exact: ltnW|exact: undo_abs].
Qed.
Lemma undo_all_sub d y z i : (d <= n)%N -> (i < n)%N ->
  Rabs (undo_all d y i - undo_all d z i) <= grow_all d (fun i => Rabs (y i - z i)) i.
Proof.
move=> dn ilt; have -> : undo_all d y i - undo_all d z i = undo_all d (fun i => y i - z i) i.
  rewrite (@undo_all_same d (fun i => y i - z i) (fun i => y i + -1 * z i) dn) //.
    by rewrite undo_all_add // undo_all_scale //; ring.
  by move=> a _; ring.
exact: undo_all_abs.
Qed.

(** ** One step *)
Local Notation col t j := (fun i => W t i j).
Local Notation acol t j := (fun i => Rabs (W t i j)).

Lemma jordan_step t j : (t < k)%N -> (t < j < n + n)%N ->
  below (fun i => Rabs (W t i j - undo t (col t.+1 j) i))
        (fun i => u * grow t (acol t.+1 j) i + small t i).
Proof.
move=> tk tj i ilt; rewrite /undo /grow /small; case: eqVneq => [->|it].
  have -> : mult t t = / rnd (/ W t t t) by rewrite /multiplier eqxx.
  have [c0 _] := reciprocal prec_gt_0 p3 (jd_pivot hW tk) (jd_bound hW tk).
  set c := rnd _ in c0 *.
  rewrite (jd_row hW tk tj) -/c !Rplus_0_l; set x := W t t j.
  have h := @rnd_back prec emax prec_gt_0 (x * c).
  have -> : x - / c * rnd (x * c) = (rnd (x * c) - x * c) * - / c by field.
  rewrite Rabs_mult Rabs_Ropp; have := Rmult_le_compat_r _ _ _ (Rabs_pos (/ c)) h; lra.
have -> : mult t i = W t i t by rewrite /multiplier (negbTE it).
have := jd_other hW tk ilt (elimN eqP it) tj.
set x := W t i j; set y := W t.+1 i j; set l := W t i t; set w := W t.+1 t j => E.
have h1 := @rnd_fore prec emax prec_gt_0 (w * - l).
have h2 := @rnd_back prec emax prec_gt_0 (x + rnd (w * - l)); rewrite -E in h2.
have -> : x - (y + l * w) = - (y - (x + rnd (w * - l))) - (rnd (w * - l) - w * - l) by ring.
have e : Rabs l * Rabs w = Rabs (w * - l) by rewrite -Rabs_mult -Rabs_Ropp; congr Rabs; ring.
rewrite Rmult_plus_distr_l e.
apply: (Rle_trans _ _ _ (Rabs_triang _ _)); rewrite !Rabs_Ropp; lra.
Qed.

Lemma small_ge0 t : below (fun _ => 0) (small t).
Proof.
by move=> i _; rewrite /small; apply: Rmult_le_pos; [case: eqP => _; [exact: Rabs_pos|lra]|lra].
Qed.
Lemma underflow_ge0 d i : (d <= n)%N -> (i < n)%N -> 0 <= underflow d i.
Proof.
elim: d => [|d IH] dn ilt /=; first lra.
by have := IH (ltnW dn) ilt; have := grow_all_ge0 (ltnW dn) (@small_ge0 d) ilt; lra.
Qed.
Lemma underflow_mono d e i : (d <= e)%N -> (e <= n)%N -> (i < n)%N -> underflow d i <= underflow e i.
Proof.
elim: e => [|e IH] de en ilt; first by move: de; rewrite leqn0 => /eqP ->; lra.
move: de; rewrite leq_eqVlt => /orP[/eqP ->|]; first lra.
rewrite ltnS => de; rewrite /=; have := IH de (ltnW en) ilt.
by have := grow_all_ge0 (ltnW en) (@small_ge0 e) ilt; lra.
Qed.

(** ** All steps *)
Lemma columns_near d j : (d <= k)%N -> (d <= j < n + n)%N ->
  below (fun i => Rabs (W 0 i j - undo_all d (col d j) i))
        (fun i => ((1 + u) ^ d - 1) * grow_all d (acol d j) i + (1 + u) ^ d * underflow d i).
Proof.
elim: d => [|d IH] dk dj i ilt.
  by rewrite /= Rminus_diag_eq // Rabs_R0; lra.
have dn : (d <= n)%N by apply: leq_trans kn; exact: ltnW.
have dj' : (d <= j < n + n)%N by case/andP: dj => h ->; rewrite ltnW.
have dlt : (d < n)%N by exact: leq_trans kn.
have {IH} h1 := IH (ltnW dk) dj' i ilt; rewrite /= in h1.
have st := jordan_step dk dj.
set G := grow_all d.+1 (acol d.+1 j) i; set s := grow_all d (small d) i.
have h2 : Rabs (undo_all d (col d j) i - undo_all d.+1 (col d.+1 j) i) <= u * G + s.
  apply: (Rle_trans _ _ _ (undo_all_sub _ _ dn ilt)).
  apply: (Rle_trans _ _ _ (grow_all_mono dn st ilt)).
  by rewrite grow_all_add // grow_all_scale //; rewrite /G /s /=; lra.
have h3 : grow_all d (acol d j) i <= (1 + u) * G + s.
  have hb : below (acol d j) (fun i => (1 + u) * grow d (acol d.+1 j) i + small d i).
    move=> a alt; have h := st a alt; have h' := undo_abs (col d.+1 j) dlt alt.
    have := Rabs_triang (W d a j - undo d (col d.+1 j) a) (undo d (col d.+1 j) a).
    rewrite (_ : W d a j - _ + _ = W d a j); last ring.
    by rewrite /= in h h' *; lra.
  apply: (Rle_trans _ _ _ (grow_all_mono dn hb ilt)).
  by rewrite grow_all_add // grow_all_scale //; rewrite /G /s /=; lra.
have g := @pow1u prec d; rewrite -tech_pow_Rmult [underflow d.+1 i]/= -/s.
have -> : W 0 i j - undo_all d.+1 (col d.+1 j) i = (W 0 i j - undo_all d (col d j) i) +
  (undo_all d (col d j) i - undo_all d.+1 (col d.+1 j) i) by ring.
apply: (Rle_trans _ _ _ (Rabs_triang _ _)).
set P := (1 + u) ^ d in g h1 *.
have h4 := Rmult_le_compat_l (P - 1) _ _ _ h3.
have G0 : 0 <= G by apply: grow_all_ge0 => // a _; exact: Rabs_pos.
have s0 : 0 <= s by apply: grow_all_ge0 => //; exact: small_ge0.
have U0 := underflow_ge0 dn ilt.
have h5 : (P - 1) * grow_all d (acol d j) i <= (P - 1) * ((1 + u) * G + s) by apply: h4; lra.
have h6 : 0 <= u * (P * (underflow d i + s)).
  by apply: Rmult_le_pos; [lra|apply: Rmult_le_pos; lra].
lra.
Qed.

(** The columns of the identity matrix are not changed by the steps for other columns. *)
Lemma undo_unit j d : (j < d)%N -> (d <= n)%N ->
  same (undo_all d (unit_column j)) (undo_all j.+1 (unit_column j)).
Proof.
elim: d => [|d IH] // ; rewrite ltnS leq_eqVlt => /orP[/eqP ->|jd] dn; first by [].
apply: same_trans (IH jd (ltnW dn)); rewrite /=; apply: undo_all_same; first exact: ltnW.
have z : unit_column j d = 0 by rewrite /unit_column gtn_eqF.
by move=> i _; rewrite /undo z Rmult_0_r Rplus_0_r; case: eqP => // ->.
Qed.
Lemma grow_unit j d : (j < d)%N -> (d <= n)%N ->
  same (grow_all d (unit_column j)) (grow_all j.+1 (unit_column j)).
Proof.
elim: d => [|d IH] // ; rewrite ltnS leq_eqVlt => /orP[/eqP ->|jd] dn; first by [].
apply: same_trans (IH jd (ltnW dn)); rewrite /=; apply: grow_all_same; first exact: ltnW.
have z : unit_column j d = 0 by rewrite /unit_column gtn_eqF.
by move=> i _; rewrite /grow z Rmult_0_r Rplus_0_r; case: eqP => // ->.
Qed.

Lemma pow_5 : 1 + 5 * u <= (1 + u) ^ 5.
Proof. have h : 0 <= u * u by nra. simpl; nra. Qed.

Theorem jordan_near i j : (i < n)%N -> (j < n + n)%N ->
  Rabs (W 0 i j - undo_all k (after_steps W k j) i) <= jordan_error prec emax W k i j.
Proof.
move=> ilt jlt; rewrite /jordan_error /after_steps.
have U0 := underflow_ge0 kn ilt; have g := @pow1u prec k.
case: ltnP => jk; last first.
  have h := @columns_near k j (leqnn k) _ i ilt; rewrite jk in h; have {h} := h jlt.
  have G0 : 0 <= grow_all k (acol k j) i by apply: grow_all_ge0 => // a _; exact: Rabs_pos.
  have m : (1 + u) ^ k <= (1 + u) ^ (k + 5) by apply: pow1u_mono; exact: leq_addr.
  have := Rmult_le_compat_r _ _ _ G0 m; rewrite /=; lra.
have jn : (j < n)%N by exact: leq_trans kn.
have jj : (j <= j < n + n)%N by rewrite leqnn.
have h := columns_near (ltnW jk) jj ilt; rewrite /= in h.
have e1 := undo_unit jk kn ilt.
have e2 : grow_all k (fun a => Rabs (unit_column j a)) i = grow_all j.+1 (unit_column j) i.
  rewrite -(grow_unit jk kn ilt); apply: grow_all_same => // a _.
  by rewrite /unit_column; case: eqP => _; rewrite ?Rabs_R1 ?Rabs_R0.
rewrite e1 e2.
have [_ hp] := reciprocal prec_gt_0 p3 (jd_pivot hW jk) (jd_bound hW jk).
have st : below (fun a => Rabs (W j a j - undo j (unit_column j) a))
    (fun a => 5 * u * grow j (unit_column j) a).
  move=> a _; rewrite /undo /grow /unit_column eqxx !Rmult_1_r; case: eqVneq => [->|aj].
    by rewrite !Rplus_0_l /multiplier eqxx.
  rewrite /multiplier (negbTE aj) !Rplus_0_l Rminus_diag_eq // Rabs_R0.
  by have := Rabs_pos (W j a j); nra.
have jn' := ltnW jn.
set G := grow_all j.+1 (unit_column j) i.
have h2 : Rabs (undo_all j (col j j) i - undo_all j.+1 (unit_column j) i) <= 5 * u * G.
  apply: (Rle_trans _ _ _ (undo_all_sub _ _ jn' ilt)).
  apply: (Rle_trans _ _ _ (grow_all_mono jn' st ilt)).
  by rewrite grow_all_scale //; rewrite /G /=; lra.
have gu0 a : 0 <= unit_column j a by rewrite /unit_column; case: eqP => _; lra.
have h3 : grow_all j (acol j j) i <= (1 + 5 * u) * G.
  have hb : below (acol j j) (fun a => (1 + 5 * u) * grow j (unit_column j) a).
    move=> a alt; have hh := st a alt; have h' := undo_abs (unit_column j) jn alt.
    have e : grow j (fun i => Rabs (unit_column j i)) a = grow j (unit_column j) a.
      by rewrite /grow !(Rabs_pos_eq _ (gu0 _)).
    rewrite /= e in h'.
    have := Rabs_triang (W j a j - undo j (unit_column j) a) (undo j (unit_column j) a).
    rewrite (_ : W j a j - _ + _ = W j a j); last ring.
    by rewrite /= in hh *; lra.
  apply: (Rle_trans _ _ _ (grow_all_mono jn' hb ilt)).
  by rewrite grow_all_scale //; rewrite /G /=; lra.
have G0 : 0 <= G by apply: grow_all_ge0.
have -> : W 0 i j - undo_all j.+1 (unit_column j) i = (W 0 i j - undo_all j (col j j) i) +
  (undo_all j (col j j) i - undo_all j.+1 (unit_column j) i) by ring.
apply: (Rle_trans _ _ _ (Rabs_triang _ _)).
have gj := @pow1u prec j; have p5 := pow_5.
have m1 : (1 + u) ^ j <= (1 + u) ^ k by apply: pow1u_mono; exact: ltnW.
have m2 : (1 + u) ^ j * (1 + u) ^ 5 <= (1 + u) ^ (k + 5).
  by rewrite -pow_add; apply: pow1u_mono; rewrite leq_add2r ltnW.
have h5 : ((1 + u) ^ j - 1) * grow_all j (acol j j) i <= ((1 + u) ^ j - 1) * ((1 + 5 * u) * G).
  by apply: Rmult_le_compat_l; lra.
have h6 : (1 + u) ^ j * (1 + 5 * u) <= (1 + u) ^ j * (1 + u) ^ 5 by apply: Rmult_le_compat_l; lra.
have h7 : (1 + u) ^ j * (1 + 5 * u) * G <= (1 + u) ^ (k + 5) * G.
  by apply: Rmult_le_compat_r; lra.
have h8 : (1 + u) ^ j * underflow j i <= (1 + u) ^ k * underflow k i.
  apply: Rmult_le_compat; [lra|exact: underflow_ge0|lra|].
  by apply: underflow_mono => //; exact: ltnW.
lra.
Qed.

(** No pivot *)
Theorem jordan_singular : (k < n)%N -> (forall i, (k <= i < n)%N -> W k i k = 0) ->
  exists z : nat -> R, (exists2 j, (j < n)%N & z j <> 0) /\
    forall i, (i < n)%N -> total_of n (fun j => z j * undo_all k (after_steps W k j) i) = 0.
Proof.
move=> ltkn hk.
pose z j := if (j < k)%N then - W k j k else if j == k then 1 else 0.
exists z; split; first by exists k => //; rewrite /z ltnn eqxx; lra.
move=> i ilt; rewrite -undo_all_sum //.
have -> : undo_all k (fun a => total_of n (fun t => z t * after_steps W k t a)) i =
    undo_all k (fun a => total_of 0 (fun t => z t * after_steps W k t a)) i.
  apply: undo_all_same => // a alt; rewrite [RHS]/total_of /=.
  rewrite (@total_cut n k.+1) //; last first.
    by move=> t /andP[kt _]; rewrite /z ltnNge (ltnW kt) /= gtn_eqF // Rmult_0_l.
  rewrite total_S /z ltnn eqxx Rmult_1_l /after_steps ltnn.
  rewrite (@total_ext k _ (fun t => if t == a then - W k a k else 0)); last first.
    move=> t tk; rewrite tk /unit_column; case: (eqVneq a t) => [->|at_]; rewrite ?eqxx; first ring.
    ring.
  case: (ltnP a k) => ak.
    by rewrite (@total_update k (fun _ => 0)) // (@total_0 k (fun _ => 0)) //; ring.
  rewrite total_0 ?hk ?ak //; first ring.
  by move=> t tk; rewrite ltn_eqF //; exact: leq_trans ak.
by rewrite undo_all_sum //.
Qed.
End Trace.

(** ** The inverse *)
Theorem residual_near n (W : nat -> nat -> nat -> R) (X : nat -> nat -> R) i j :
  (3 <= prec)%Z -> jordan prec emax n n W ->
  (forall a b, (a < n)%N -> (b < n)%N -> W n a (n + b)%N = X a b) ->
  (i < n)%N -> (j < n)%N ->
  Rabs (total_of n (fun t => W 0%N i t * X t j) - W 0%N i (n + j)%N) <=
  residual_error prec emax n W X i j.
Proof.
move=> p3 hW hX ilt jlt.
have kn := leqnn n.
set un := undo_all prec emax W n; set gr := grow_all prec emax W n.
have jn : (n + j < n + n)%N by rewrite ltn_add2l.
have hI := jordan_near p3 hW kn ilt jn; rewrite /jordan_error -/un -/gr in hI.
have as_ : same n (after_steps W n (n + j)) (fun a => X a j).
  by move=> a alt; rewrite /after_steps ltnNge leq_addr /= hX.
have e1 : un (after_steps W n (n + j)) i = total_of n (fun t => X t j * un (unit_column t) i).
  rewrite /un -(@undo_all_sum n W n) //; apply: (@undo_all_same n W n) => // a alt; rewrite as_ //.
  rewrite (@total_ext n _ (fun t => if t == a then X a j else 0)).
    by rewrite (@total_update n (fun _ => 0)) // total_0 //; ring.
  by move=> t _; rewrite /unit_column [a == t]eq_sym; case: eqP => [->|_]; ring.
have gX : gr (fun a => Rabs (after_steps W n (n + j) a)) i = gr (column X j) i.
  by apply: (@grow_all_same n W n) => // a alt; rewrite as_.
have e2 : gr (column X j) i = total_of n (fun t => Rabs (X t j) * gr (unit_column t) i).
  rewrite /gr -(@grow_all_sum n W n) //; apply: (@grow_all_same n W n) => // a alt.
  rewrite (@total_ext n _ (fun t => if t == a then Rabs (X a j) else 0)).
    by rewrite (@total_update n (fun _ => 0)) // total_0 // /column; ring.
  by move=> t _; rewrite /unit_column [a == t]eq_sym; case: eqP => [->|_]; ring.
rewrite e1 gX in hI.
have hA t : (t < n)%N -> Rabs (W 0%N i t - un (unit_column t) i) <=
    ((1 + u) ^ (n + 5) - 1) * gr (unit_column t) i + (1 + u) ^ n * underflow prec emax W n i.
  move=> tn; have t2 : (t < n + n)%N by exact: ltn_addr.
  have := jordan_near p3 hW kn ilt t2; rewrite /jordan_error /after_steps tn -/un -/gr.
  have -> : gr (fun a => Rabs (unit_column t a)) i = gr (unit_column t) i => //.
  apply: (@grow_all_same n W n) => // a _; rewrite /unit_column; case: eqP => _; rewrite ?Rabs_R1 ?Rabs_R0 //.
set g := (1 + u) ^ (n + 5) - 1 in hI hA *; set U := (1 + u) ^ n * underflow _ _ _ _ _ in hI hA *.
have hS m : (m <= n)%N ->
  Rabs (total_of m (fun t => W 0%N i t * X t j) - total_of m (fun t => X t j * un (unit_column t) i)) <=
  g * total_of m (fun t => Rabs (X t j) * gr (unit_column t) i) + U * total_of m (column X j).
  elim: m => [|m IH] mn.
    by rewrite /total_of /= Rminus_diag_eq // Rabs_R0; lra.
  have {IH} IH := IH (ltnW mn); rewrite !total_S.
  have h := Rmult_le_compat_l _ _ _ (Rabs_pos (X m j)) (hA m mn).
  rewrite -Rabs_mult in h.
  set a := total_of m _ in IH *; set b := total_of m _ in IH *.
  have -> : a + W 0%N i m * X m j - (b + X m j * un (unit_column m) i) =
    (a - b) + X m j * (W 0%N i m - un (unit_column m) i) by ring.
  apply: (Rle_trans _ _ _ (Rabs_triang _ _)).
  rewrite /column; rewrite /column in IH; lra.
have {hS} hS := hS n (leqnn n); rewrite -e2 in hS.
rewrite /residual_error -/gr.
set T := total_of n (fun t => W 0%N i t * X t j) in hS *.
have -> : T - W 0%N i (n + j)%N = (T - total_of n (fun t => X t j * un (unit_column t) i)) -
   (W 0%N i (n + j)%N - total_of n (fun t => X t j * un (unit_column t) i)) by ring.
apply: (Rle_trans _ _ _ (Rabs_triang _ _)); rewrite Rabs_Ropp -/g -/U; lra.
Qed.
End Jordan.
