(** * PJordan2.v -- the inverse of a matrix over floats is a Gauss-Jordan elimination in
    rounded arithmetic. *)

From Coq Require Import ZArith Reals Lra Lia.
From mathcomp Require Import all_ssreflect zify.
From Flocq Require Import Core BinarySingleNaN.
From Verif Require Import Rust RustFacts Traits Wp MConstr MFloats FloatSpec FloatErrSpec LuSpec.
From Verif Require Import JordanSpec PFloat PFloat4 PFloatErr PLu PLu2 PJordan.

Set Implicit Arguments.
Unset Strict Implicit.
Unset Printing Implicit Defensive.

Section Code.
Variables (cfg : Cfg) (prec emax : Z).
Context (prec_gt_0 : Prec_gt_0 prec) (prec_lt_emax : Prec_lt_emax prec emax).
Local Notation F := (binary_float prec emax).
Local Notation rnd := (rounded prec emax).
Local Notation A := (ApproxFloats cfg prec_gt_0 prec_lt_emax).
Local Notation d0 := (B754_zero false : F).
Implicit Types (v w : seq F) (x y : nat -> nat -> R) (i j k a b : nat).
Let RA := floats_rounding cfg prec_gt_0 prec_lt_emax.

Variable n : nat.
Local Notation holds := (holds n).

(** ** The identity matrix *)
Lemma int_1 : yields (int A (Zpos xH)) 1%R.
Proof.
have pg : Z.lt 0 prec by exact: prec_gt_0.
have pe : Z.lt prec emax by exact: prec_lt_emax.
have h2 : Z.le 2 emax by lia.
have := @int_rounds (mkCfg false false 2) prec emax prec_gt_0 prec_lt_emax
  (erefl : Z.lt 0 2) h2 (Zpos xH) (erefl _).
rewrite (_ : rnd (IZR (Zpos xH)) = 1%R) //.
exact: rnd_gf (gf (float_1 prec_gt_0 prec_lt_emax)).
Qed.

Lemma jd_one : ensures True (matrix_one A n)
  (fun w => holds w (fun a b => if a == b then 1%R else 0%R)).
Proof.
rewrite /matrix_one /matrix_int; apply: ensures_bind (yields_true True int_1 (fun _ h => h)) _ => o oE.
apply: (@ensures_bind _ _ _ _ _ (fun z => holds z (fun _ _ => 0%R))).
  apply: ensures_bind (yields_true True (fl_zero RA) (fun _ h => h)) _ => z z0; apply: ensures_ret.
  split=> [|i j ilt jlt]; first by rewrite size_nseq.
  by rewrite nth_nseq idx_lt.
move=> z z0.
pose st m a b : R := if (a == b) && (a < m)%N then 1%R else 0%R.
have I0 : holds z (st 0%N) by apply: holds_ext z0 => a b _ _; rewrite /st ltn0 andbF.
apply: ensures_mono (@ensures_for _ True 0 n _ _ (fun m w => holds w (st m)) I0 _) _; last first.
  by move=> v; rewrite add0n; apply: holds_ext => a b alt _; rewrite /st alt andbT.
move=> i v /andP[_]; rewrite add0n => ilt vI.
rewrite (_ : i * (n + 1) = i * n + i)%N; last by rewrite mulnDr muln1.
apply: ensures_mono (holds_set True ilt ilt vI oE) _ => w.
apply: holds_ext => a b _ _; rewrite /st ltSE.
case: (eqVneq a i) => [->|ai] //=; rewrite ltnn andbF andbT.
by rewrite [b == i]eq_sym.
Qed.

Lemma jd_all2 v w : ensures True (all2M (equals A) v w) (fun _ => True).
Proof.
elim: v w => [|a v IH] [|b w]; try exact: ensures_ret.
rewrite /= /andM; apply: (@ensures_bind _ _ _ _ _ (fun _ => True)); first exact: ensures_ret.
by case=> _; [exact: IH|exact: ensures_ret].
Qed.
Lemma jd_is_one v : size v = (n * n)%N -> ensures True (matrix_is_one A n v) (fun _ => True).
Proof.
move=> sv; apply: ensures_bind jd_one _ => o [so _].
by apply: ensures_assert_bind; [rewrite sv so eqxx|exact: jd_all2].
Qed.
Lemma jd_debug v : size v = (n * n)%N ->
  ensures True (debug_assert cfg (matrix_is_one A n v)) (fun _ => True).
Proof.
move=> sv; rewrite /debug_assert; case: (debug_assertions _); last exact: ensures_ret.
by apply: ensures_bind (jd_is_one sv) _ => -[] _; [exact: ensures_ret|exact: ensures_panic].
Qed.

(** ** The steps *)
Lemma jd_clear v w x y k : (k < n)%N -> holds v x -> holds w y ->
  ensures True (inv_clear_others A n (v, w) k) (fun vw =>
    holds vw.1 (fun a b => if a == k then x a b else rnd (x a b + rnd (x k b * - x a k))) /\
    holds vw.2 (fun a b => if a == k then y a b else rnd (y a b + rnd (y k b * - x a k)))).
Proof.
move=> klt vx wy; rewrite /inv_clear_others.
pose st z m a b : R :=
  if (a != k) && (a < m)%N then rnd (z a b + rnd (z k b * - x a k)) else z a b.
pose I m (vw : seq F * seq F) := holds vw.1 (st x m) /\ holds vw.2 (st y m).
have s0 z a b : z a b = st z 0%N a b by rewrite /st ltn0 andbF.
have I0 : I 0%N (v, w) by split; [apply: holds_ext vx|apply: holds_ext wy] => a b _ _; exact: s0.
apply: ensures_mono (@ensures_for _ True 0 n _ _ I I0 _) _; last first.
  move=> [v' w'] [/= h1 h2]; rewrite add0n in h1 h2.
  by split; [apply: holds_ext h1|apply: holds_ext h2] => a b alt _; rewrite /st alt andbT; case: eqP.
move=> m [v1 w1] /andP[_]; rewrite add0n => mlt [/= h1 h2].
case: eqVneq => mk.
  apply: ensures_ret.
  have e z a b : st z m a b = st z m.+1 a b.
    by rewrite /st ltSE mk; case: eqVneq.
  by split; [apply: holds_ext h1|apply: holds_ext h2] => a b _ _; exact: e.
have stm z b : st z m m b = z m b by rewrite /st ltnn andbF.
have stk z b : st z m k b = z k b by rewrite /st eqxx.
have sS z a b : st z m.+1 a b = if a == m then rnd (z m b + rnd (z k b * - x m k)) else st z m a b.
  rewrite /st ltSE; case: (eqVneq a m) => [->|am] //=.
  by rewrite mk.
apply: ensures_bind (holds_get True mlt klt h1) _ => c; rewrite stm => cE.
apply: ensures_bind (tells_true True (fl_is_zero RA cE) (fun _ h => h)) _ => -[] hb.
  have z0 : x m k = 0%R by exact/hb.
  apply: ensures_ret.
  have e z (u : seq F) : holds u (st z m) -> holds u (st z m.+1).
    move=> hu; apply: (holds_ext _ hu) => a b alt blt; rewrite sS.
    case: eqVneq => // ->; rewrite z0 Ropp_0 Rmult_0_r stm.
    have -> : rnd 0 = 0%R by exact: round_0.
    by rewrite Rplus_0_r -(stm z b) (holds_rnd mlt blt hu).
  by split; exact: e.
apply: ensures_bind (yields_true True (fl_neg RA cE) (fun _ h => h)) _ => c' c'E.
have km' : k <> m by move=> h; rewrite h eqxx in mk.
apply: ensures_bind (lu_add_rows cfg prec_gt_0 prec_lt_emax klt mlt km' h1 c'E) _ => v2 v2E.
apply: ensures_bind (lu_add_rows cfg prec_gt_0 prec_lt_emax klt mlt km' h2 c'E) _ => w2 w2E.
apply: ensures_ret; split.
  by apply: holds_ext v2E => a b alt blt; rewrite sS stm stk.
by apply: holds_ext w2E => a b alt blt; rewrite sS stm stk.
Qed.

Lemma jordan_exch k r W : (k < n)%N -> (k <= r < n)%N -> jordan prec emax n k W ->
  jordan prec emax n k (fun t i j => W t (exch k r i) j).
Proof.
move=> klt /andP[kr rlt] [h1 h2 h3 h4].
have ft t : (t < k)%N -> exch k r t = t by move=> tk; apply: exch_fix => //; lia.
split.
- by move=> t tk; rewrite ft //; exact: h1.
- by move=> t tk; rewrite ft //; exact: h2.
- by move=> t j tk tj; rewrite ft //; exact: h3.
- move=> t i j tk ilt it tj; rewrite (ft t) //; apply: h4 => //; first exact: exch_lt.
  by rewrite -{1}(ft t tk) => /exch_inj.
Qed.

Lemma jordan_next k W y : (k < n)%N -> jordan prec emax n k W ->
  W k k k <> 0%R -> (Rabs (W k k k) < bpow radix2 emax)%R ->
  (forall j, (k < j < n + n)%N -> y k j = rnd (W k k j * rnd (/ W k k k))) ->
  (forall i j, (i < n)%N -> i <> k -> (k < j < n + n)%N ->
    y i j = rnd (W k i j + rnd (y k j * - W k i k))) ->
  jordan prec emax n k.+1 (stage W k y).
Proof.
move=> klt [h1 h2 h3 h4] p0 pb hy hz.
have sl t : (t <= k)%N -> stage W k y t = W t by rewrite /stage => ->.
have sk : stage W k y k.+1 = y by rewrite /stage ltnn.
split.
- move=> t; rewrite ltnS => tk; rewrite sl //; move: tk; rewrite leq_eqVlt => /orP[/eqP -> //|].
  exact: h1.
- move=> t; rewrite ltnS => tk; rewrite sl //; move: tk; rewrite leq_eqVlt => /orP[/eqP -> //|].
  exact: h2.
- move=> t j; rewrite ltnS leq_eqVlt => /orP[/eqP ->|tk] tj; first by rewrite sk sl //; exact: hy.
  by rewrite !sl //; [exact: h3|exact: ltnW].
- move=> t i j; rewrite ltnS leq_eqVlt => /orP[/eqP ->|tk] ilt it tj.
    by rewrite sk sl //; exact: hz.
  by rewrite !sl //; [exact: h4|exact: ltnW].
Qed.

(** ** The inverse *)
Variable v0 : seq F.
Hypothesis sv0 : size v0 = (n * n)%N.
Hypothesis fv0 : forall k, (k < n * n)%N -> finite (nth d0 v0 k).

Definition jstarts s (W : nat -> nat -> nat -> R) : Prop := permutes n s /\
  forall i j, (i < n)%N -> (j < n)%N ->
    W 0 i j = B2R (nth d0 v0 (s i * n + j)) /\ W 0 i (n + j)%N = if s i == j then 1%R else 0%R.

Definition inv_inv k (q : seq F * seq F) : Prop := exists s W, [/\ jstarts s W,
  jordan prec emax n k W, holds q.1 (W k) & holds q.2 (fun i j => W k i (n + j)%N)].

Theorem jd_try_inv : ensures True (matrix_try_inv cfg A n v0) (fun o =>
  exists k s W, [/\ (k <= n)%N, jstarts s W, jordan prec emax n k W &
      match o with
      | Some w => k = n /\ holds w (fun i j => W n i (n + j)%N)
      | None => (k < n)%N /\ forall i, (k <= i < n)%N -> W k i k = 0%R
      end]).
Proof.
rewrite /matrix_try_inv; apply: ensures_bind jd_one _ => o oE.
have I0 : inv_inv 0 (v0, o).
  exists id, (fun _ i j => if (j < n)%N then B2R (nth d0 v0 (i * n + j))
                     else if i == (j - n)%N then 1%R else 0%R).
  split=> //=.
  - by split=> [|i j ilt jlt]; [split|rewrite jlt ltnNge leq_addr /= addKn].
  - by split=> // i j ilt jlt; rewrite jlt; split=> //; apply: fv0; exact: idx_lt.
  - by apply: holds_ext oE => a b _ blt; rewrite ltnNge leq_addr /= addKn.
apply: ensures_bind
  (@ensures_for_ret _ True _ 0 n _ _ inv_inv (fun _ => exists k s W,
     [/\ (k < n)%N, jstarts s W, jordan prec emax n k W &
      forall i, (k <= i < n)%N -> W k i k = 0%R]) I0 _) _; last first.
  move=> [[w d]|z].
    rewrite /= add0n => -[s [W [sW eW hw hd]]].
    have [szw _] := hw; apply: ensures_bind (jd_debug szw) _ => _ _.
    by apply: ensures_ret; exists n, s, W; split.
  move=> /= [k [s [W [kn sW eW hW]]]]; apply: ensures_ret; exists k, s, W; split=> //.
  exact: ltnW.
move=> k [w d] /andP[_]; rewrite add0n => klt [s [W [/= sW eW hw hd]]].
apply: ensures_bind (lu_find_row cfg prec_gt_0 prec_lt_emax klt hw) _ => -[r [kr rlt nz]|zr]; last first.
  by apply: ensures_ret; exists k, s, W.
have hsw : ensures True (if r != k then
           let! v := swap_rows n w k r in
           let! invs := swap_rows n d k r in
           ret (v, invs)
         else ret (w, d))%rust (fun q =>
    exists s' Y, [/\ jstarts s' Y, jordan prec emax n k Y, holds q.1 (Y k),
      holds q.2 (fun i j => Y k i (n + j)%N) & Y k k k <> 0%R]).
  case: (eqVneq r k) => rk /=.
    by apply: ensures_ret; exists s, W; split=> //; rewrite -{2}rk.
  have kr' : k <> r by move=> h; rewrite h eqxx in rk.
  apply: ensures_bind (lu_swap_rows klt rlt kr' hw) _ => w' w'E.
  apply: ensures_bind (lu_swap_rows klt rlt kr' hd) _ => d' d'E.
  apply: ensures_ret.
  exists (fun i => s (exch k r i)), (fun t i j => W t (exch k r i) j); split=> //.
  - have [[s1 s2] s3] := sW; split.
      split=> [i ilt|i j ilt jlt h]; first by apply: s1; exact: exch_lt.
      by apply: (@exch_inj k r); apply: s2 => //; exact: exch_lt.
    by move=> i j ilt jlt; apply: s3 => //; exact: exch_lt.
  - by apply: jordan_exch => //; rewrite kr.
  - by rewrite /exch eqxx.
apply: ensures_bind hsw _ => -[w1 d1] [s' [Y [/= sY eY hY hD nzY]]].
apply: ensures_bind (holds_get True klt klt hY) _ => c cE.
apply: ensures_bind (rounds_true (fl_inv RA cE nzY) (fun _ h => h)) _ => c' c'E.
apply: ensures_bind (lu_mul_row cfg prec_gt_0 prec_lt_emax klt hY c'E) _ => w2 w2E.
apply: ensures_bind (lu_mul_row cfg prec_gt_0 prec_lt_emax klt hD c'E) _ => d2 d2E.
apply: ensures_bind (jd_clear klt w2E d2E) _ => -[w3 d3] [/= w3E d3E].
apply: ensures_ret.
pose sc b : R := rnd (Y k k b * rnd (/ Y k k k)).
pose y a b : R := if a == k then sc b else rnd (Y k a b + rnd (sc b * - Y k a k)).
exists s', (stage Y k y); split=> /=.
- by have [s1 s2] := sY; split.
- apply: jordan_next => //.
  + by have [fc <-] := cE; exact: abs_B2R_lt_emax.
  + by move=> j jlt; rewrite /y eqxx.
  + by move=> i j ilt /eqP/negbTE ik jlt; rewrite /y eqxx ik.
- rewrite /stage ltnn; apply: holds_ext w3E => a b alt blt; rewrite /y /sc eqxx.
  by case: (eqVneq a k).
- rewrite /stage ltnn; apply: holds_ext d3E => a b alt blt; rewrite /y /sc eqxx.
  by case: (eqVneq a k).
Qed.
End Code.
