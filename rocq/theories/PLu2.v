(** * PLu2.v -- the determinant over floats is an elimination in rounded arithmetic. *)

From Coq Require Import ZArith Reals Lra Lia.
From mathcomp Require Import all_ssreflect zify.
From Flocq Require Import Core BinarySingleNaN.
From Verif Require Import Rust RustFacts Traits Wp MConstr MFloats FloatSpec FloatErrSpec LuSpec.
From Verif Require Import PFloat PFloat4 PFloatErr PLu.

Set Implicit Arguments.
Unset Strict Implicit.
Unset Printing Implicit Defensive.

Section Code.
Variables (cfg : Cfg) (prec emax : Z).
Context (prec_gt_0 : Prec_gt_0 prec) (prec_lt_emax : Prec_lt_emax prec emax).
Local Notation F := (binary_float prec emax).
Local Notation rnd := (rounded prec emax).
Local Notation A := (ApproxFloats cfg prec_gt_0 prec_lt_emax).
Local Notation d0 := (B754_zero false : F).
Implicit Types (v w : seq F) (x y : nat -> nat -> R) (i j k a b : nat).
Let RA := floats_rounding cfg prec_gt_0 prec_lt_emax.

(** Calls *)
Lemma rounds_true (m : M F) t (Q : F -> Prop) : rounds m t ->
  (forall z, float_is z (rnd t) -> Q z) -> ensures True m Q.
Proof. by move=> h; apply: (rounds_ensures h). Qed.
Lemma yields_true p (m : M F) t (Q : F -> Prop) : yields m t ->
  (forall z, float_is z t -> Q z) -> ensures p m Q.
Proof. by move=> [z mz hz] h; left; exists z; split=> //; exact: h. Qed.
Lemma tells_true p (m : M bool) P (Q : bool -> Prop) : tells m P ->
  (forall c : bool, (c <-> P) -> Q c) -> ensures p m Q.
Proof. by move=> [z mz hz] h; left; exists z; split=> //; exact: h. Qed.

Variable n : nat.

Lemma ltSE a k : (a < k.+1)%N = (a == k) || (a < k)%N.
Proof. by rewrite ltnS leq_eqVlt. Qed.

(** ** Matrices *)
Definition holds v x : Prop := size v = (n * n)%N /\
  forall i j, (i < n)%N -> (j < n)%N -> float_is (nth d0 v (i * n + j)) (x i j).

Lemma holds_ext v x y : (forall i j, (i < n)%N -> (j < n)%N -> x i j = y i j) ->
  holds v x -> holds v y.
Proof. by move=> h [sv hv]; split=> // i j ilt jlt; rewrite -h //; exact: hv. Qed.

Lemma idx_lt i j : (i < n)%N -> (j < n)%N -> (i * n + j < n * n)%N.
Proof. by nia. Qed.
Lemma idx_eq a b i j : (b < n)%N -> (j < n)%N -> (a * n + b == i * n + j)%N = (a == i) && (b == j).
Proof.
move=> blt jlt; apply/eqP/andP => [e|[/eqP -> /eqP ->] //].
have h : a = i by nia.
by rewrite h in e *; rewrite eqxx; split=> //; apply/eqP; lia.
Qed.

Lemma holds_get p v x i j : (i < n)%N -> (j < n)%N -> holds v x ->
  ensures p (vget v (i * n + j)) (fun z => float_is z (x i j)).
Proof.
move=> ilt jlt [sv hv]; rewrite (vgetE d0); first by apply: ensures_ret; exact: hv.
by rewrite sv; exact: idx_lt.
Qed.

Lemma holds_set p v x i j z r : (i < n)%N -> (j < n)%N -> holds v x -> float_is z r ->
  ensures p (vset v (i * n + j) z)
    (fun w => holds w (fun a b => if (a == i) && (b == j) then r else x a b)).
Proof.
move=> ilt jlt [sv hv] zr; have lt := idx_lt ilt jlt.
rewrite (vsetE d0) ?sv //; apply: ensures_ret; split.
  by rewrite size_set_nth sv; exact/maxn_idPr.
by move=> a b alt blt; rewrite nth_set_nth /= idx_eq //; case: ifP => // _; exact: hv.
Qed.

Lemma float_reps v : (forall i, (i < size v)%N -> finite (nth d0 v i)) ->
  reps (@float_is prec emax) v (map (@B2R prec emax) v).
Proof.
move=> h; apply: (@reps_nthP _ _ _ d0 0%R); first by rewrite size_map.
by move=> i; rewrite size_map => iv; rewrite (nth_map d0) //; split=> //; exact: h.
Qed.

Lemma lu_mul_row v x i z c : (i < n)%N -> holds v x -> float_is z c ->
  ensures True (mul_row A n v i z)
    (fun w => holds w (fun a b => if a == i then rnd (x i b * c) else x a b)).
Proof.
move=> ilt [sv hv] zc; rewrite /mul_row.
have ini : (i * n + n <= n * n)%N by nia.
apply: ensures_assert_bind; first by rewrite sv.
set s := take n (drop (i * n) v).
have ss : size s = n by rewrite size_takel // size_drop sv; lia.
have ns j : (j < n)%N -> nth d0 s j = nth d0 v (i * n + j) by move=> jn; rewrite nth_take // nth_drop.
have rs : reps (@float_is prec emax) s (map (@B2R prec emax) s).
  by apply: float_reps => j; rewrite ss => jn; rewrite ns //; have [] := hv i j ilt jn.
have hm q r : float_is q r -> ensures True (mul_assign A q z) (fun t => float_is t (rnd (r * c))).
  by move=> qr; apply: (rounds_true (fl_mul_assign RA qr zc)).
apply: ensures_bind (ensures_mapM (g := fun r => rnd (r * c)) rs hm) _ => m mE.
apply: ensures_ret.
have st : size (take (i * n) v) = (i * n)%N by rewrite size_takel // sv; lia.
have sm : size m = n by rewrite (reps_size mE) !size_map.
split; first by rewrite !size_cat st sm size_drop sv; lia.
move=> a b alt blt; rewrite !nth_cat st sm; case: (ltngtP a i) => ai.
- by rewrite ifT ?nth_take //; [exact: hv|nia|nia].
- rewrite ifF; last by apply/negbTE; rewrite -leqNgt; nia.
  rewrite ifF; last by apply/negbTE; rewrite -leqNgt; nia.
  rewrite nth_drop (_ : _ + _ = a * n + b)%N; first exact: hv.
  by nia.
- rewrite ai ltnNge leq_addr /= addKn blt.
  have := reps_nth d0 0%R mE (i := b); rewrite !size_map ss => /(_ blt).
  rewrite (nth_map 0%R) ?size_map ?ss // (nth_map d0) ?ss // ns //.
  by have [_ ->] := hv i b ilt blt.
Qed.

Lemma lu_add_rows v x i j z c : (i < n)%N -> (j < n)%N -> i <> j -> holds v x -> float_is z c ->
  ensures True (add_rows A n v i j z)
    (fun w => holds w (fun a b => if a == j then rnd (x j b + rnd (x i b * c)) else x a b)).
Proof.
move=> ilt jlt ij vx zc; rewrite /add_rows.
pose st k a b : R := if (a == j) && (b < k)%N then rnd (x j b + rnd (x i b * c)) else x a b.
have I0 : holds v (st 0%N) by apply: holds_ext vx => a b _ _; rewrite /st ltn0 andbF.
apply: ensures_mono (@ensures_for _ True 0 n _ _ (fun k w => holds w (st k)) I0 _) _; last first.
  by move=> w; rewrite add0n; apply: holds_ext => a b _ blt; rewrite /st blt andbT.
move=> k w /andP[_]; rewrite add0n => klt wk.
have ij' : (i == j) = false by apply/eqP.
apply: ensures_bind (holds_get True ilt klt wk) _ => q; rewrite {1}/st ij' /= => qE.
apply: ensures_bind (rounds_true (fl_mul RA qE zc) (fun _ h => h)) _ => r rE.
apply: ensures_bind (holds_get True jlt klt wk) _ => t; rewrite {1}/st ltnn andbF => tE.
apply: ensures_bind (rounds_true (fl_add_assign RA tE rE) (fun _ h => h)) _ => t' t'E.
apply: ensures_mono (holds_set True jlt klt wk t'E) _ => w'.
apply: holds_ext => a b _ _; rewrite /st ltSE.
by case: (eqVneq a j) => aj //=; case: (eqVneq b k) => [->|] //=.
Qed.

Definition exch i j a : nat := if a == i then j else if a == j then i else a.
Lemma lu_swap_rows v x i j : (i < n)%N -> (j < n)%N -> i <> j -> holds v x ->
  ensures True (swap_rows n v i j) (fun w => holds w (fun a b => x (exch i j a) b)).
Proof.
move=> ilt jlt ij vx; rewrite /swap_rows.
pose st k a b : R := if (b < k)%N then x (exch i j a) b else x a b.
have I0 : holds v (st 0%N) by apply: holds_ext vx.
apply: ensures_mono (@ensures_for _ True 0 n _ _ (fun k w => holds w (st k)) I0 _) _; last first.
  by move=> w; rewrite add0n; apply: holds_ext => a b _ blt; rewrite /st blt.
move=> k w /andP[_]; rewrite add0n => klt [sw hw].
have hi : (i * n + k < size w)%N by rewrite sw; exact: idx_lt.
have hj : (j * n + k < size w)%N by rewrite sw; exact: idx_lt.
have [w' [rw [sw' nw]]] := swap_returns d0 hi hj.
left; exists w'; split=> //; split; first by rewrite sw'.
move=> a b alt blt; rewrite nw !idx_eq // /st ltSE.
case: (eqVneq b k) => [->|bk]; rewrite ?andbF ?andbT /=; last exact: hw.
have h q : (q < n)%N -> float_is (nth d0 w (q * n + k)) (x q k).
  by move=> qlt; have := hw q k qlt klt; rewrite /st ltnn.
by rewrite /exch; case: eqVneq => [_|ai]; [exact: h|case: eqVneq => [_|aj]; exact: h].
Qed.

Lemma lu_find_row v x k : (k < n)%N -> holds v x ->
  ensures True (find_row A n v k) (fun o => match o with
    | Some r => [/\ (k <= r)%N, (r < n)%N & x r k <> 0%R]
    | None => forall i, (k <= i < n)%N -> x i k = 0%R
    end).
Proof.
move=> klt vx; rewrite /find_row.
have h := @ensures_findM True k (n - k) (fun row => let! e := vget v (row * n + k) in
  notM (is_zero A e)) (fun r => ~~ Req_bool (x r k) 0).
apply: ensures_mono (h _) _ => {h}.
  move=> r; rewrite subnKC; last exact: ltnW.
  move=> /andP[_ rlt]; apply: ensures_bind (holds_get True rlt klt vx) _ => z zE.
  apply: ensures_notM; apply: (tells_true True (fl_is_zero RA zE)) => b hb.
  by apply/idP/idP => [/hb ->|]; [case: Req_bool_spec|case: Req_bool_spec => // e _; apply/hb].
rewrite subnKC; last exact: ltnW.
move=> [r [kr rlt Pr _]|h]; first by split=> //; move: Pr; case: Req_bool_spec.
by move=> i /h; rewrite negbK; case: Req_bool_spec.
Qed.

Lemma holds_rnd v x i j : (i < n)%N -> (j < n)%N -> holds v x -> rnd (x i j) = x i j.
Proof. by move=> ilt jlt [_ hv]; have := gf (hv i j ilt jlt); exact: rnd_gf. Qed.

Lemma lu_det_clear v x k : (k < n)%N -> holds v x ->
  ensures True (det_clear_below A n v k) (fun w => holds w (fun a b =>
    if (k < a)%N then rnd (x a b + rnd (x k b * - x a k)) else x a b)).
Proof.
move=> klt vx; rewrite /det_clear_below.
pose st m a b : R := if (k < a < m)%N then rnd (x a b + rnd (x k b * - x a k)) else x a b.
have I0 : holds v (st k.+1).
  by apply: holds_ext vx => a b _ _; rewrite /st; case: ifP => // /andP[h1 h2]; exfalso; lia.
apply: ensures_mono (@ensures_for _ True k.+1 (n - k.+1) _ _ (fun m w => holds w (st m)) I0 _) _; last first.
  by move=> w; rewrite subnKC //; apply: holds_ext => a b alt _; rewrite /st alt andbT.
rewrite subnKC // => m w /andP[km mlt] wm.
have stm b : st m m b = x m b by rewrite /st ltnn andbF.
have stk b : st m k b = x k b by rewrite /st ltnn.
have sS a b : st m.+1 a b = if a == m then rnd (x m b + rnd (x k b * - x m k)) else st m a b.
  rewrite /st ltSE; case: (eqVneq a m) => [->|am] //=.
  by rewrite km.
apply: ensures_bind (holds_get True mlt klt wm) _ => z; rewrite stm => zE.
apply: ensures_bind (tells_true True (fl_is_zero RA zE) (fun _ h => h)) _ => -[] hb.
  have z0 : x m k = 0%R by exact/hb.
  apply: ensures_ret; apply: (holds_ext _ wm) => a b alt blt; rewrite sS.
  case: eqVneq => // ->; rewrite z0 Ropp_0 Rmult_0_r stm.
  have -> : rnd 0 = 0%R by exact: round_0.
  by rewrite Rplus_0_r -stm (holds_rnd mlt blt wm).
apply: ensures_bind (yields_true True (fl_neg RA zE) (fun _ h => h)) _ => y yE.
have km' : k <> m by lia.
apply: ensures_mono (lu_add_rows klt mlt km' wm yE) _ => w'.
by apply: holds_ext => a b alt blt; rewrite sS stm stk.
Qed.

(** ** The determinant *)
Lemma exch_lt i j a : (i < n)%N -> (j < n)%N -> (a < n)%N -> (exch i j a < n)%N.
Proof. by rewrite /exch; case: ifP => // _; case: ifP. Qed.
Lemma exch_gt i j t a : (t < i)%N -> (t < j)%N -> (t < a)%N -> (t < exch i j a)%N.
Proof. by rewrite /exch; case: ifP => // _; case: ifP. Qed.
Lemma exch_fix i j a : (a < i)%N -> (a < j)%N -> exch i j a = a.
Proof. by move=> h1 h2; rewrite /exch !ltn_eqF. Qed.
Lemma exch_inj i j a b : exch i j a = exch i j b -> a = b.
Proof.
rewrite /exch.
by case: (a =P i); case: (a =P j); case: (b =P i); case: (b =P j); lia.
Qed.

Lemma elimination_exch k r X : (k < n)%N -> (k <= r < n)%N -> elimination prec emax n k X ->
  elimination prec emax n k (fun t i j => X t (exch k r i) j).
Proof.
move=> klt /andP[kr rlt] [h1 h2 h3 h4].
have ft t : (t < k)%N -> exch k r t = t by move=> tk; apply: exch_fix => //; lia.
split.
- by move=> t tk; rewrite ft //; exact: h1.
- by move=> t tk; rewrite ft //; exact: h2.
- by move=> t j tk tj; rewrite ft //; exact: h3.
- move=> t i j tk /andP[ti ilt] tj; rewrite (ft t) //; apply: h4 => //.
  by rewrite exch_gt ?exch_lt //; lia.
Qed.

Definition stage (X : nat -> nat -> nat -> R) k (y : nat -> nat -> R) t : nat -> nat -> R :=
  if (t <= k)%N then X t else y.

Lemma elimination_next k X y : (k < n)%N -> elimination prec emax n k X ->
  X k k k <> 0%R -> (Rabs (X k k k) < bpow radix2 emax)%R ->
  (forall j, (k < j < n)%N -> y k j = rnd (X k k j * rnd (/ X k k k))) ->
  (forall i j, (k < i < n)%N -> (k < j < n)%N -> y i j = rnd (X k i j + rnd (y k j * - X k i k))) ->
  elimination prec emax n k.+1 (stage X k y).
Proof.
move=> klt [h1 h2 h3 h4] p0 pb hy hz.
have sl t : (t <= k)%N -> stage X k y t = X t by rewrite /stage => ->.
have sk : stage X k y k.+1 = y by rewrite /stage ltnn.
split.
- move=> t; rewrite ltnS => tk; rewrite sl //; move: tk; rewrite leq_eqVlt => /orP[/eqP -> //|].
  exact: h1.
- move=> t; rewrite ltnS => tk; rewrite sl //; move: tk; rewrite leq_eqVlt => /orP[/eqP -> //|].
  exact: h2.
- move=> t j; rewrite ltnS leq_eqVlt => /orP[/eqP ->|tk] tj; first by rewrite sk sl //; exact: hy.
  by rewrite !sl //; [exact: h3|exact: ltnW].
- move=> t i j; rewrite ltnS leq_eqVlt => /orP[/eqP ->|tk] ti tj.
    by rewrite sk sl //; exact: hz.
  by rewrite !sl //; [exact: h4|exact: ltnW].
Qed.

Lemma pivot_ext k X Y : (forall t, (t < k)%N -> X t t t = Y t t t) ->
  pivot_product prec emax X k = pivot_product prec emax Y k.
Proof. by elim: k => //= k IH h; rewrite IH ?h // => t tk; apply: h; exact: ltnW. Qed.

Variable v0 : seq F.
Hypothesis sv0 : size v0 = (n * n)%N.
Hypothesis fv0 : forall k, (k < n * n)%N -> finite (nth d0 v0 k).

Definition starts (X : nat -> nat -> nat -> R) : Prop := exists s, permutes n s /\
  forall i j, (i < n)%N -> (j < n)%N -> X 0 i j = B2R (nth d0 v0 (s i * n + j)).

Definition det_inv k (q : seq F * F) : Prop := exists X, [/\ starts X, elimination prec emax n k X,
  holds q.1 (X k) & float_is q.2 (pivot_product prec emax X k)].

Theorem lu_determinant : ensures True (determinant A n v0) (fun z => exists k X,
  [/\ (k <= n)%N, starts X, elimination prec emax n k X &
      if k == n then float_is z (pivot_product prec emax X n)
      else float_is z 0%R /\ forall i, (k <= i < n)%N -> X k i k = 0%R]).
Proof.
rewrite /determinant.
apply: ensures_bind (yields_true True (fl_one RA) (fun _ h => h)) _ => o oE.
have I0 : det_inv 0 (v0, o).
  exists (fun _ i j => B2R (nth d0 v0 (i * n + j))); split=> //=.
    by exists id; split.
  by split=> // i j ilt jlt; split=> //; apply: fv0; exact: idx_lt.
apply: ensures_bind
  (@ensures_for_ret _ True _ 0 n _ _ det_inv (fun z => exists k X,
     [/\ (k < n)%N, starts X, elimination prec emax n k X &
      float_is z 0%R /\ forall i, (k <= i < n)%N -> X k i k = 0%R]) I0 _) _; last first.
  move=> [[w d]|z].
    rewrite /= add0n => -[X [sX eX hX dX]]; apply: ensures_ret; exists n, X; split=> //.
    by rewrite eqxx.
  move=> /= [k [X [kn sX eX hX]]]; apply: ensures_ret; exists k, X; split=> //; first exact: ltnW.
  by rewrite ltn_eqF.
move=> k [w d] /andP[_]; rewrite add0n => klt [X [/= sX eX hX dX]].
apply: ensures_bind (lu_find_row klt hX) _ => -[r [kr rlt nz]|zr]; last first.
  apply: ensures_bind (yields_true True (fl_zero RA) (fun _ h => h)) _ => z zE; apply: ensures_ret.
  by exists k, X.
have hsw : ensures True (if r != k then swap_rows n w k r else ret w) (fun w' =>
    exists Y, [/\ starts Y, elimination prec emax n k Y, holds w' (Y k),
      Y k k k <> 0%R & pivot_product prec emax Y k = pivot_product prec emax X k]).
  case: (eqVneq r k) => rk /=.
    by apply: ensures_ret; exists X; split=> //; rewrite -{2}rk.
  have kr' : k <> r by move=> h; rewrite h eqxx in rk.
  apply: ensures_mono (lu_swap_rows klt rlt kr' hX) _ => w' w'E.
  exists (fun t i j => X t (exch k r i) j); split=> //.
  - have [s [[s1 s2] s3]] := sX; exists (fun i => s (exch k r i)); split.
      split=> [i ilt|i j ilt jlt h]; first by apply: s1; exact: exch_lt.
      by apply: (@exch_inj k r); apply: s2 => //; exact: exch_lt.
    by move=> i j ilt jlt; rewrite s3 //; exact: exch_lt.
  - by apply: elimination_exch => //; rewrite kr.
  - by rewrite /exch eqxx.
  - by apply: pivot_ext => t tk; rewrite exch_fix //; lia.
apply: ensures_bind hsw _ => w1 [Y [sY eY hY nzY pE]].
apply: ensures_bind (holds_get True klt klt hY) _ => c cE.
rewrite -pE in dX; apply: ensures_bind (rounds_true (fl_mul_assign RA dX cE) (fun _ h => h)) _ => d1 d1E.
apply: ensures_bind (rounds_true (fl_inv RA cE nzY) (fun _ h => h)) _ => c' c'E.
apply: ensures_bind (lu_mul_row klt hY c'E) _ => w2 w2E.
apply: ensures_bind (lu_det_clear klt w2E) _ => w3 w3E.
apply: ensures_ret.
set y := (fun a b => _) in w3E; exists (stage Y k y); split=> /=.
- by have [s [s1 s2]] := sY; exists s; split.
- apply: elimination_next => //.
  + by have [fc <-] := cE; exact: abs_B2R_lt_emax.
  + by move=> j jlt; rewrite /y ltnn eqxx.
  + move=> i j /andP[ki ilt] jlt; rewrite /y ltnn ki eqxx gtn_eqF //.
- by rewrite /stage ltnn.
- rewrite (@pivot_ext k (stage Y k y) Y) => [|t tk]; last by rewrite /stage (ltnW tk).
  by rewrite /stage leqnn.
Qed.
End Code.
