(** * PFit.v -- eliminations where only some arithmetic is known not to panic. *)

From Coq Require Import ZArith Lia List.
From mathcomp Require Import all_ssreflect all_fingroup all_algebra zify.
From Verif Require Import Rust Traits MInts MConstr RingTac Wp Spec PDefaults PEucl.
From Verif Require Import POrders PVec MatFacts PIntsZ PMat FitSpec PMinor.

Set Implicit Arguments.
Unset Strict Implicit.
Unset Printing Implicit Defensive.

Import GRing.Theory.
Local Open Scope ring_scope.

(** The arithmetic does not panic on elements satisfying [good]. *)
Record fit_spec (E : Type) (F : fieldType) (rep : E -> F -> Prop) (good : F -> Prop)
    (A : FieldAlg E) : Prop := {
  fit_zero : ensures False (zero A) (rep^~ 0);
  fit_one : ensures False (one A) (rep^~ 1);
  fit_int1 : ensures False (int A (Zpos xH)) (rep^~ 1);
  fit_is_zero : forall x a, rep x a -> ensures False (is_zero A x) (fun b => b = (a == 0));
  fit_equals : forall x a y b, rep x a -> rep y b ->
    ensures False (equals A x y) (fun c => c = (a == b));
  fit_mul : forall x a y b, rep x a -> rep y b -> good a -> good b ->
    ensures False (mul A x y) (rep^~ (a * b));
  fit_mul_assign : forall x a y b, rep x a -> rep y b -> good a -> good b ->
    ensures False (mul_assign A x y) (rep^~ (a * b));
  fit_add_assign : forall x a y b c, rep x a -> rep y (b * c) -> good a -> good b -> good c ->
    ensures False (add_assign A x y) (rep^~ (a + b * c));
  fit_neg : forall x a, rep x a -> good a -> ensures False (neg A x) (rep^~ (- a));
  fit_inv : forall x a, rep x a -> good a -> a != 0 -> ensures False (finv A x) (rep^~ a^-1);
  good_neg : forall a, good a -> good (- a);
  good_inv : forall a, good a -> a != 0 -> good a^-1
}.

Section Fit.
Variables (cfg : Cfg) (E : Type) (F : fieldType) (rep : E -> F -> Prop) (good : F -> Prop).
Variable A : FieldAlg E.
Hypothesis hF : fit_spec rep good A.
Variable n : nat.
Local Notation mrep := (@mat_rep n E F rep).
Implicit Types (N T U : 'M[F]_n) (v w : seq E).

(** ** Row operations *)

Lemma fit_mul_row v N i (ilt : (i < n)%N) x c : mrep v N -> rep x c -> good c ->
  (forall b, good (N (Ordinal ilt) b)) ->
  ensures False (mul_row A n v i x) (fun w => mrep w (rscale (Ordinal ilt) c N)).
Proof.
move=> [r [vr sr rE]] xc gc gr; rewrite /mul_row.
have ini : (i * n + n <= n * n)%N by nia.
apply: ensures_assert_bind; first by rewrite (reps_size vr) sr.
have vr' : reps (fun y a => rep y a /\ good a) (take n (drop (i * n) v)) (take n (drop (i * n) r)).
  have h := reps_take n (reps_drop (i * n) vr).
  case: v vr h => [|x0 v] vr h.
    by move: h; rewrite /=; case: (take n (drop _ r)) => [|a s] h; [exact: reps_nil|inversion h].
  apply: (@reps_nthP _ _ _ x0 0); first exact: reps_size h.
  move=> j; rewrite size_takel ?size_drop ?sr; last lia.
  move=> jn; split.
    by apply: reps_nth h _; rewrite size_takel ?size_drop ?sr //; lia.
  by rewrite nth_take // nth_drop; have := gr (Ordinal jn); rewrite rE.
have hm y a : rep y a /\ good a -> ensures False (mul_assign A y x) (fun z => rep z (a * c)).
  by move=> [ya ga]; exact: (fit_mul_assign hF ya xc).
apply: ensures_bind (ensures_mapM (g := fun a => a * c) vr' hm) _ => s sE.
apply: ensures_ret.
set m := [seq a * c | a <- _] in sE.
have st : size (take (i * n) r) = (i * n)%N by rewrite size_takel // sr; lia.
have sm : size m = n.
  by rewrite size_map size_takel // size_drop sr; lia.
exists (take (i * n) r ++ m ++ drop (i * n + n) r); split.
- apply: reps_cat; first exact: reps_take.
  by apply: reps_cat => //; exact: reps_drop.
- by rewrite !size_cat st sm size_drop sr; lia.
- move=> a b; rewrite mxE -(inj_eq val_inj) /= !rE !nth_cat st sm.
  case: (ltngtP a i) => ai.
  + by rewrite ifT ?nth_take //; have := ltn_ord b; nia.
  + rewrite ifF; last by apply/negbTE; rewrite -leqNgt; nia.
    rewrite ifF; last by apply/negbTE; rewrite -leqNgt; nia.
    by rewrite nth_drop; congr (_`__); nia.
  + rewrite ai ltnNge leq_addr /= addKn ltn_ord (nth_map 0).
      by rewrite nth_take // nth_drop.
    by rewrite size_takel // size_drop sr; lia.
Qed.

Lemma fit_add_rows v N i j (ilt : (i < n)%N) (jlt : (j < n)%N) x c : i <> j ->
  mrep v N -> rep x c -> good c -> (forall b, good (N (Ordinal ilt) b)) ->
  (forall b, good (N (Ordinal jlt) b)) ->
  ensures False (add_rows A n v i j x) (fun w => mrep w (radd (Ordinal ilt) (Ordinal jlt) c N)).
Proof.
move=> ij vN xc gc gi gj; rewrite /add_rows.
set oi := Ordinal ilt; set oj := Ordinal jlt.
have oij : (oi == oj) = false by apply/negbTE/eqP => -[].
pose st k : 'M[F]_n :=
  \matrix_(a, b) (if (a == oj) && (b < k)%N then N oj b + N oi b * c else N a b).
have I0 : mrep v (st 0%N).
  rewrite (_ : st 0%N = N) //; apply/matrixP => a b; rewrite mxE ltn0 andbF.
  by [].
apply: ensures_mono (@ensures_for _ False 0 n _ _ (fun k w => mrep w (st k)) I0 _) _; last first.
  move=> w; rewrite add0n (_ : st n = radd oi oj c N) //.
  by apply/matrixP => a b; rewrite !mxE ltn_ord andbT.
move=> k w /andP[_]; rewrite add0n => klt wk.
apply: ensures_bind (mrep_get False ilt klt wk) _ => y yE.
have e1 : st k oi (Ordinal klt) = N oi (Ordinal klt) by rewrite mxE oij.
have e2 : st k oj (Ordinal klt) = N oj (Ordinal klt) by rewrite mxE eqxx /= ltnn.
rewrite -/oi e1 in yE.
apply: ensures_bind (fit_mul hF yE xc (gi _) gc) _ => z zE.
apply: ensures_bind (mrep_get False jlt klt wk) _ => u uE.
rewrite -/oj e2 in uE.
apply: ensures_bind (fit_add_assign hF uE zE (gj _) (gi _) gc) _ => t tE.
apply: ensures_mono (mrep_set False jlt klt wk tE) _ => w' w'E.
rewrite (_ : st k.+1 = mset (st k) j k (N oj (Ordinal klt) + N oi (Ordinal klt) * c)) //.
apply/matrixP => a b; rewrite !mxE /= -(inj_eq val_inj) /=.
rewrite ltnSE'; case: (eqVneq (a : nat) j) => aj //=.
case: (eqVneq (b : nat) k) => bk //=.
by have -> : b = Ordinal klt by exact: val_inj.
Qed.

Lemma fit_find_row v N k (klt : (k < n)%N) : mrep v N ->
  ensures False (find_row A n v k) (fun o => match o with
    | Some row => exists rlt : (row < n)%N, [/\ (k <= row)%N,
        N (Ordinal rlt) (Ordinal klt) != 0 &
        forall a : 'I_n, (k <= a < row)%N -> N a (Ordinal klt) = 0]
    | None => forall a : 'I_n, (k <= a)%N -> N a (Ordinal klt) = 0
    end).
Proof.
move=> vN; rewrite /find_row.
pose P row := if @insub _ (fun i => i < n)%N _ row is Some a
  then N a (Ordinal klt) != 0 else false.
have PE row (rlt : (row < n)%N) : P row = (N (Ordinal rlt) (Ordinal klt) != 0).
  by rewrite /P (insubT (fun i => i < n)%N rlt).
have h := @ensures_findM False k (n - k) (fun row => let! x := vget v (row * n + k) in
  notM (is_zero A x)) P.
apply: ensures_mono (h _) _ => {h}.
  move=> row; rewrite subnKC; last exact: ltnW.
  move=> /andP[_ rlt]; rewrite (PE _ rlt).
  apply: ensures_bind (mrep_get False rlt klt vN) _ => x xE.
  exact: (ensures_notM (fit_is_zero hF xE)).
rewrite subnKC; last exact: ltnW.
move=> [row [kr rlt Prow hj]|h].
  exists rlt; split=> //; first by rewrite -PE.
  move=> a /hj; rewrite (PE _ (ltn_ord a)) ordE negbK; exact/eqP.
move=> a ka; apply/eqP; have := h a; rewrite ka ltn_ord => /(_ isT).
by rewrite (PE _ (ltn_ord a)) ordE negbK.
Qed.

(** ** The determinant *)
Section Det.
Variable N0 : 'M[F]_n.
Hypothesis hN0 : forall q, ratio (N0 : 'I_n -> 'I_n -> F) q -> good q.
Local Notation id' := (fun b : 'I_n => b).

(** [N] is reached from [N0]: [k] columns are done and [c] is the product of the
    pivots *)
Definition reached k (c : F) (N : 'M[F]_n) : Prop :=
  exists2 s : 'S_n, prop k c N (fperm s N0) & funi id' k N.

Lemma reached_good k c N (a : 'I_n) b : (k <= n)%N -> c != 0 -> reached k c N -> (k <= a)%N ->
  good (N a b).
Proof.
move=> kn c0 [s hp hu] ka; apply: hN0; apply: (@ratio_perm _ _ _ _ s).
exact: (@ratio_below _ _ _ id' k c N _ a b kn c0 hu hp ka).
Qed.
Lemma reached_lead k c N : (k <= n)%N -> reached k c N -> good c.
Proof.
move=> kn [s hp hu]; apply: hN0; apply: (@ratio_perm _ _ _ _ s).
exact: (@ratio_lead _ _ _ id' k c N _ kn hu hp).
Qed.

Lemma reached_xrow k c N (klt : (k < n)%N) (row : 'I_n) : (k <= row)%N -> reached k c N ->
  reached k c (xrow (Ordinal klt) row N).
Proof.
move=> kr [s hp [h1 h2]]; set ok := Ordinal klt.
have fx (i : 'I_n) : (i < k)%N -> tperm ok row i = i.
  by move=> ik; rewrite tpermD //; apply/eqP => /(congr1 val) /=; lia.
exists (tperm ok row * s)%g.
  apply: prop_ext (prop_perm (s := tperm ok row) fx hp) => a b; first by rewrite mxE.
  by rewrite /fperm permM.
split=> [a b bk ba|a ak]; rewrite mxE; last by rewrite fx // h2.
apply: h1 => //; case: tpermP => [_|_|//]; last by rewrite /=.
exact: leq_trans kr.
Qed.

(** Clearing the column below a pivot that is one. *)
Lemma fit_det_clear v c N k (klt : (k < n)%N) : mrep v N ->
  funi id' k N -> N (Ordinal klt) (Ordinal klt) = 1 ->
  (exists s : 'S_n, prop k.+1 c N (fperm s N0)) ->
  (forall b, good (N (Ordinal klt) b)) ->
  (forall (a : 'I_n) b, (k < a)%N -> good (N a b)) ->
  ensures False (det_clear_below A n v k) (fun w => exists2 N', mrep w N' & reached k.+1 c N').
Proof.
move=> vN [cN dN] pN [s hp] gk ga; set ok := Ordinal klt.
pose I row w := exists2 N', mrep w N' & [/\ funi id' k N',
  forall b, N' ok b = N ok b,
  forall (a : 'I_n), (k < a < row)%N -> N' a ok = 0,
  forall (a : 'I_n) b, (row <= a)%N -> N' a b = N a b &
  prop k.+1 c N' (fperm s N0)].
have I0 : I k.+1 v.
  by exists N => //; split=> // a /andP[h1 h2]; exfalso; lia.
apply: ensures_mono (@ensures_for _ False k.+1 (n - k.+1) _ _ I I0 _) _; last first.
  rewrite subnKC // => w [N' wN' [[c1 c2] c3 c4 c5 c6]]; exists N' => //; exists s => //; split.
    move=> a b; rewrite ltnSE' => /orP[/eqP bk|bk] ba; last exact: c1.
    have -> : b = ok by exact: val_inj.
    by apply: c4; rewrite -bk ba ltn_ord.
  move=> a; rewrite ltnSE' => /orP[/eqP ak|ak]; last exact: c2.
  by have -> : a = ok; [exact: val_inj|rewrite c3].
rewrite subnKC // => row w /andP[kr rlt] [N' wN' [[c1 c2] c3 c4 c5 c6]].
set or := Ordinal rlt.
apply: ensures_bind (mrep_get False rlt klt wN') _ => x xE.
apply: ensures_bind (fit_is_zero hF xE) _ => b ->; case: eqVneq => x0.
  apply: ensures_ret; exists N' => //; split=> //.
    move=> a /andP[ka]; rewrite ltnSE' => /orP[/eqP ar|ar]; last by apply: c4; rewrite ka.
    by have -> : a = or by exact: val_inj.
  by move=> a d ra; apply: c5; exact: ltnW.
have gx : good (N' or ok) by rewrite c5 //; exact: ga.
apply: ensures_bind (fit_neg hF xE gx) _ => y yE.
have krn : k <> row by lia.
have g1 d : good (N' ok d) by rewrite c3.
have g2 d : good (N' or d) by rewrite c5 //; exact: ga.
apply: ensures_mono (fit_add_rows krn wN' yE (good_neg hF gx) g1 g2) _ => w' w'E.
have orn : or != ok by apply/eqP => /(congr1 val) /= h; case: krn.
have okn : (ok == or) = false by rewrite eq_sym (negbTE orn).
eexists; first exact: w'E; split.
- split=> [a d dk da|a ak]; rewrite mxE; case: eqP => ar //; try exact: c1; try exact: c2.
    have -> : N' ok d = 0 by exact: c1.
    by have -> : N' or d = 0; [apply: c1 => //=; exact: ltn_trans kr|rewrite mul0r addr0].
  by have /= := congr1 val ar; lia.
- by move=> d; rewrite mxE okn.
- move=> a /andP[ka]; rewrite ltnSE' mxE => h; case: eqP => [_|ar].
    by rewrite c3 pN mul1r subrr.
  by apply: c4; rewrite ka /=; case/orP: h => // /eqP h; case: ar; exact: val_inj.
- move=> a d ra; rewrite mxE; case: eqP => [ar|_]; last by apply: c5; exact: ltnW.
  by move: ra; rewrite ar /= ltnn.
- apply: prop_ext (prop_add (i := ok) (j := or) (- N' or ok) _ _ c6) => [a d|//||].
  + by rewrite mxE /fadd; case: eqP => // ->.
  + by rewrite /=.
  + by rewrite eq_sym.
Qed.

Lemma fit_determinant v : mrep v N0 -> ensures False (determinant A n v) (fun _ => True).
Proof.
move=> vN; rewrite /determinant.
apply: ensures_bind (fit_one hF) _ => o oE.
pose I k (s : seq E * E) := exists N' d, [/\ mrep s.1 N', rep s.2 d, d != 0 & reached k d N'].
have I0 : I 0%N (v, o).
  exists N0, 1; split=> //; first exact: oner_neq0.
  exists 1%g; last by split.
  by apply: prop_ext (prop_refl _) => // a b; rewrite /fperm perm1.
apply: ensures_bind
  (@ensures_for_ret _ False _ 0 n _ _ I (fun z => True) I0 _) _; last first.
  by move=> [[w d] _|z _]; exact: ensures_ret.
move=> k [w d] /andP[_]; rewrite add0n => klt [N' [d' [/= wN' dd d0 hr]]].
apply: ensures_bind (fit_find_row klt wN') _ => -[row [rlt [kr nz _]]|zr]; last first.
  by apply: ensures_bind (fit_zero hF) _ => z _; apply: ensures_ret.
set ok := Ordinal klt; set or := Ordinal rlt in nz.
have hsw : ensures False (if row != k then swap_rows n w k row else ret w) (fun w' =>
    exists N1, [/\ mrep w' N1, reached k d' N1 & N1 ok ok != 0]).
  case: eqVneq => rk /=.
    apply: ensures_ret; exists N'; split=> //; move: nz.
    by rewrite (_ : or = ok) //; exact: val_inj.
  have krn : k <> row by move=> h; rewrite h eqxx in rk.
  apply: ensures_mono (mat_swap_rows False klt rlt krn wN') _ => w' w'E.
  by exists (xrow ok or N'); split=> //; [exact: reached_xrow|rewrite xrow_entry tpermL].
apply: ensures_bind hsw _ => w1 [N1 [w1E hr1 nz1]].
have kn := ltnW klt.
have g1 (a : 'I_n) b : (k <= a)%N -> good (N1 a b) by move=> ka; exact: (reached_good _ kn d0 hr1 ka).
apply: ensures_bind (mrep_get False klt klt w1E) _ => x xE.
have gk b : good (N1 ok b) by apply: g1 => /=.
have gp := gk ok.
apply: ensures_bind (fit_mul_assign hF dd xE (reached_lead kn hr1) gp) _ => d1 d1E.
apply: ensures_bind (fit_inv hF xE gp nz1) _ => y yE.
apply: ensures_bind (fit_mul_row w1E yE (good_inv hF gp nz1) gk) _ => w2 w2E.
have [s hp [h1 h2]] := hr1.
have nk (a : 'I_n) : (a < k)%N || (k < a)%N -> (a == ok) = false.
  by move=> h; apply/eqP => /(congr1 val) /= e; rewrite e ltnn in h.
apply: (ensures_bind (@fit_det_clear _ (d' * N1 ok ok) _ k klt w2E _ _ _ _ _)) => [|||||w3].
- split=> [a b bk ba|a ak]; rewrite mxE; last by rewrite nk ?ak // h2.
  by rewrite h1 // mul0r if_same.
- by rewrite mxE eqxx divff.
- have e0 : (N1 ok ok)^-1 != 0 by rewrite invr_eq0.
  have kk : (ok < k.+1)%N by rewrite /=.
  have := prop_scale kk e0 (prop_mono (leqnSn k) hp); rewrite invrK => h; exists s.
  by apply: prop_ext h => // a b; rewrite mxE /fscale; case: eqP => // ->.
- move=> b; rewrite mxE eqxx; apply: hN0; apply: (@ratio_perm _ _ _ _ s).
  exact: (@ratio_quot _ _ _ id' k d' N1 _ ok ok b ok kn d0 (conj h1 h2) hp).
- by move=> a b ka; rewrite mxE nk ?ka ?orbT //; apply: g1; exact: ltnW.
move=> [N3 w3E hr3]; apply: ensures_ret; exists N3, (d' * N1 ok ok); split=> //.
exact: mulf_neq0.
Qed.
End Det.

(** ** The inverse *)
Definition aug (N T : 'M[F]_n) (a : 'I_n) (b : 'I_n + 'I_n) : F :=
  match b with inl b => N a b | inr b => T a b end.

Section Inv.
Variable N0 : 'M[F]_n.
Hypothesis hN0 : forall q, ratio (aug N0 1%:M) q -> good q.
Local Notation col := (fun b : 'I_n => inl b : 'I_n + 'I_n).

Definition ireached k (N T : 'M[F]_n) : Prop :=
  exists (s : 'S_n) c, [/\ c != 0, prop k c (aug N T) (fperm s (aug N0 1%:M)) &
    fidc col k (aug N T)].

Lemma ireached_good k N T (a : 'I_n) b : (k <= n)%N -> ireached k N T -> good (aug N T a b).
Proof.
move=> kn [s [c [c0 hp hu]]]; apply: hN0; apply: (@ratio_perm _ _ _ _ s).
exact: (@ratio_any _ _ _ col k c _ _ a b kn c0 hu hp).
Qed.

Lemma ireached_xrow k N T (klt : (k < n)%N) (row : 'I_n) : (k <= row)%N -> ireached k N T ->
  ireached k (xrow (Ordinal klt) row N) (xrow (Ordinal klt) row T).
Proof.
move=> kr [s [c [c0 hp hu]]]; set ok := Ordinal klt.
have fx (i : 'I_n) : (i < k)%N -> tperm ok row i = i.
  by move=> ik; rewrite tpermD //; apply/eqP => /(congr1 val) /=; lia.
exists (tperm ok row * s)%g, c; split=> //.
  apply: prop_ext (prop_perm (s := tperm ok row) fx hp) => a b; first by case: b => b; rewrite /= mxE.
  by rewrite /fperm permM.
move=> a b bk; rewrite /= mxE; have /= -> := hu (tperm ok row a) b bk.
by congr (_%:R); rewrite -{1}(fx b bk) (inj_eq perm_inj).
Qed.

Lemma fit_inv_clear v w N T k (klt : (k < n)%N) : mrep v N -> mrep w T ->
  fidc col k (aug N T) -> N (Ordinal klt) (Ordinal klt) = 1 ->
  (exists (s : 'S_n) c, c != 0 /\ prop k.+1 c (aug N T) (fperm s (aug N0 1%:M))) ->
  (forall a b, good (aug N T a b)) ->
  ensures False (inv_clear_others A n (v, w) k) (fun vw => exists N' T',
    [/\ mrep vw.1 N', mrep vw.2 T' & ireached k.+1 N' T']).
Proof.
move=> vN wT iN kN [s [c [c0 hp]]] ga; set ok := Ordinal klt.
pose I row (vw : seq E * seq E) := exists N' T',
  [/\ mrep vw.1 N', mrep vw.2 T', prop k.+1 c (aug N' T') (fperm s (aug N0 1%:M)),
      forall b, aug N' T' ok b = aug N T ok b &
   [/\ fidc col k (aug N' T'),
    forall a : 'I_n, (a < row)%N -> a <> ok -> N' a ok = 0 &
    forall (a : 'I_n) b, (row <= a)%N -> aug N' T' a b = aug N T a b]].
have I0 : I 0%N (v, w) by exists N, T.
apply: ensures_mono (@ensures_for _ False 0 n _ _ I I0 _) _; last first.
  rewrite add0n => vw [N' [T' [h1 h2 h3 h4 [h5 h6 h7]]]]; exists N', T'; split=> //.
  exists s, c; split=> // a b; rewrite ltnSE' => /orP[/eqP bk|]; last exact: h5.
  have -> : b = ok by exact: val_inj.
  case: eqVneq => [->|/eqP ne] //; first by rewrite h4.
  by rewrite /= h6.
move=> row [v' w'] /andP[_]; rewrite add0n => rlt.
move=> [N' [T' [/= h1 h2 h3 h4 [h5 h6 h7]]]].
case: eqVneq => rk.
  apply: ensures_ret; exists N', T'; split=> //; split=> // a.
    rewrite ltnSE'; case/orP => [/eqP ar|ar] ne; last exact: h6.
    by case: ne; apply: val_inj; rewrite /= -rk.
  by move=> b ra; apply: h7; exact: ltnW.
set or := Ordinal rlt.
apply: ensures_bind (mrep_get False rlt klt h1) _ => x xE.
apply: ensures_bind (fit_is_zero hF xE) _ => b ->; case: eqVneq => x0.
  apply: ensures_ret; exists N', T'; split=> //; split=> // a.
    rewrite ltnSE'; case/orP => [/eqP ar|ar] ne; last exact: h6.
    by have -> : a = or by exact: val_inj.
  by move=> d ra; apply: h7; exact: ltnW.
have gx : good (N' or ok) by have /= -> := h7 or (inl ok) (leqnn _); exact: (ga or (inl ok)).
apply: ensures_bind (fit_neg hF xE gx) _ => y yE.
have krn : k <> row by move=> h; rewrite h eqxx in rk.
have g1 d : good (aug N' T' ok d) by rewrite h4.
have g2 d : good (aug N' T' or d) by rewrite h7 //.
apply: ensures_bind (fit_add_rows krn h1 yE (good_neg hF gx) (fun d => g1 (inl d)) (fun d => g2 (inl d))) _ => v2 v2E.
apply: ensures_bind (fit_add_rows krn h2 yE (good_neg hF gx) (fun d => g1 (inr d)) (fun d => g2 (inr d))) _ => w2 w2E.
have kr : ok != or by apply/eqP => -[].
have e a d : aug (radd ok or (- N' or ok) N') (radd ok or (- N' or ok) T') a d =
    fadd ok or (- N' or ok) (aug N' T') a d.
  by case: d => d; rewrite /= mxE /fadd.
apply: ensures_ret; do 2 eexists; split; [exact: v2E|exact: w2E| | |split].
- by apply: prop_ext (prop_add (i := ok) (j := or) (- N' or ok) _ kr h3) => // a d; rewrite e.
- by move=> d; rewrite e /fadd (negbTE kr).
- move=> a d dk; rewrite e /fadd; case: eqP => [->|_]; last exact: h5.
  rewrite (h5 ok d dk) (_ : (ok == d) = false) ?mul0r ?addr0; last first.
    by apply/eqP => /(congr1 val) /= q; rewrite -q ltnn in dk.
  exact: h5.
- move=> a; rewrite ltnSE' => h ne; have /= -> := e a (inl ok); rewrite /fadd.
  case: eqP => [_|ar].
    have /= -> := h4 (inl ok); rewrite kN mul1r subrr //.
  apply: h6 => //; case/orP: h => // /eqP h; case: ar; exact: val_inj.
- move=> a d ra; rewrite e /fadd; case: eqP => [ar|_]; last by apply: h7; exact: ltnW.
  by move: ra; rewrite ar /= ltnn.
Qed.

Lemma fit_inv_loop v o : mrep v N0 -> mrep o 1%:M ->
  ensures False (for_loop_ret 0 n (inv_step A n) (v, o)) (fun r => match r with
    | inl s => mrep s.1 1%:M
    | inr _ => True
    end).
Proof.
move=> vN oE.
pose I k (s : seq E * seq E) := exists N' T', [/\ mrep s.1 N', mrep s.2 T' & ireached k N' T'].
have I0 : I 0%N (v, o).
  exists N0, 1%:M; split=> //; exists 1%g, 1; split=> //; first exact: oner_neq0.
  by apply: prop_ext (prop_refl _) => // a b; rewrite /fperm perm1.
apply: (ensures_mono
  (@ensures_for_ret _ False _ 0 n _ _ I (fun _ => True) I0 _)).
  move=> k [w t] /andP[_]; rewrite add0n => klt [N' [T' [/= wN' tT' hr]]].
  rewrite /inv_step.
  apply: ensures_bind (fit_find_row klt wN') _ => -[row [rlt [kr nz _]]|zr]; last first.
    exact: ensures_ret.
  set ok := Ordinal klt; set or := Ordinal rlt in nz.
  have hsw : ensures False (if row != k then
           let! v := swap_rows n w k row in
           let! invs := swap_rows n t k row in
           ret (v, invs)
         else ret (w, t)) (fun s => exists N1 T1, [/\ mrep s.1 N1, mrep s.2 T1,
           ireached k N1 T1 & N1 ok ok != 0]).
    case: eqVneq => rk /=.
      apply: ensures_ret; exists N', T'; split=> //.
      by move: nz; rewrite (_ : or = ok) //; exact: val_inj.
    have krn : k <> row by move=> h; rewrite h eqxx in rk.
    apply: ensures_bind (mat_swap_rows False klt rlt krn wN') _ => w1 w1E.
    apply: ensures_bind (mat_swap_rows False klt rlt krn tT') _ => t1 t1E.
    apply: ensures_ret; do 2 eexists; split; [exact: w1E|exact: t1E| |].
      exact: ireached_xrow.
    by rewrite xrow_entry tpermL.
  apply: ensures_bind hsw _ => -[w1 t1] [N1 [T1 [/= w1E t1E hr1 nz1]]].
  have kn := ltnW klt.
  have g1 a b : good (aug N1 T1 a b) by exact: ireached_good hr1.
  apply: ensures_bind (mrep_get False klt klt w1E) _ => x xE.
  have gp : good (N1 ok ok) by exact: (g1 ok (inl ok)).
  apply: ensures_bind (fit_inv hF xE gp nz1) _ => y yE.
  have gi := good_inv hF gp nz1.
  apply: ensures_bind (fit_mul_row w1E yE gi (fun b => g1 _ (inl b))) _ => w2 w2E.
  apply: ensures_bind (fit_mul_row t1E yE gi (fun b => g1 _ (inr b))) _ => t2 t2E.
  have [s [c [c0 hp hu]]] := hr1.
  have e a d : aug (rscale ok (N1 ok ok)^-1 N1) (rscale ok (N1 ok ok)^-1 T1) a d =
      fscale ok (N1 ok ok)^-1 (aug N1 T1) a d.
    by case: d => d; rewrite /= mxE /fscale; case: eqP => // ->.
  apply: (ensures_bind (@fit_inv_clear _ _ _ _ k klt w2E t2E _ _ _ _)) => [||||[w3 t3]].
  - move=> a d dk; rewrite e /fscale; case: eqP => [->|_]; last exact: hu.
    rewrite (hu ok d dk) (_ : (ok == d) = false) ?mul0r //.
    by apply/eqP => /(congr1 val) /= q; rewrite -q ltnn in dk.
  - by rewrite mxE eqxx divff.
  - exists s, (c / (N1 ok ok)^-1); split; first by rewrite invrK mulf_neq0.
    have e0 : (N1 ok ok)^-1 != 0 by rewrite invr_eq0.
    by apply: prop_ext (prop_scale (i := ok) _ e0 (prop_mono (leqnSn k) hp)) => // a d; rewrite e.
  - move=> a d; rewrite e /fscale; case: eqP => [_|_]; last exact: g1.
    apply: hN0; apply: (@ratio_perm _ _ _ _ s).
    exact: (@ratio_quot _ _ _ col k c _ _ ok ok d (inl ok) kn c0 (fidc_uni hu) hp).
  by move=> [N3 [T3 [/= a1 a2 a3]]]; apply: ensures_ret; exists N3, T3.
case=> [[w t] [N' [T' [/= wN' tT' [s [c [c0 hp hu]]]]]]|z //].
have N1 : N' = 1%:M.
  by apply/matrixP => a b; have /= -> := hu a b (ltn_ord b); rewrite mxE.
by rewrite N1 in wN'.
Qed.

Lemma fit_mat_one : ensures False (matrix_one A n) (fun w => mrep w 1%:M).
Proof.
rewrite /matrix_one /matrix_int; apply: ensures_bind (fit_int1 hF) _ => x xE.
apply: (@ensures_bind _ _ _ _ _ (fun z => mrep z 0)).
  apply: ensures_bind (fit_zero hF) _ => z z0; apply: ensures_ret.
  exists (nseq (n * n) 0); split; [exact: reps_nseq|exact: size_nseq|].
  by move=> i j; rewrite mxE nth_nseq if_same.
move=> z z0.
pose I i v := mrep v (\matrix_(a, b) (if (a == b) && (a < i)%N then 1 else 0)).
have I0 : I 0%N z.
  rewrite /I (_ : \matrix_(_, _) _ = 0) //; apply/matrixP => a b; rewrite !mxE.
  by rewrite ltn0 andbF.
apply: ensures_mono (@ensures_for _ False 0 n _ _ I I0 _) _; last first.
  move=> v; rewrite /I add0n (_ : \matrix_(_, _) _ = 1%:M) //.
  by apply/matrixP => a b; rewrite !mxE ltn_ord andbT; case: eqP.
move=> i v /andP[_]; rewrite add0n => ilt vI.
rewrite (_ : i * (n + 1) = i * n + i)%N; last by rewrite mulnDr muln1.
apply: ensures_mono (mrep_set False ilt ilt vI xE) _ => w; rewrite /I.
rewrite (_ : mset _ _ _ _ = \matrix_(a, b) (if (a == b) && (a < i.+1)%N then 1 else 0)) //.
apply/matrixP => a b; rewrite !mxE ltnSE'.
case: (eqVneq (a : nat) i) => [ai|] //=; rewrite andbT ai ltnn andbF -ai.
by rewrite [b == a :> nat]eq_sym.
Qed.

Lemma fit_is_one v : mrep v 1%:M -> ensures False (matrix_is_one A n v) (fun b => b = true).
Proof.
move=> vN; rewrite /matrix_is_one /default_is_one.
apply: ensures_bind fit_mat_one _ => o oE.
have [r [vr sr rE]] := vN; have [t [ot st tE]] := oE.
apply: ensures_assert_bind; first by rewrite (reps_size vr) (reps_size ot) sr st eqxx.
apply: ensures_mono (ensures_all2M (P := fun a b => a == b) vr ot _ (fit_equals hF)) _ => [|b ->].
  by rewrite sr st.
suff -> : r = t by elim: t {ot st tE} => //= a t ->; rewrite eqxx.
apply: (@eq_from_nth _ 0); first by rewrite sr st.
move=> i; rewrite sr => hi; have [h1 h2 h3] := ix_div hi.
by have := rE (Ordinal h1) (Ordinal h2); have := tE (Ordinal h1) (Ordinal h2); rewrite /= -h3 => -> <-.
Qed.

Lemma fit_try_inv v : mrep v N0 -> ensures False (matrix_try_inv cfg A n v) (fun _ => True).
Proof.
move=> vN; rewrite /matrix_try_inv.
apply: ensures_bind fit_mat_one _ => o oE.
apply: ensures_bind (fit_inv_loop vN oE) _ => -[[w t] /= w1|z _]; last exact: ensures_ret.
apply: (@ensures_bind _ _ _ _ _ (fun _ => True)); last by move=> _ _; apply: ensures_ret.
by apply: ensures_debug => //; exact: fit_is_one.
Qed.
End Inv.
End Fit.
