(** * PDet.v -- the sign of the determinant. *)

From Coq Require Import ZArith Lia List.
From mathcomp Require Import all_ssreflect all_fingroup all_algebra zify.
From Verif Require Import Rust Traits MInts MConstr RingTac Wp Spec PDefaults PEucl.
From Verif Require Import POrders PVec MatFacts PIntsZ PMat DetSpec.

Set Implicit Arguments.
Unset Strict Implicit.
Unset Printing Implicit Defensive.

Import GRing.Theory.
Local Open Scope ring_scope.

Section Similar.
Variables (F : fieldType) (n : nat).
Implicit Types (N T U : 'M[F]_n) (s : 'S_n).

(** The same leading minors vanish, however the rows from [k] on are permuted. *)
Definition similar (k : nat) N T : Prop :=
  forall s, (forall i : 'I_n, (i < k)%N -> s i = i) ->
  forall m (mn : (m <= n)%N),
    (\det (lsub mn (row_perm s N)) == 0) = (\det (lsub mn (row_perm s T)) == 0).

Lemma similar_refl k N : similar k N N.
Proof. by []. Qed.

Lemma similarS k N T : similar k N T -> similar k.+1 N T.
Proof. by move=> h s hs; apply: h => i ik; apply: hs; exact: leqW. Qed.

Lemma row_perm_xrow s (i j : 'I_n) N : row_perm s (xrow i j N) = row_perm (s * tperm i j)%g N.
Proof. by apply/matrixP => a b; rewrite !mxE permM. Qed.

Lemma similar_xrow (k a : 'I_n) N T : (k <= a)%N -> similar k N T ->
  similar k (xrow k a N) (xrow k a T).
Proof.
move=> ka h s hs m mn; rewrite !row_perm_xrow; apply: h => i ik; rewrite permM hs //.
by rewrite tpermD //; apply/eqP => h'; move: ik; rewrite -h' ltnNge ?leqnn // ka.
Qed.

Lemma row_perm_radd s (i j : 'I_n) c N : s i = i ->
  row_perm s (radd i j c N) = radd i (s^-1%g j) c (row_perm s N).
Proof.
move=> si; apply/matrixP => a b; rewrite !mxE -[a == _](inj_eq (@perm_inj _ s)) !permKV.
by rewrite si.
Qed.

Lemma row_perm_rscale s (i : 'I_n) c N : s i = i ->
  row_perm s (rscale i c N) = rscale i c (row_perm s N).
Proof.
move=> si; apply/matrixP => a b; rewrite !mxE.
by rewrite -{1}si (inj_eq (@perm_inj _ s)).
Qed.

Lemma similar_rscale (k : 'I_n) c N T : c != 0 -> similar k.+1 N T ->
  similar k.+1 (rscale k c N) T.
Proof.
move=> c0 h s hs m mn; rewrite row_perm_rscale ?det_lsub_rscale //; last by apply: hs.
exact: h.
Qed.

Lemma similar_radd (k j : 'I_n) c N T : (k < j)%N -> similar k.+1 N T ->
  similar k.+1 (radd k j c N) T.
Proof.
move=> kj h s hs m mn; rewrite row_perm_radd ?det_lsub_radd //.
- exact: h.
- rewrite ltnNge; apply/negP => le.
  have := hs (s^-1%g j); rewrite permKV ltnS => /(_ le) jE.
  by move: le; rewrite -jE leqNgt kj.
- by apply: hs.
Qed.

(** The minors of a cleared matrix. *)
Lemma bordered_cleared (k a : 'I_n) N : (k <= a)%N -> cleared k N ->
  (forall b : 'I_n, (b < k)%N -> N b b = 1) -> bordered N k a = N a k.
Proof.
move=> ka cN dN; rewrite /bordered -det_tr det_trig; last first.
  apply/is_trig_mxP => i j ij; rewrite !mxE.
  have ik : (i < k)%N by rewrite -ltnS; exact: leq_trans ij (ltn_ord j).
  apply: cN => //; case: tpermP => [_|/(congr1 val) /= e|_ _] //=.
  - exact: leq_trans ik ka.
rewrite (bigD1 ord_max) //= !mxE big1 ?mulr1 => [|i ne].
  have -> : widen_ord (ltn_ord k) ord_max = k by exact: val_inj.
  by rewrite tpermL.
have ik : (i < k)%N by rewrite ltn_neqAle -ltnS ltn_ord andbT; move: ne; rewrite -(inj_eq val_inj).
rewrite !mxE tpermD ?dN //; apply/eqP => /(congr1 val) /= e; exfalso; lia.
Qed.

Lemma similar_bordered (k a : 'I_n) N T : (k <= a)%N -> similar k N T ->
  (bordered N k a == 0) = (bordered T k a == 0).
Proof.
move=> ka h; rewrite /bordered /xrow; apply: h => i ik.
by rewrite tpermD //; apply/eqP => h'; move: ik; rewrite -h' ltnNge ?leqnn // ka.
Qed.
End Similar.

Section Order.
Variable n : nat.
Lemma take_enumS (k : nat) (klt : (k < n)%N) :
  take k.+1 (enum 'I_n) = rcons (take k (enum 'I_n)) (Ordinal klt).
Proof.
rewrite (take_nth (Ordinal klt)) ?size_enum_ord //; congr (rcons _ _).
by apply: val_inj; rewrite /= nth_enum_ord.
Qed.

Lemma head_first (P : pred 'I_n) (d a : 'I_n) : P a ->
  (forall b : 'I_n, (b < a)%N -> ~~ P b) ->
  head d [seq b <- enum 'I_n | P b] = a.
Proof.
move=> Pa h; rewrite -(cat_take_drop a (enum 'I_n)) filter_cat.
rewrite (_ : [seq b <- take a _ | P b] = [::]) /=; last first.
  apply/eqP; rewrite -(negbK (_ == _)) -has_filter; apply/hasPn => b.
  move=> /(nthP d)[i]; rewrite size_takel ?size_enum_ord; last exact: ltnW.
  move=> ia; rewrite nth_take // => bE; apply: h.
  by rewrite -bE nth_enum_ord //; exact: ltn_trans (ltn_ord a).
by rewrite (drop_nth d) ?size_enum_ord // nth_ord_enum /= Pa.
Qed.
End Order.

Section Matrix.
Variables (cfg : Cfg) (p : Prop) (E : Type) (F : fieldType) (rep : E -> F -> Prop).
Variable A : FieldAlg E.
Hypothesis hF : field_alg_spec cfg p rep A.
Variable n : nat.
Hypothesis hcfg : Z.le (Zpos (xO xH)) (ptr_bits cfg).
Let hI := eu_idom_ok (fi_eucl_ok hF).
Let hR := id_ring_ok hI.
Let hC := ri_cm_ok hR.
Let hS := mo_sg_ok (ri_mon_ok hR).
Let hM := mo_mo_ok (ri_mon_ok hR).
Let hB := ri_ab_ok hR.
Local Notation mrep := (@mat_rep n E F rep).
Implicit Types (N T U : 'M[F]_n) (v w : seq E).

Lemma det_clear_sim v N T k (klt : (k < n)%N) : mrep v N -> cleared k N ->
  (forall a : 'I_n, (a <= k)%N -> N a a = 1) -> similar k.+1 N T ->
  ensures p (det_clear_below A n v k) (fun w => exists2 N', mrep w N' &
    [/\ cleared k.+1 N', forall a : 'I_n, (a <= k)%N -> N' a a = 1, \det N' = \det N &
        similar k.+1 N' T]).
Proof.
move=> vN cN dN sN; set ok := Ordinal klt.
pose I row w := exists2 N', mrep w N' & [/\ cleared k N',
  forall a : 'I_n, (a <= k)%N -> N' a a = 1,
  forall a : 'I_n, (k < a < row)%N -> N' a ok = 0 & \det N' = \det N /\ similar k.+1 N' T].
have I0 : I k.+1 v.
  by exists N => //; split=> // a /andP[h1 h2]; exfalso; lia.
apply: ensures_mono (@ensures_for _ p k.+1 (n - k.+1) _ _ I I0 _) _; last first.
  rewrite subnKC // => w [N' wN' [c1 c2 c3 [c4 c5]]]; exists N' => //; split=> // a b.
  rewrite ltnSE' => /orP[/eqP bk|bk] ba; last exact: c1.
  have -> : b = ok by exact: val_inj.
  by apply: c3; rewrite -bk ba ltn_ord.
rewrite subnKC // => row w /andP[kr rlt] [N' wN' [c1 c2 c3 [c4 c5]]].
apply: ensures_bind (mrep_get p rlt klt wN') _ => x xE.
apply: ensures_bind (is_zero_ok hC xE) _ => b ->; case: eqVneq => x0.
  apply: ensures_ret; exists N' => //; split=> // a /andP[ka]; rewrite ltnSE'.
  case/orP=> [/eqP ar|ar]; last by apply: c3; rewrite ka.
  by have -> : a = Ordinal rlt by exact: val_inj.
apply: ensures_bind (neg_ok hB xE) _ => y yE.
have krn : k <> row by lia.
apply: ensures_mono (mat_add_rows hF klt rlt krn wN' yE) _ => w' w'E.
eexists; first exact: w'E; split.
- move=> a d dk da; rewrite mxE; case: eqP => ar; last exact: c1.
  have -> : N' ok d = 0 by exact: c1.
  by have -> : N' (Ordinal rlt) d = 0; [apply: c1 => //=; exact: ltn_trans kr|rewrite mul0r addr0].
- move=> a ak; rewrite mxE; case: eqP => [h|_]; last exact: c2.
  by have /= := congr1 val h; lia.
- move=> a /andP[ka]; rewrite ltnSE' mxE => h; case: eqP => [_|ar].
    by rewrite c2 //= mul1r addrC addNr.
  apply: c3; rewrite ka /=; case/orP: h => // /eqP h; case: ar; exact: val_inj.
- split; first by rewrite det_radd //; apply/eqP => -[].
  exact: (@similar_radd _ _ ok).
Qed.

Lemma determinant_sign v N : mrep v N ->
  ensures p (determinant A n v) (fun x => rep x ((-1) ^+ exchanges N * \det N)).
Proof.
move=> vN; rewrite /determinant.
apply: ensures_bind (one_ok hM) _ => o oE.
pose ex k := foldl (@exchange F n) (0%N, N) (take k (enum 'I_n)).
have exS k (klt : (k < n)%N) : ex k.+1 = exchange (ex k) (Ordinal klt).
  by rewrite /ex take_enumS -cats1 foldl_cat.
pose I k (s : seq E * E) := exists N' d,
  [/\ mrep s.1 N', rep s.2 d, cleared k N', forall a : 'I_n, (a < k)%N -> N' a a = 1 &
      d * \det N' = (-1) ^+ (ex k).1 * \det N /\ similar k N' (ex k).2].
have I0 : I 0%N (v, o) by exists N, 1; rewrite /ex take0; split=> //; rewrite expr0.
apply: ensures_bind
  (@ensures_for_ret _ p _ 0 n _ _ I (fun z => \det N = 0 /\ rep z 0) I0 _) _.
  move=> k [w d] /andP[_]; rewrite add0n => klt [N' [d' [/= wN' dd c1 c2 [c3 c4]]]].
  apply: ensures_bind (mat_find_row hF klt wN') _ => -[row [rlt [kr nz fst]]|zr]; last first.
    apply: ensures_bind (zero_ok hC) _ => z zE; apply: ensures_ret; split=> //.
    move/eqP: c3; rewrite (det_singular (k := Ordinal klt) c1 zr) mulr0 eq_sym mulf_eq0.
    by rewrite signr_eq0 => /eqP.
  set ok := Ordinal klt; set or := Ordinal rlt in nz.
  have pr : pivot_row (ex k).2 ok = or.
    have bE (a : 'I_n) : (k <= a)%N -> (bordered (ex k).2 ok a == 0) = (N' a ok == 0).
      by move=> ka; rewrite -(similar_bordered (k := ok) ka c4) bordered_cleared.
    apply: head_first => [|b bl]; first by rewrite kr bE.
    by apply/negP => /andP[kb]; rewrite bE // fst ?eqxx // kb.
  have hsw : ensures p (if row != k then swap_rows n w k row else ret w) (fun w' =>
      exists N1, [/\ mrep w' N1, cleared k N1,
        forall a : 'I_n, (a < k)%N -> N1 a a = 1,
        d' * \det N1 = (-1) ^+ (ex k.+1).1 * \det N &
        N1 ok ok != 0 /\ similar k N1 (ex k.+1).2]).
    rewrite (exS _ klt) /exchange -/ok pr /= -(inj_eq val_inj) /=.
    case: eqVneq => rk /=.
      have ork : or = ok by exact: val_inj.
      apply: ensures_ret; exists N'; rewrite addn0 ork; split=> //; split.
        by move: nz; rewrite ork.
      have -> // : xrow ok ok (ex k).2 = (ex k).2.
      by apply/matrixP => a b; rewrite mxE tperm1 perm1.
    have krn : k <> row by move=> h; rewrite h eqxx in rk.
    apply: ensures_mono (mat_swap_rows p klt rlt krn wN') _ => w' w'E.
    exists (xrow ok or N'); split=> //.
    - exact: (xrow_cleared (k := ok) (row := or) kr c1).
    - by move=> a ak; rewrite xrow_entry tpermD ?c2 //; apply/eqP => /(congr1 val) /=; lia.
    - rewrite det_xrow ?mulrN ?c3; last by apply/eqP => -[].
      by rewrite addn1 exprS mulN1r mulNr.
    - split; first by rewrite xrow_entry tpermL.
      exact: (@similar_xrow _ _ ok or).
  apply: ensures_bind hsw _ => w1 [N1 [w1E c1' c2' c3' [nz1 c4']]].
  apply: ensures_bind (mrep_get p klt klt w1E) _ => x xE.
  apply: ensures_bind (mul_assign_ok hS dd xE) _ => d1 d1E.
  apply: ensures_bind (finv_ok (fi_fi_ok hF) xE nz1) _ => y yE.
  apply: ensures_bind (mat_mul_row hF hcfg klt w1E yE) _ => w2 w2E.
  have c1'' := rscale_cleared (Ordinal klt) (N1 ok ok)^-1 c1'.
  have c2'' (a : 'I_n) : (a <= k)%N -> rscale ok (N1 ok ok)^-1 N1 a a = 1.
    move=> ak; rewrite mxE; case: eqVneq => [->|ne]; first by rewrite divff.
    by apply: c2'; rewrite ltn_neqAle ak andbT; move: ne; rewrite -(inj_eq val_inj).
  have c4'' : similar k.+1 (rscale ok (N1 ok ok)^-1 N1) (ex k.+1).2.
    by apply: (@similar_rscale _ _ ok); [rewrite invr_eq0|exact: similarS].
  apply: ensures_bind (det_clear_sim klt w2E c1'' c2'' c4'') _ => w3 [N3 w3E [e1 e2 e3 e4]].
  apply: ensures_ret; exists N3, (d' * N1 ok ok); split=> //; split=> //.
  by rewrite e3 det_rscale -c3' -/ok -mulrA; congr (_ * _); rewrite mulrA divff ?mul1r.
move=> [[w d] [N' [d' [/= wN' dd c1 c2 [c3 c4]]]]|z [dN zE]]; apply: ensures_ret.
  rewrite /exchanges; move: c3; rewrite add0n /ex take_oversize ?size_enum_ord // => <-.
  by rewrite det_unitri ?mulr1 // => a; apply: c2; rewrite add0n.
by rewrite dN mulr0.
Qed.

(** It is the determinant exactly if the number of exchanges is even, up to the trivial
    cases. *)
Lemma determinant_right v N : mrep v N -> (forall x u u', rep x u -> rep x u' -> u = u') ->
  ensures p (determinant A n v) (fun x =>
    rep x (\det N) <-> [\/ ~~ odd (exchanges N), \det N = 0 | 1 + 1 = 0 :> F]).
Proof.
move=> vN fn; apply: ensures_mono (determinant_sign vN) _ => x xE.
move: xE; rewrite -signr_odd; case: (odd _); rewrite ?expr0 ?expr1 ?mul1r ?mulN1r => xE.
  split=> [/(fn _ _ _ xE)/esym/eqP|[//|d0|h]].
  - rewrite -subr_eq0 opprK -{1 2}[\det N]mul1r -mulrDl mulf_eq0.
    by case/orP=> /eqP h; [exact: Or33|exact: Or32].
  - by move: xE; rewrite d0 oppr0.
  - by move: xE; rewrite -[X in rep x X -> _]mulN1r (_ : -1 = 1) ?mul1r //;
      apply/esym/eqP; rewrite -addr_eq0 h.
by split=> // _; exact: Or31.
Qed.
End Matrix.

(** The matrix [[0 1] [1 0]] needs one exchange. *)
Lemma exchanges_swap (F : fieldType) : exchanges (\matrix_(i < 2, j < 2) (i != j)%:R : 'M[F]_2) = 1%N.
Proof.
set N := \matrix_(_, _) _; pose i0 : 'I_2 := ord0; pose i1 : 'I_2 := ord_max.
have e2 : enum 'I_2 = [:: i0; i1].
  by apply: (inj_map val_inj); rewrite val_enum_ord.
have p0 : pivot_row N i0 = i1.
  apply: head_first => [|b b1].
    rewrite /bordered det_mx11 !mxE /= (_ : widen_ord _ _ = i0); last exact: val_inj.
    by rewrite tpermL oner_eq0.
  have -> : b = i0 by apply: val_inj; case: b b1 => -[].
  rewrite /bordered det_mx11 !mxE /= (_ : widen_ord _ _ = i0); last exact: val_inj.
  by rewrite tpermL !eqxx ?andbF.
have p1 T : pivot_row T i1 = i1.
  rewrite /pivot_row e2 /=.
  by case: ifP.
by rewrite /exchanges e2 /= /exchange /= p0 p1.
Qed.
