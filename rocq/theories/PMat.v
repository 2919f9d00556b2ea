(** * PMat.v -- MatrixRing is the ring of square matrices. *)

From Coq Require Import ZArith Lia List.
From mathcomp Require Import all_ssreflect all_fingroup all_algebra zify.
From Verif Require Import Rust Traits MInts MConstr RingTac Wp Spec PDefaults PEucl.
From Verif Require Import POrders PVec MatFacts PIntsZ.

Set Implicit Arguments.
Unset Strict Implicit.
Unset Printing Implicit Defensive.

Import GRing.Theory.
Local Open Scope ring_scope.

(** The vector lists the entries of the matrix row by row. *)
Definition mat_rep (n : nat) (E : Type) (F : ringType) (rep : E -> F -> Prop)
    (v : seq E) (N : 'M[F]_n) : Prop :=
  exists r, [/\ reps rep v r, size r = (n * n)%N &
    forall i j : 'I_n, N i j = r`_(i * n + j)].

Section Index.
Variable n : nat.
Lemma ltnSE' (a k : nat) : (a < k.+1)%N = (a == k) || (a < k)%N.
Proof. by rewrite ltnS leq_eqVlt. Qed.

Lemma ix_lt (i j : nat) : (i < n)%N -> (j < n)%N -> (i * n + j < n * n)%N.
Proof. by move=> hi hj; nia. Qed.

Lemma ix_eq (i j a b : nat) : (j < n)%N -> (b < n)%N ->
  (i * n + j == a * n + b)%N = (i == a) && (j == b).
Proof.
move=> hj hb; apply/eqP/andP => [h|[/eqP -> /eqP ->]] //.
have n0 : (0 < n)%N by exact: leq_ltn_trans hj.
have ia : i = a.
  by have := congr1 (divn^~ n) h; rewrite !divnMDl // !divn_small // !addn0.
by move: h; rewrite ia => /addnI ->; rewrite !eqxx.
Qed.

Lemma ix_div (k : nat) : (k < n * n)%N ->
  [/\ (k %/ n < n)%N, (k %% n < n)%N & (k = k %/ n * n + k %% n)%N].
Proof.
move=> kn; have n0 : (0 < n)%N by case: n kn.
by rewrite ltn_divLR // kn ltn_mod n0 -divn_eq.
Qed.
End Index.

Section Matrix.
Variables (cfg : Cfg) (p : Prop) (E : Type) (F : fieldType) (rep : E -> F -> Prop).
Variable A : FieldAlg E.
Hypothesis hF : field_alg_spec cfg p rep A.
Variable n : nat.
Let hI := eu_idom_ok (fi_eucl_ok hF).
Let hR := id_ring_ok hI.
Let hC := ri_cm_ok hR.
Let hD := mo_dom_ok (ri_mon_ok hR).
Let hS := mo_sg_ok (ri_mon_ok hR).
Let hM := mo_mo_ok (ri_mon_ok hR).
Let hB := ri_ab_ok hR.
Local Notation mrep := (@mat_rep n E F rep).
Implicit Types (N T U : 'M[F]_n) (v w : seq E).

(** ** Access *)

Lemma mrep_size v N : mrep v N -> size v = (n * n)%N.
Proof. by move=> [r [vr sr _]]; rewrite (reps_size vr). Qed.

Lemma mrep_fun v N T : mrep v N -> mrep v T -> N = T.
Proof.
move=> [r [vr sr hN]] [t [vt st hT]]; apply/matrixP => i j; rewrite hN hT.
by rewrite (reps_fun (dom_fun hD) vr vt).
Qed.

Lemma mrep_get v N i j (hi : (i < n)%N) (hj : (j < n)%N) : mrep v N ->
  ensures p (vget v (i * n + j)) (fun x => rep x (N (Ordinal hi) (Ordinal hj))).
Proof.
move=> [r [vr sr hN]]; rewrite hN /=; apply: ensures_vget vr _.
by rewrite sr; exact: ix_lt.
Qed.

Lemma ordE (i : 'I_n) h : @Ordinal n i h = i.
Proof. exact: val_inj. Qed.

Definition mset N (i j : nat) (c : F) : 'M[F]_n :=
  \matrix_(a, b) (if ((a : nat) == i) && ((b : nat) == j) then c else N a b).

Lemma mrep_set v N i j x c : (i < n)%N -> (j < n)%N -> mrep v N -> rep x c ->
  ensures p (vset v (i * n + j) x) (fun w => mrep w (mset N i j c)).
Proof.
move=> hi hj [r [vr sr hN]] xc.
have ir : (i * n + j < size r)%N by rewrite sr; exact: ix_lt.
apply: ensures_mono (ensures_vset p 0 vr xc ir) _ => w wr.
exists (set_nth 0 r (i * n + j) c); split=> //.
  by rewrite size_set_nth -sr; apply/maxn_idPr.
by move=> a b; rewrite mxE nth_set_nth /= ix_eq // hN.
Qed.

(** A matrix written row by row by [push]. *)
Lemma mrep_build (body : nat -> nat -> seq E -> M (seq E)) N :
  (forall (i j : 'I_n) res, ensures p (body i j res) (fun w =>
     exists2 x, w = rcons res x & rep x (N i j))) ->
  ensures p (for_loop 0 n (fun row res => for_loop 0 n (body row) res) [::])
    (fun w => mrep w N).
Proof.
move=> hb.
pose J k w := exists r, [/\ reps rep w r, size r = k &
  forall i j : 'I_n, (i * n + j < k)%N -> N i j = r`_(i * n + j)].
have J0 : J (0 * n)%N [::] by exists [::]; split=> //; exact: reps_nil.
apply: ensures_mono (@ensures_for _ p 0 n _ _ (fun i => J (i * n)%N) J0 _) _; last first.
  move=> w [r [wr sr rE]]; exists r; split=> // i j; apply: rE; rewrite add0n.
  exact: ix_lt.
move=> i w /andP[_ ilt] Jw; rewrite add0n in ilt.
have Jw0 : J (i * n + 0)%N w by rewrite addn0.
apply: ensures_mono (@ensures_for _ p 0 n _ _ (fun j => J (i * n + j)%N) Jw0 _) _; last first.
  by move=> w'; rewrite add0n mulSn addnC.
move=> j w' /andP[_ jlt] [r [wr sr rE]]; rewrite add0n in jlt.
apply: ensures_mono (hb (Ordinal ilt) (Ordinal jlt) w') _ => _ [x -> xE].
exists (rcons r (N (Ordinal ilt) (Ordinal jlt))); split.
- exact: reps_rcons.
- by rewrite size_rcons sr addnS.
- move=> a b; rewrite addnS ltnS leq_eqVlt nth_rcons sr ix_eq //.
  case/orP => [/andP[/eqP ai /eqP bj]|lt].
    by rewrite ai bj ltnn !eqxx /=; congr (N _ _); exact: val_inj.
  by rewrite lt; exact: rE.
Qed.

(** ** The domain *)

Lemma mrep_vec v N : mrep v N <->
  vec_rep rep v [ffun k : 'I_(n * n) =>
    N (Ordinal (let: And3 h _ _ := ix_div (ltn_ord k) in h))
      (Ordinal (let: And3 _ h _ := ix_div (ltn_ord k) in h))].
Proof.
set f := [ffun _ => _]; have hf (i j : 'I_n) : (vs f)`_(i * n + j) = N i j.
  have h := ix_lt (ltn_ord i) (ltn_ord j).
  rewrite (nth_vs f (Ordinal h)) ffunE; congr (N _ _); apply: val_inj => /=.
    have n0 : (0 < n)%N by exact: leq_ltn_trans (ltn_ord i).
    by rewrite divnMDl // divn_small // addn0.
  by rewrite modnMDl modn_small.
split=> [[r [vr sr rE]]|vf].
  rewrite /vec_rep (_ : [seq _ | _ <- _] = r) //.
  rewrite -/(vs f); apply: (@eq_from_nth _ 0); rewrite size_vs ?sr // => k kn.
  have [h1 h2 h3] := ix_div kn.
  by rewrite [in LHS]h3 [in RHS]h3 (hf (Ordinal h1) (Ordinal h2)) rE.
by exists (vs f); split=> //; rewrite ?size_vs.
Qed.

Definition mvec N : {ffun 'I_(n * n) -> F} := [ffun k : 'I_(n * n) =>
    N (Ordinal (let: And3 h _ _ := ix_div (ltn_ord k) in h))
      (Ordinal (let: And3 _ h _ := ix_div (ltn_ord k) in h))].

Lemma mvec_is_additive : additive mvec.
Proof. by move=> N T; apply/ffunP => k; rewrite !ffunE !mxE. Qed.
Canonical mvec_additive := Additive mvec_is_additive.

Lemma mvec_inj : injective mvec.
Proof.
move=> N T /ffunP h; apply/matrixP => i j.
have := h (Ordinal (ix_lt (ltn_ord i) (ltn_ord j))); rewrite !ffunE.
have n0 : (0 < n)%N by exact: leq_ltn_trans (ltn_ord i).
set i1 := Ordinal _; have -> : i1 = i.
  by apply: val_inj; rewrite /= divnMDl // divn_small // addn0.
by set j1 := Ordinal _; have -> : j1 = j by apply: val_inj; rewrite /= modnMDl modn_small.
Qed.

Lemma mvec_surj f : exists N, mvec N = f.
Proof.
exists (\matrix_(i, j) f (Ordinal (ix_lt (ltn_ord i) (ltn_ord j)))).
apply/ffunP => k; rewrite ffunE mxE; congr (f _); apply: val_inj => /=.
by rewrite -divn_eq.
Qed.

Lemma mrep_mvec v N : mrep v N <-> vec_rep rep v (mvec N).
Proof. exact: mrep_vec. Qed.

Lemma mat_domain : domain_spec p mrep (matrix_domain A n).
Proof.
split=> /=.
- exact: mrep_fun.
- by move=> v N /mrep_mvec vN; exact (contains_ok (vec_domain (n * n) hD) vN).
- move=> v N w T /mrep_mvec vN /mrep_mvec wT; rewrite -(inj_eq mvec_inj).
  exact (equals_ok (vec_domain (n * n) hD) vN wT).
Qed.

Lemma mat_contains_exact : contains_exact p rep A -> contains_exact p mrep (matrix_domain A n).
Proof.
move=> hc v; apply: ensures_mono (vec_contains_exact (n * n) hc v) _ => b hb; split.
  by move/hb => [f]; have [N <-] := mvec_surj f; exists N; apply/mrep_mvec.
by move=> [N /mrep_mvec vN]; apply/hb; exists (mvec N).
Qed.

(** ** The additive group: that of the vectors *)
Lemma mat_cmonoid : cmonoid_spec p mrep +%R 0 (matrix_cmonoid A n).
Proof.
have [hz hiz ha haa hd _] := vec_cmonoid_add (n * n) hC.
have ha' v N w T : mrep v N -> mrep w T ->
    gives p mrep (add_assign (vector_cmonoid (n * n) A) v w) (N + T).
  move=> /mrep_mvec vN /mrep_mvec wT; apply: ensures_mono (haa _ _ _ _ vN wT) _ => x.
  by rewrite -raddfD => /mrep_mvec.
have hd' v N : mrep v N -> gives p mrep (double (vector_cmonoid (n * n) A) v) (N + N).
  by move=> /mrep_mvec vN; apply: ensures_mono (hd _ _ vN) _ => x; rewrite -raddfD => /mrep_mvec.
have hz' : gives p mrep (zero (vector_cmonoid (n * n) A)) 0.
  by apply: ensures_mono hz _ => x xE; apply/mrep_mvec; rewrite raddf0.
split=> //.
- move=> v N /mrep_mvec vN; apply: ensures_mono (hiz _ _ vN) _ => b ->.
  by rewrite -(inj_eq mvec_inj) raddf0.
- move=> v N w T /mrep_mvec vN /mrep_mvec wT; apply: ensures_mono (ha _ _ _ _ vN wT) _ => x.
  by rewrite -raddfD => /mrep_mvec.
- move=> m v N m0 vN.
  exact: (default_ntimes_ok (@addrA _) (@add0r _) (@addr0 _) ha' hd' hz' m0 vN).
Qed.

Lemma mat_abelian : abelian_spec cfg p mrep (matrix_abelian cfg A n).
Proof.
have hA : abelian_alg_spec cfg p rep (ring_abelian A) by split.
have [_ _ [hn hna hs hsa _]] := vec_abelian (n * n) hA.
have hn' v N : mrep v N -> gives p mrep (neg (vector_abelian cfg (n * n) A) v) (- N).
  by move=> /mrep_mvec vN; apply: ensures_mono (hn _ _ vN) _ => x; rewrite -raddfN => /mrep_mvec.
split=> //.
- by move=> v N /mrep_mvec vN; apply: ensures_mono (hna _ _ vN) _ => x; rewrite -raddfN => /mrep_mvec.
- move=> v N w T /mrep_mvec vN /mrep_mvec wT; apply: ensures_mono (hs _ _ _ _ vN wT) _ => x.
  by rewrite -raddfB => /mrep_mvec.
- move=> v N w T /mrep_mvec vN /mrep_mvec wT; apply: ensures_mono (hsa _ _ _ _ vN wT) _ => x.
  by rewrite -raddfB => /mrep_mvec.
- by move=> m v N gm vN; exact: (default_ztimes_ok _ mat_cmonoid hn' gm vN).
Qed.

(** ** Transpose, product, scalar matrices *)
Lemma mat_transpose v N : mrep v N -> gives p mrep (matrix_transpose n v) N^T.
Proof.
move=> vN; rewrite /matrix_transpose; apply: ensures_assert_bind.
  by rewrite (mrep_size vN).
apply: mrep_build => i j res; rewrite mxE.
apply: ensures_bind (mrep_get (ltn_ord j) (ltn_ord i) vN) _ => x.
by rewrite !ordE => xE; apply: ensures_ret; exists x.
Qed.

Lemma mat_mul v N w T : mrep v N -> mrep w T -> gives p mrep (matrix_mul A n v w) (N *m T).
Proof.
move=> vN wT; rewrite /matrix_mul; apply: ensures_assert_bind.
  by rewrite (mrep_size vN) (mrep_size wT) !eqxx.
apply: ensures_bind (mat_transpose wT) _ => t tT.
apply: mrep_build => i j res.
apply: ensures_bind (zero_ok hC) _ => z zE.
pose I k x := rep x (\sum_(b < n | (b < k)%N) N i b * T b j).
have I0 : I 0%N z by rewrite /I big_pred0.
apply: ensures_bind (@ensures_for _ p 0 n _ _ I I0 _) _; last first.
  move=> x xI; apply: ensures_ret; exists x => //; move: xI.
  rewrite /I mxE add0n (eq_bigl (fun b : 'I_n => true)) // => b.
  exact: ltn_ord.
move=> k x /andP[_]; rewrite add0n => kn xE.
apply: ensures_bind (mrep_get (ltn_ord i) kn vN) _ => y yE.
apply: ensures_bind (mrep_get (ltn_ord j) kn tT) _ => u uE.
apply: ensures_bind (mul_ok hS yE uE) _ => d dE.
apply: ensures_mono (add_assign_ok hC xE dE) _ => s.
rewrite /I mxE !ordE.
rewrite [in X in _ -> X](bigD1 (Ordinal kn)) /= ?ltnSn // => sE.
rewrite addrC (eq_bigl (fun b : 'I_n => (b < k)%N)) // => b.
by rewrite ltnS leq_eqVlt -(inj_eq val_inj) /=; case: ltngtP.
Qed.

Lemma mat_int k : good_isize cfg k -> gives p mrep (matrix_int A n k) (zmul 1 k)%:M.
Proof.
move=> gk; rewrite /matrix_int; apply: ensures_bind (int_ok (ri_ur_ok hR) gk) _ => x xE.
apply: ensures_bind (zero_ok mat_cmonoid) _ => z z0.
pose I i v := mrep v (\matrix_(a, b) (if (a == b) && (a < i)%N then zmul 1 k else 0)).
have I0 : I 0%N z.
  rewrite /I (_ : \matrix_(_, _) _ = 0) //; apply/matrixP => a b; rewrite !mxE.
  by rewrite ltn0 andbF.
apply: ensures_mono (@ensures_for _ p 0 n _ _ I I0 _) _; last first.
  move=> v; rewrite /I add0n (_ : \matrix_(_, _) _ = (zmul 1 k)%:M) //.
  by apply/matrixP => a b; rewrite !mxE ltn_ord andbT; case: eqP.
move=> i v /andP[_]; rewrite add0n => ilt vI.
rewrite (_ : i * (n + 1) = i * n + i)%N; last by rewrite mulnDr muln1.
apply: ensures_mono (mrep_set ilt ilt vI xE) _ => w; rewrite /I.
rewrite (_ : mset _ _ _ _ = \matrix_(a, b) (if (a == b) && (a < i.+1)%N then zmul 1 k else 0)) //.
apply/matrixP => a b; rewrite !mxE ltnSE'.
case: (eqVneq (a : nat) i) => [ai|] //=; rewrite andbT ai ltnn andbF -ai.
by rewrite [b == a :> nat]eq_sym.
Qed.

Hypothesis hcfg : Z.le (Zpos (xO xH)) (ptr_bits cfg).

Lemma good_isize1 : good_isize cfg (Zpos xH).
Proof.
have [h1 h2] := imin_imax hcfg; split; last by lia.
by apply/in_iP; lia.
Qed.

Lemma mat_one : gives p mrep (matrix_one A n) 1%:M.
Proof. exact: mat_int good_isize1. Qed.

Lemma mat_is_one v N : mrep v N -> answers p (matrix_is_one A n v) (N == 1%:M).
Proof. by move=> vN; apply: (default_is_one_ok (equals_ok mat_domain) mat_one vN). Qed.

(** ** Row operations *)

Lemma mat_mul_row v N i (ilt : (i < n)%N) x c : mrep v N -> rep x c ->
  ensures p (mul_row A n v i x) (fun w => mrep w (rscale (Ordinal ilt) c N)).
Proof.
move=> [r [vr sr rE]] xc; rewrite /mul_row.
have ini : (i * n + n <= n * n)%N by nia.
apply: ensures_assert_bind; first by rewrite (reps_size vr) sr.
have hm y a : rep y a -> ensures p (mul_assign A y x) (fun z => rep z (a * c)).
  by move=> ya; exact: (mul_assign_ok hS ya xc).
apply: ensures_bind (ensures_mapM (g := fun a => a * c) (reps_take _ (reps_drop _ vr)) hm) _ => s sE.
apply: ensures_ret.
set m := [seq a * c | a <- _] in sE.
have st : size (take (i * n) r) = (i * n)%N by rewrite size_takel // sr; lia.
have sm : size m = n.
  by rewrite size_map size_takel // size_drop sr; lia.
exists (take (i * n) r ++ m ++ drop (i * n + n) r); split.
- apply: reps_cat; first exact: reps_take.
  by apply: reps_cat => //; exact: reps_drop.
- by rewrite !size_cat st sm size_drop sr; lia.
- move=> a b; rewrite mxE -(inj_eq val_inj) /= !rE !nth_cat st sm.
  case: (ltngtP a i) => ai.
  + by rewrite ifT ?nth_take //; have := ltn_ord b; nia.
  + rewrite ifF; last by apply/negbTE; rewrite -leqNgt; nia.
    rewrite ifF; last by apply/negbTE; rewrite -leqNgt; nia.
    by rewrite nth_drop; congr (_`__); nia.
  + rewrite ai ltnNge leq_addr /= addKn ltn_ord (nth_map 0).
      by rewrite nth_take // nth_drop.
    by rewrite size_takel // size_drop sr; lia.
Qed.

Lemma mat_add_rows v N i j (ilt : (i < n)%N) (jlt : (j < n)%N) x c : i <> j ->
  mrep v N -> rep x c ->
  ensures p (add_rows A n v i j x) (fun w => mrep w (radd (Ordinal ilt) (Ordinal jlt) c N)).
Proof.
move=> ij vN xc; rewrite /add_rows.
set oi := Ordinal ilt; set oj := Ordinal jlt.
have oij : (oi == oj) = false by apply/negbTE/eqP => -[].
pose st k : 'M[F]_n :=
  \matrix_(a, b) (if (a == oj) && (b < k)%N then N oj b + N oi b * c else N a b).
have I0 : mrep v (st 0%N).
  rewrite (_ : st 0%N = N) //; apply/matrixP => a b; rewrite mxE ltn0 andbF.
  by [].
apply: ensures_mono (@ensures_for _ p 0 n _ _ (fun k w => mrep w (st k)) I0 _) _; last first.
  move=> w; rewrite add0n (_ : st n = radd oi oj c N) //.
  by apply/matrixP => a b; rewrite !mxE ltn_ord andbT.
move=> k w /andP[_]; rewrite add0n => klt wk.
apply: ensures_bind (mrep_get ilt klt wk) _ => y yE.
apply: ensures_bind (mul_ok hS yE xc) _ => z zE.
apply: ensures_bind (mrep_get jlt klt wk) _ => u uE.
apply: ensures_bind (add_assign_ok hC uE zE) _ => t tE.
apply: ensures_mono (mrep_set jlt klt wk tE) _ => w' w'E.
rewrite (_ : st k.+1 = mset (st k) j k (st k oj (Ordinal klt) + st k oi (Ordinal klt) * c)) //.
apply/matrixP => a b; rewrite !mxE /= oij eqxx ltnn /= -(inj_eq val_inj) /=.
rewrite ltnSE'; case: (eqVneq (a : nat) j) => aj //=.
case: (eqVneq (b : nat) k) => bk //=.
by have -> : b = Ordinal klt by exact: val_inj.
Qed.

Lemma mat_swap_rows v N i j (ilt : (i < n)%N) (jlt : (j < n)%N) : i <> j ->
  mrep v N ->
  ensures p (swap_rows n v i j) (fun w => mrep w (xrow (Ordinal ilt) (Ordinal jlt) N)).
Proof.
move=> ij vN; rewrite /swap_rows.
set oi := Ordinal ilt; set oj := Ordinal jlt.
pose st k : 'M[F]_n := \matrix_(a, b)
  (if (b < k)%N then N (tperm oi oj a) b else N a b).
have I0 : mrep v (st 0%N).
  by rewrite (_ : st 0%N = N) //; apply/matrixP => a b; rewrite mxE.
apply: ensures_mono (@ensures_for _ p 0 n _ _ (fun k w => mrep w (st k)) I0 _) _; last first.
  move=> w; rewrite add0n (_ : st n = xrow oi oj N) //.
  by apply/matrixP => a b; rewrite !mxE ltn_ord.
move=> k w /andP[_]; rewrite add0n => klt wk.
apply: ensures_bind (mrep_get ilt klt wk) _ => y yE.
apply: ensures_bind (mrep_get jlt klt wk) _ => z zE.
apply: ensures_bind (mrep_set ilt klt wk zE) _ => w1 w1E.
apply: ensures_mono (mrep_set jlt klt w1E yE) _ => w2 w2E.
rewrite (_ : st k.+1 = mset (mset (st k) i k (st k oj (Ordinal klt))) j k (st k oi (Ordinal klt))) //.
apply/matrixP => a b; rewrite !mxE /= ltnn ltnSE'.
case: (eqVneq (b : nat) k) => bk /=; rewrite ?andbF ?andbT //.
have -> : b = Ordinal klt by exact: val_inj.
case: (eqVneq (a : nat) j) => aj.
  by have -> : a = oj; [exact: val_inj|rewrite tpermR].
case: (eqVneq (a : nat) i) => ai.
  by have -> : a = oi; [exact: val_inj|rewrite tpermL].
rewrite /= ltnn tpermD //; apply/eqP => h; [case/eqP: ai|case/eqP: aj]; by rewrite -h.
Qed.

(** ** Elimination *)

Lemma mat_find_row v N k (klt : (k < n)%N) : mrep v N ->
  ensures p (find_row A n v k) (fun o => match o with
    | Some row => exists rlt : (row < n)%N, [/\ (k <= row)%N,
        N (Ordinal rlt) (Ordinal klt) != 0 &
        forall a : 'I_n, (k <= a < row)%N -> N a (Ordinal klt) = 0]
    | None => forall a : 'I_n, (k <= a)%N -> N a (Ordinal klt) = 0
    end).
Proof.
move=> vN; rewrite /find_row.
pose P row := if @insub _ (fun i => i < n)%N _ row is Some a
  then N a (Ordinal klt) != 0 else false.
have PE row (rlt : (row < n)%N) : P row = (N (Ordinal rlt) (Ordinal klt) != 0).
  by rewrite /P (insubT (fun i => i < n)%N rlt).
have h := @ensures_findM p k (n - k) (fun row => let! x := vget v (row * n + k) in
  notM (is_zero A x)) P.
apply: ensures_mono (h _) _ => {h}.
  move=> row; rewrite subnKC; last exact: ltnW.
  move=> /andP[_ rlt]; rewrite (PE _ rlt).
  apply: ensures_bind (mrep_get rlt klt vN) _ => x xE.
  exact: (ensures_notM (is_zero_ok hC xE)).
rewrite subnKC; last exact: ltnW.
move=> [row [kr rlt Prow hj]|h].
  exists rlt; split=> //; first by rewrite -PE.
  move=> a /hj; rewrite (PE _ (ltn_ord a)) ordE negbK; exact/eqP.
move=> a ka; apply/eqP; have := h a; rewrite ka ltn_ord => /(_ isT).
by rewrite (PE _ (ltn_ord a)) ordE negbK.
Qed.

Lemma xrow_entry (i j : 'I_n) N a b :
  xrow i j N a b = N (tperm i j a) b.
Proof. by rewrite mxE. Qed.

Lemma det_clear_ok v N k (klt : (k < n)%N) : mrep v N -> cleared k N ->
  (forall a : 'I_n, (a <= k)%N -> N a a = 1) ->
  ensures p (det_clear_below A n v k) (fun w => exists2 N', mrep w N' &
    [/\ cleared k.+1 N', forall a : 'I_n, (a <= k)%N -> N' a a = 1, \det N' = \det N &
        lminors N -> lminors N']).
Proof.
move=> vN cN dN; set ok := Ordinal klt.
pose I row w := exists2 N', mrep w N' & [/\ cleared k N',
  forall a : 'I_n, (a <= k)%N -> N' a a = 1,
  forall a : 'I_n, (k < a < row)%N -> N' a ok = 0 & \det N' = \det N /\
  (lminors N -> lminors N')].
have I0 : I k.+1 v.
  by exists N => //; split=> // a /andP[h1 h2]; exfalso; lia.
apply: ensures_mono (@ensures_for _ p k.+1 (n - k.+1) _ _ I I0 _) _; last first.
  rewrite subnKC // => w [N' wN' [c1 c2 c3 [c4 c5]]]; exists N' => //; split=> // a b.
  rewrite ltnSE' => /orP[/eqP bk|bk] ba; last exact: c1.
  have -> : b = ok by exact: val_inj.
  by apply: c3; rewrite -bk ba ltn_ord.
rewrite subnKC // => row w /andP[kr rlt] [N' wN' [c1 c2 c3 [c4 c5]]].
apply: ensures_bind (mrep_get rlt klt wN') _ => x xE.
apply: ensures_bind (is_zero_ok hC xE) _ => b ->; case: eqVneq => x0.
  apply: ensures_ret; exists N' => //; split=> // a /andP[ka]; rewrite ltnSE'.
  case/orP=> [/eqP ar|ar]; last by apply: c3; rewrite ka.
  by have -> : a = Ordinal rlt by exact: val_inj.
apply: ensures_bind (neg_ok hB xE) _ => y yE.
have krn : k <> row by lia.
apply: ensures_mono (mat_add_rows klt rlt krn wN' yE) _ => w' w'E.
eexists; first exact: w'E; split.
- move=> a d dk da; rewrite mxE; case: eqP => ar; last exact: c1.
  have -> : N' ok d = 0 by exact: c1.
  by have -> : N' (Ordinal rlt) d = 0; [apply: c1 => //=; exact: ltn_trans kr|rewrite mul0r addr0].
- move=> a ak; rewrite mxE; case: eqP => [h|_]; last exact: c2.
  by have /= := congr1 val h; lia.
- move=> a /andP[ka]; rewrite ltnSE' mxE => h; case: eqP => [_|ar].
    by rewrite c2 //= mul1r addrC addNr.
  apply: c3; rewrite ka /=; case/orP: h => // /eqP h; case: ar; exact: val_inj.
- split=> [|/c5]; last by apply: lminors_radd.
  by rewrite det_radd //; apply/eqP => -[].
Qed.

Lemma xrow_cleared (k row : 'I_n) N : (k <= row)%N -> cleared k N -> cleared k (xrow k row N).
Proof.
move=> kr cN a b bk ba; rewrite xrow_entry; case: tpermP => [_|_|_ _]; apply: cN => //.
exact: leq_trans bk kr.
Qed.

Lemma rscale_cleared k (i : 'I_n) c N : cleared k N -> cleared k (rscale i c N).
Proof. by move=> cN a b bk ba; rewrite mxE cN // mul0r if_same. Qed.

(** The determinant, up to the sign the code forgets. *)
Lemma mat_determinant v N : mrep v N ->
  ensures p (determinant A n v) (fun x => exists2 b : bool, rep x ((-1) ^+ b * \det N) & lminors N -> b = false).
Proof.
move=> vN; rewrite /determinant.
apply: ensures_bind (one_ok hM) _ => o oE.
pose I k (s : seq E * E) := exists N' d (b : bool),
  [/\ mrep s.1 N', rep s.2 d, cleared k N', forall a : 'I_n, (a < k)%N -> N' a a = 1 &
      d * \det N' = (-1) ^+ b * \det N /\ (lminors N -> b = false /\ lminors N')].
have I0 : I 0%N (v, o) by exists N, 1, false; split=> //; rewrite expr0.
apply: ensures_bind
  (@ensures_for_ret _ p _ 0 n _ _ I (fun z => \det N = 0 /\ rep z 0) I0 _) _.
  move=> k [w d] /andP[_]; rewrite add0n => klt [N' [d' [b [/= wN' dd c1 c2 [c3 c4]]]]].
  apply: ensures_bind (mat_find_row klt wN') _ => -[row [rlt [kr nz fst]]|zr]; last first.
    apply: ensures_bind (zero_ok hC) _ => z zE; apply: ensures_ret; split=> //.
    move/eqP: c3; rewrite (det_singular (k := Ordinal klt) c1 zr) mulr0 eq_sym mulf_eq0.
    by rewrite signr_eq0 => /eqP.
  set ok := Ordinal klt; set or := Ordinal rlt in nz.
  have hsw : ensures p (if row != k then swap_rows n w k row else ret w) (fun w' =>
      exists N1 (b1 : bool), [/\ mrep w' N1, cleared k N1,
        forall a : 'I_n, (a < k)%N -> N1 a a = 1, d' * \det N1 = (-1) ^+ b1 * \det N &
        N1 ok ok != 0 /\ (lminors N -> b1 = false /\ lminors N1)]).
    case: eqVneq => rk /=.
      apply: ensures_ret; exists N', b; split=> //.
      by split=> //; move: nz; rewrite (_ : or = ok) //; exact: val_inj.
    have krn : k <> row by move=> h; rewrite h eqxx in rk.
    apply: ensures_mono (mat_swap_rows klt rlt krn wN') _ => w' w'E.
    exists (xrow ok or N'), (~~ b); split=> //.
    - exact: (xrow_cleared (k := ok) (row := or) kr c1).
    - by move=> a ak; rewrite xrow_entry tpermD ?c2 //; apply/eqP => /(congr1 val) /=; lia.
    - rewrite det_xrow ?mulrN ?c3; last by apply/eqP => -[].
      by rewrite -mulNr; congr (_ * _); case: (b); rewrite /= ?expr0 ?expr1 ?opprK.
    - split; first by rewrite xrow_entry tpermL.
      move=> /c4[_ hl]; exfalso; have kr' : (k < row)%N by lia.
      have := lminors_pivot (k := ok) (leq_ltn_trans kr' rlt) c1 hl.
      by rewrite fst ?eqxx //= leqnn.
  apply: ensures_bind hsw _ => w1 [N1 [b1 [w1E c1' c2' c3' [nz1 c4']]]].
  apply: ensures_bind (mrep_get klt klt w1E) _ => x xE.
  apply: ensures_bind (mul_assign_ok hS dd xE) _ => d1 d1E.
  apply: ensures_bind (finv_ok (fi_fi_ok hF) xE nz1) _ => y yE.
  apply: ensures_bind (mat_mul_row klt w1E yE) _ => w2 w2E.
  have c1'' := rscale_cleared (Ordinal klt) (N1 ok ok)^-1 c1'.
  have c2'' (a : 'I_n) : (a <= k)%N -> rscale ok (N1 ok ok)^-1 N1 a a = 1.
    move=> ak; rewrite mxE; case: eqVneq => [->|ne]; first by rewrite divff.
    by apply: c2'; rewrite ltn_neqAle ak andbT; move: ne; rewrite -(inj_eq val_inj).
  apply: ensures_bind (det_clear_ok klt w2E c1'' c2'') _ => w3 [N3 w3E [e1 e2 e3 e4]].
  apply: ensures_ret; exists N3, (d' * N1 ok ok), b1; split=> //; split; last first.
    move=> /c4'[-> hl]; split=> //; apply: e4; apply: lminors_rscale => //.
    by rewrite invr_eq0.
  by rewrite e3 det_rscale -c3' -/ok -mulrA; congr (_ * _); rewrite mulrA divff ?mul1r.
move=> [[w d] [N' [d' [b [/= wN' dd c1 c2 [c3 c4]]]]]|z [dN zE]]; apply: ensures_ret.
  exists b; last by move=> /c4[].
  rewrite -c3 det_unitri ?mulr1 // => a; apply: c2; rewrite add0n.
  exact: ltn_ord.
by exists false => //; rewrite dN mulr0.
Qed.

Lemma mat_unitP N : (exists T, inverse_of mulmx 1%:M N T) <-> \det N != 0.
Proof.
split=> [[T [NT _]]|d0].
  have : \det (N *m T) = 1 by rewrite NT det1.
  rewrite det_mulmx => h.
  by apply: contra_eq_neq h => ->; rewrite mul0r eq_sym oner_neq0.
have u : N \in unitmx by rewrite unitmxE unitfE.
by exists (invmx N); split; [exact: mulmxV|exact: mulVmx].
Qed.

Lemma mat_invertible v N : mrep v N ->
  decides p (matrix_invertible A n v) (exists T, inverse_of mulmx 1%:M N T).
Proof.
move=> vN; apply: ensures_bind (mat_determinant vN) _ => d [b dE _].
apply: ensures_mono (ensures_notM (is_zero_ok hC dE)) _ => r ->.
rewrite mulf_eq0 signr_eq0 /=; exact: iff_sym (mat_unitP N).
Qed.

(** ** Inversion *)

(** The first [k] columns are those of the identity matrix. *)
Definition idcols k N : Prop := forall a b : 'I_n, (b < k)%N -> N a b = (a == b)%:R.

Lemma idcols_cleared k N : idcols k N -> cleared k N.
Proof. by move=> h a b bk ba; rewrite h // -(inj_eq val_inj) gtn_eqF. Qed.

Lemma idcols_n N : idcols n N -> N = 1%:M.
Proof. by move=> h; apply/matrixP => a b; rewrite h ?ltn_ord // mxE. Qed.

Lemma inv_clear_ok v w N T U k (klt : (k < n)%N) : mrep v N -> mrep w T ->
  T *m U = N -> \det T != 0 -> idcols k N -> N (Ordinal klt) (Ordinal klt) = 1 ->
  ensures p (inv_clear_others A n (v, w) k) (fun vw => exists N' T',
    [/\ mrep vw.1 N', mrep vw.2 T', T' *m U = N', \det T' != 0 & idcols k.+1 N']).
Proof.
move=> vN wT TU T0 iN kN; set ok := Ordinal klt.
pose I row (vw : seq E * seq E) := exists N' T',
  [/\ mrep vw.1 N', mrep vw.2 T', T' *m U = N', \det T' != 0 &
   [/\ idcols k N', N' ok ok = 1 &
    forall a : 'I_n, (a < row)%N -> a <> ok -> N' a ok = 0]].
have I0 : I 0%N (v, w) by exists N, T.
apply: ensures_mono (@ensures_for _ p 0 n _ _ I I0 _) _; last first.
  rewrite add0n => vw [N' [T' [h1 h2 h3 h4 [h5 h6 h7]]]]; exists N', T'; split=> // a b.
  rewrite ltnSE' => /orP[/eqP bk|]; last exact: h5.
  have -> : b = ok by exact: val_inj.
  by case: eqVneq => [->|/eqP ne] //; rewrite h7 // ltn_ord.
move=> row [v' w'] /andP[_]; rewrite add0n => rlt.
move=> [N' [T' [/= h1 h2 h3 h4 [h5 h6 h7]]]].
case: eqVneq => rk.
  apply: ensures_ret; exists N', T'; split=> //; split=> // a; rewrite ltnSE'.
  by case/orP => [/eqP ar|ar] ne; [case: ne; apply: val_inj; rewrite /= -rk|exact: h7].
apply: ensures_bind (mrep_get rlt klt h1) _ => x xE.
apply: ensures_bind (is_zero_ok hC xE) _ => b ->; case: eqVneq => x0.
  apply: ensures_ret; exists N', T'; split=> //; split=> // a; rewrite ltnSE'.
  case/orP => [/eqP ar|ar] ne; last exact: h7.
  by have -> : a = Ordinal rlt by exact: val_inj.
apply: ensures_bind (neg_ok hB xE) _ => y yE.
have krn : k <> row by move=> h; rewrite h eqxx in rk.
apply: ensures_bind (mat_add_rows klt rlt krn h1 yE) _ => v2 v2E.
apply: ensures_bind (mat_add_rows klt rlt krn h2 yE) _ => w2 w2E.
have kr : ok != Ordinal rlt by apply/eqP => -[].
apply: ensures_ret; do 2 eexists; split; [exact: v2E|exact: w2E| | |split].
- by rewrite radd_mul h3.
- by rewrite det_radd.
- move=> a b' bk; rewrite mxE; case: eqP => [->|_]; last exact: h5.
  have -> : N' (Ordinal klt) b' = 0; last by rewrite mul0r addr0; exact: h5.
  by rewrite h5 // -(inj_eq val_inj) /= gtn_eqF.
- by rewrite mxE (negbTE kr).
- move=> a; rewrite ltnSE' mxE => h ne; case: eqP => [_|ar].
    by rewrite h6 mul1r addrC addNr.
  apply: h7 => //; case/orP: h => // /eqP h; case: ar; exact: val_inj.
Qed.

(** the loop of try_inv (matrix_ring.rs:187-211) *)
Definition inv_step (col : nat) (vi : seq E * seq E) : M ((seq E * seq E) + unit) :=
  let '(v, invs) := vi in
  let! o := find_row A n v col in
  if o is Some row then
    let! vi :=
      (if row != col then
         let! v := swap_rows n v col row in
         let! invs := swap_rows n invs col row in
         ret (v, invs)
       else ret (v, invs)) in
    let '(v, invs) := vi in
    let! x := vget v (col * n + col) in
    let! coef := finv A x in
    let! v := mul_row A n v col coef in
    let! invs := mul_row A n invs col coef in
    let! vi := inv_clear_others A n (v, invs) col in
    ret (inl vi)
  else ret (inr tt).
Lemma mat_inv_loop v o N : mrep v N -> mrep o 1%:M ->
  ensures p (for_loop_ret 0 n inv_step (v, o)) (fun r => match r with
    | inl s => mrep s.1 1%:M /\ exists2 T, mrep s.2 T & T *m N = 1%:M
    | inr _ => \det N = 0
    end).
Proof.
move=> vN oE.
pose I k (s : seq E * seq E) := exists N' T', [/\ mrep s.1 N', mrep s.2 T',
  T' *m N = N', \det T' != 0 & idcols k N'].
have I0 : I 0%N (v, o).
  by exists N, 1%:M; split=> //; rewrite ?mul1mx // det1 oner_neq0.
apply: (ensures_mono
  (@ensures_for_ret _ p _ 0 n _ _ I (fun _ => \det N = 0) I0 _)).
  move=> k [w t] /andP[_]; rewrite add0n => klt [N' [T' [/= wN' tT' c1 c2 c3]]].
  have c3' := idcols_cleared c3.
  apply: ensures_bind (mat_find_row klt wN') _ => -[row [rlt [kr nz _]]|zr]; last first.
    apply: ensures_ret => /=; apply/eqP.
    have := det_singular (k := Ordinal klt) c3' zr; rewrite -c1 det_mulmx => /eqP.
    by rewrite mulf_eq0 (negbTE c2).
  set ok := Ordinal klt; set or := Ordinal rlt in nz.
  have hsw : ensures p (if row != k then
           let! v := swap_rows n w k row in
           let! invs := swap_rows n t k row in
           ret (v, invs)
         else ret (w, t)) (fun s => exists N1 T1, [/\ mrep s.1 N1, mrep s.2 T1,
           T1 *m N = N1, \det T1 != 0 & idcols k N1 /\ N1 ok ok != 0]).
    case: eqVneq => rk /=.
      apply: ensures_ret; exists N', T'; split=> //; split=> //.
      by move: nz; rewrite (_ : or = ok) //; exact: val_inj.
    have krn : k <> row by move=> h; rewrite h eqxx in rk.
    apply: ensures_bind (mat_swap_rows klt rlt krn wN') _ => w1 w1E.
    apply: ensures_bind (mat_swap_rows klt rlt krn tT') _ => t1 t1E.
    apply: ensures_ret; do 2 eexists; split; [exact: w1E|exact: t1E| | |split].
    - by rewrite xrow_mul c1.
    - by rewrite det_xrow ?oppr_eq0 //; apply/eqP => -[].
    - move=> a b bk; rewrite xrow_entry !c3 //; congr (_%:R).
      have kb : (ok == b) = false by apply/eqP => /(congr1 val) /=; lia.
      have rb : (or == b) = false by apply/eqP => /(congr1 val) /=; lia.
      by case: tpermP => [->|->|_ _]; rewrite ?kb ?rb.
    - by rewrite xrow_entry tpermL.
  apply: ensures_bind hsw _ => -[w1 t1] [N1 [T1 [/= w1E t1E e1 e2 [e3 nz1]]]].
  apply: ensures_bind (mrep_get klt klt w1E) _ => x xE.
  apply: ensures_bind (finv_ok (fi_fi_ok hF) xE nz1) _ => y yE.
  apply: ensures_bind (mat_mul_row klt w1E yE) _ => w2 w2E.
  apply: ensures_bind (mat_mul_row klt t1E yE) _ => t2 t2E.
  have f1 : rscale ok (N1 ok ok)^-1 T1 *m N = rscale ok (N1 ok ok)^-1 N1.
    by rewrite rscale_mul e1.
  have f2 : \det (rscale ok (N1 ok ok)^-1 T1) != 0.
    by rewrite det_rscale mulf_neq0 // invr_eq0.
  have f3 : idcols k (rscale ok (N1 ok ok)^-1 N1).
    move=> a b bk; rewrite mxE e3 //; case: eqP => // ->.
    rewrite (_ : (ok == b) = false) ?mul0r //.
    by apply/eqP => /(congr1 val) /=; lia.
  have f4 : rscale ok (N1 ok ok)^-1 N1 ok ok = 1 by rewrite mxE eqxx divff.
  apply: ensures_bind (inv_clear_ok w2E t2E f1 f2 f3 f4) _ => -[w3 t3].
  by move=> [N3 [T3 [/= g1 g2 g3 g4 g5]]]; apply: ensures_ret; exists N3, T3.
case=> [[w t] [N' [T' [/= wN' tT' c1 c2 c3]]]|z //].
have N1 : N' = 1%:M by exact: idcols_n c3.
by rewrite N1 in wN' c1; split=> //; exists T'.
Qed.

Lemma mat_try_inv v N : mrep v N ->
  ensures p (matrix_try_inv cfg A n v) (fun o => match o with
    | Some w => exists2 T, mrep w T & inverse_of mulmx 1%:M N T
    | None => forall T, ~ inverse_of mulmx 1%:M N T
    end).
Proof.
move=> vN; rewrite /matrix_try_inv.
apply: ensures_bind mat_one _ => o oE.
apply: ensures_bind (mat_inv_loop vN oE) _ => -[[w t] [/= w1 [T tT e]]|z dN].
  apply: (@ensures_bind _ _ _ _ _ (fun _ => True)).
    apply: ensures_debug => //; apply: ensures_mono (mat_is_one w1) _ => b ->.
    by rewrite eqxx.
  move=> _ _; apply: ensures_ret; exists T => //; split=> //.
  exact: mulmx1C.
apply: ensures_ret => T hT.
have /mat_unitP : exists T, inverse_of mulmx 1%:M N T by exists T.
by rewrite dN eqxx.
Qed.

Lemma zmul_scalar k : (zmul 1 k)%:M = zmul 1%:M k :> 'M[F]_n.
Proof.
by case: k => [|m|m] /=; rewrite ?raddf0 // ?raddfN /= raddfMn.
Qed.

(** The whole algebra. *)
Lemma MatrixRing_ok : ring_alg_spec cfg p mrep mulmx 1%:M (MatrixRing cfg A n).
Proof.
split; [split| | |].
- exact: mat_domain.
- by apply: semigroup_default; exact: mat_mul.
- split=> /=.
  + exact: mat_one.
  + exact: mat_is_one.
  + exact: mat_try_inv.
  + exact: mat_invertible.
- exact: mat_cmonoid.
- exact: mat_abelian.
- by split=> /= k gk; rewrite -zmul_scalar; exact: mat_int.
Qed.
End Matrix.
