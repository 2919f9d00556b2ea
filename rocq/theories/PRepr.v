(** * PRepr.v -- permutations, vectors and residues as matrices, characteristic polynomials. *)

From Coq Require Import ZArith Lia List.
From mathcomp Require Import all_ssreflect all_algebra all_fingroup zify ssrZ.
From Verif Require Import Rust Traits MInts MConstr RingTac Wp Spec PropSpec RingSpec PDefaults.
From Verif Require Import PInts POrders PGroups Quotient PQuot PFrac PFracProps PPoly PTower Laws PLaws GcdLaw PGcdLaw HomLaw PHom EvalLaw.
From Verif Require Import MatFacts DetSpec PVec PMat PMatProps PDet PPerm TimesLaw PTimesLaw ReprSpec PEval.

Set Implicit Arguments.
Unset Strict Implicit.
Unset Printing Implicit Defensive.

Import GRing.Theory.
Local Open Scope ring_scope.

(** ** Groups *)
Section Group.
Variables (cfg : Cfg) (p : Prop) (E W : Type) (V U : eqType).
Variables (rep : E -> V -> Prop) (rep' : W -> U -> Prop) (mm : E -> Prop).
Hypothesis mmP : forall x, mm x -> exists u, rep x u.
Variables (op : V -> V -> V) (e : V) (inv : V -> V) (op' : U -> U -> U) (e' : U) (inv' : U -> U).
Variables (phi : V -> U) (f : E -> M W).
Hypothesis phiM : forall a b, phi (op a b) = op' (phi a) (phi b).
Hypothesis phi1 : phi e = e'.
Hypothesis phiV : forall a, phi (inv a) = inv' (phi a).
Hypothesis phi_inj : injective phi.
Hypothesis fP : forall x u, rep x u -> gives p rep' (f x) (phi u).
Variables (A : GroupAlg E) (B : GroupAlg W).
Hypothesis hA : group_alg_spec cfg p rep op e inv A.
Hypothesis hB : group_alg_spec cfg p rep' op' e' inv' B.

Lemma npow_hom a n : phi (npow op e a n) = npow op' e' (phi a) n.
Proof. by rewrite /npow; elim: n => [|n IH] //=; rewrite phiM IH. Qed.
Lemma zpow_hom a n : phi (zpow op e inv a n) = zpow op' e' inv' (phi a) n.
Proof. by case: n => [|n|n] //=; rewrite ?npow_hom ?phiV. Qed.

Lemma group_map_ok : group_map cfg p mm f A B.
Proof.
case: hA => -[hD hS hO] hG; case: hB => -[hD' hS' hO'] hG'.
have mo (m : M E) u : gives p rep m u -> gives p rep' (let! a := m in f a) (phi u).
  by move=> h; apply: ensures_bind h _ => a; exact: fP.
split.
- by move=> x /mmP[u xu]; exact: (member_ok hD' (fP xu)).
- move=> x y /mmP[u xu] /mmP[v yv].
  by apply: (agree_ok (equals_ok hD xu yv) (same_ok hD' (fP xu) (fP yv))); rewrite (inj_eq phi_inj).
- by apply: (same_eq hD' (mo _ _ (one_ok hO)) (one_ok hO')); rewrite phi1.
- move=> x /mmP[u xu]; apply: (@agree_ok _ _ _ (u == e) (phi u == e')).
  + exact: (is_one_ok hO xu).
  + by apply: ensures_bind (fP xu) _ => a; exact: (is_one_ok hO').
  + by rewrite -phi1 (inj_eq phi_inj).
- move=> x y /mmP[u xu] /mmP[v yv]; apply: (same_eq hD' (mo _ _ (mul_ok hS xu yv)) _ (phiM u v)).
  by apply: ensures_bind (fP xu) _ => a au; apply: ensures_bind (fP yv) _ => b; exact: (mul_ok hS').
- move=> x /mmP[u xu]; apply: (same_eq hD' (mo _ _ (square_ok hS xu)) _ (phiM u u)).
  by apply: ensures_bind (fP xu) _ => a; exact: (square_ok hS').
- move=> x /mmP[u xu]; apply: (same_eq hD' (mo _ _ (ginv_ok hG xu)) _ (phiV u)).
  by apply: ensures_bind (fP xu) _ => a; exact: (ginv_ok hG').
- move=> n x /mmP[u xu] fn; apply: (same_eq hD' (mo _ _ (gpower_ok hG fn xu)) _ (zpow_hom u n)).
  by apply: ensures_bind (fP xu) _ => a; exact: (gpower_ok hG' fn).
Qed.
End Group.

(** ** Tables *)
Section Table.
Variables (E : Type) (n : nat) (f : nat -> nat -> E).
Let rows a k := flatten [seq [seq f i j | j <- iota 0 n] | i <- iota a k].
Lemma size_rows a k : size (rows a k) = (k * n)%N.
Proof. by elim: k a => [|k IH] a //=; rewrite size_cat size_map size_iota IH mulSn. Qed.
Lemma nth_rows d a k i j : (i < k)%N -> (j < n)%N -> nth d (rows a k) (i * n + j) = f (a + i) j.
Proof.
move=> ik jn; elim: k a i ik => [|k IH] a [|i] //= ik; rewrite nth_cat size_map size_iota.
  by rewrite mul0n add0n jn (nth_map 0%N) ?size_iota // nth_iota // addn0.
rewrite mulSn -addnA ltnNge leq_addr /= addKn -addSnnS; exact: IH.
Qed.
Lemma size_tabulate : size (tabulate n f) = (n * n)%N.
Proof. exact: size_rows. Qed.
Lemma nth_tabulate d i j : (i < n)%N -> (j < n)%N -> nth d (tabulate n f) (i * n + j) = f i j.
Proof. exact: nth_rows. Qed.
Lemma tabulate_of (R : ringType) (rep : E -> R -> Prop) (N : 'M[R]_n) :
  (forall i j : 'I_n, rep (f i j) (N i j)) -> matrix_of rep (tabulate n f) N.
Proof.
move=> h; apply/matrix_ofE; split; first exact: size_tabulate.
by move=> i j d; rewrite nth_tabulate.
Qed.
End Table.

(** ** Determinants of permutation matrices and triangular matrices *)
Section Det.
Variables (F : fieldType) (n : nat).

Lemma exchanges_perm (s : 'S_n) : odd (exchanges (perm_mx s : 'M[F]_n)) = odd_perm s.
Proof.
pose ex k := foldl (@exchange F n) (0%N, perm_mx s) (take k (enum 'I_n)).
have exS k (klt : (k < n)%N) : ex k.+1 = exchange (ex k) (Ordinal klt).
  by rewrite /ex take_enumS -cats1 foldl_cat.
have I k : (k <= n)%N -> exists t : 'S_n, [/\ (ex k).2 = perm_mx t,
    forall i : 'I_n, (i < k)%N -> t i = i & odd_perm t (+) odd (ex k).1 = odd_perm s].
  elim: k => [_|k IH klt]; first by exists s; rewrite /ex take0 addbF.
  have [t [e fx sg]] := IH (ltnW klt); rewrite (exS _ klt); set ok := Ordinal klt.
  have cl : cleared k (perm_mx t : 'M[F]_n).
    move=> a b bk ba; rewrite !mxE; case: eqP => // h.
    by have /perm_inj h' : t a = t b; [rewrite h fx|move: ba; rewrite h' ltnn].
  have dg (b : 'I_n) : (b < k)%N -> (perm_mx t : 'M[F]_n) b b = 1 by move=> bk; rewrite !mxE fx ?eqxx.
  pose a := (t^-1)%g ok; have ta : t a = ok by rewrite /a permKV.
  have ka : (k <= a)%N.
    by rewrite leqNgt; apply/negP => ak; have := fx _ ak; rewrite ta => h; move: ak; rewrite -h ltnn.
  have pr : pivot_row (ex k).2 ok = a.
    rewrite e; apply: head_first => [|b ba].
      by rewrite ka bordered_cleared // !mxE ta eqxx oner_neq0.
    apply/negP => /andP[kb]; rewrite bordered_cleared // !mxE; case: (eqVneq (t b) ok) => [h _|_]; last by rewrite eqxx.
    by have /perm_inj h' : t b = t a; [rewrite ta|move: ba; rewrite h' ltnn].
  rewrite /exchange pr /= e; exists (tperm ok a * t)%g; split.
  - by rewrite xrowE -perm_mxM.
  - move=> i; rewrite ltnS leq_eqVlt permM => /orP[/eqP h|h].
      have -> : i = ok by exact: val_inj.
      by rewrite tpermL ta.
    rewrite tpermD ?fx //; apply/eqP => h'; first by move: h; rewrite -h' ltnn.
    by move: h; rewrite -h' ltnNge ka.
  - rewrite odd_permM odd_tperm oddD -sg eq_sym.
    by case: (a != ok); case: (odd_perm t); case: (odd (ex k).1).
have [t [e fx sg]] := I n (leqnn n).
rewrite /exchanges -[enum _](@take_oversize _ n) ?size_enum_ord // -sg.
by have -> : t = 1%g; [apply/permP => i; rewrite perm1 fx|rewrite odd_perm1 addFb].
Qed.

Lemma trig_minors (N : 'M[F]_n) : (forall i j : 'I_n, (i < j)%N -> N i j = 0) \/
    (forall i j : 'I_n, (j < i)%N -> N i j = 0) ->
  forall m (mn : (m <= n)%N), \det (lsub mn N) = \prod_(i < m) N (widen_ord mn i) (widen_ord mn i).
Proof.
move=> h m mn; case: h => h.
  rewrite det_trig; last by apply/is_trig_mxP => i j ij; rewrite mxE h.
  by apply: eq_bigr => i _; rewrite mxE.
rewrite -det_tr det_trig; last by apply/is_trig_mxP => i j ij; rewrite !mxE h.
by apply: eq_bigr => i _; rewrite !mxE.
Qed.
End Det.

Section Field.
Variables (cfg : Cfg) (p : Prop) (E : Type) (n : nat) (F : fieldType) (rep : E -> F -> Prop).
Variable A : FieldAlg E.
Hypothesis hA : field_alg_spec cfg p rep A.
Hypothesis hc : Z.le (Zpos (xO xH)) (ptr_bits cfg).
Let hR := id_ring_ok (eu_idom_ok (fi_eucl_ok hA)).
Let hC := ri_cm_ok hR.
Let hM := mo_mo_ok (ri_mon_ok hR).
Local Notation mof := (@matrix_of n E F rep).
Let hX : ring_alg_spec cfg p mof mulmx 1%:M (MatrixRing cfg A n) := MatrixRing_ok hA n hc.

Lemma trig_determinant x (N : 'M[F]_n) : mof x N ->
  (forall i j : 'I_n, (i < j)%N -> N i j = 0) \/ (forall i j : 'I_n, (j < i)%N -> N i j = 0) ->
  ensures p (determinant A n x) (fun z => rep z (\prod_i N i i)).
Proof.
move=> xN h; have dE : \det N = \prod_i N i i.
  rewrite -[in LHS](lsub_full (leqnn n) N) trig_minors //; apply: eq_bigr => i _.
  by congr (N _ _); exact: val_inj.
apply: ensures_mono (matrix_determinant hA hc xN) _ => z [_ h0 _ h1]; rewrite -dE.
have [d0|d0] := eqVneq (\det N) 0; first by rewrite d0; exact: h0.
apply: h1 => m mn _; rewrite trig_minors //; apply/eqP/prodf_neq0 => i _.
by move: d0; rewrite dE => /prodf_neq0; apply.
Qed.

Lemma perm_matrix_ok v (s : 'S_n) : permutation_of v s ->
  gives p mof (perm_matrix A n v) (perm_mx s).
Proof.
move=> [sv vs]; apply: ensures_bind (zero_ok hC) _ => z z0; apply: ensures_bind (one_ok hM) _ => o o1.
apply: ensures_ret; apply: tabulate_of => i j; rewrite vs !mxE -(inj_eq val_inj) /=.
by case: eqP.
Qed.

Lemma perm_determinant v (s : 'S_n) : permutation_of v s ->
  ensures p (let! x := perm_matrix A n v in determinant A n x) (fun z => rep z 1).
Proof.
move=> vs; apply: ensures_bind (perm_matrix_ok vs) _ => x xN.
apply: ensures_mono (determinant_sign hA hc xN) _ => z.
by rewrite -signr_odd exchanges_perm det_perm -signr_addb addbb expr0.
Qed.

Lemma invmx_inverse (N : 'M[F]_n) : (exists T, inverse_of mulmx 1%:M N T) ->
  inverse_of mulmx 1%:M N (invmx N).
Proof. by move/mat_unitP; rewrite -unitfE -/(unitmx N) => h; split; rewrite ?mulmxV ?mulVmx. Qed.

Lemma perm_map : group_map cfg p (fun v => exists s : 'S_n, permutation_of v s) (perm_matrix A n)
  (Permutations cfg n) (MultiplicativeGroup cfg (MatrixRing cfg A n)).
Proof.
have hG := multiplicative_group_ok cfg (@mulmxA _ n n n n) (@mul1mx _ n n) (@mulmx1 _ n n)
  (ri_mon_ok hX) invmx_inverse.
apply: (group_map_ok (phi := fun s : 'S_n => perm_mx s : 'M[F]_n) _ _ _ _ _ _
  (Permutations_ok cfg p n) hG) => //.
- by move=> s t; exact: perm_mxM.
- exact: perm_mx1.
- move=> s; have e : perm_mx s *m perm_mx s^-1 = 1%:M :> 'M[F]_n by rewrite -perm_mxM mulgV perm_mx1.
  by have [su _] := mulmx1_unit e; rewrite -[perm_mx s^-1](mulKmx su) e mulmx1.
- move=> s t /matrixP h; apply/permP => i; have := h i (s i); rewrite !mxE eqxx.
  by case: (eqVneq (t i) (s i)) => // _ /eqP; rewrite oner_eq0.
- move=> v s vs; apply: ensures_mono (perm_matrix_ok vs) _ => x xN; split=> //.
  by exists (perm_mx s^-1); split; rewrite -perm_mxM ?mulgV ?mulVg perm_mx1.
Qed.

(** ** Diagonal matrices *)
Lemma diagonal_ok v (f : {ffun 'I_n -> F}) : vector_of rep v f ->
  gives p mof (diagonal A n v) (diag_mx (\row_i f i)).
Proof.
move=> vf; apply: ensures_bind (zero_ok hC) _ => z z0; apply: ensures_ret.
apply: tabulate_of => i j; rewrite !mxE -(inj_eq val_inj) /=; case: eqP => // _; rewrite mulr1n.
have := vf => /(Forall2_nthP rep _ _ z 0) [sv]; rewrite sv size_map size_enum_ord => /(_ i (ltn_ord i)).
by rewrite (nth_map i) ?size_enum_ord // nth_ord_enum.
Qed.
Lemma scalar_ok x c : rep x c -> gives p mof (scalar A n x) c%:M.
Proof.
move=> xc; have vf : vector_of rep (nseq n x) [ffun i : 'I_n => c].
  rewrite /vector_of (eq_map (f2 := fun=> c)); last by move=> i; rewrite ffunE.
  have -> : [seq c | _ <- enum 'I_n] = nseq n c.
    by rewrite -[in RHS](size_enum_ord n); elim: (enum _) => //= a s ->.
  by elim: {1 2}n => [|k IH]; [exact: Forall2_nil|exact: Forall2_cons].
apply: ensures_mono (diagonal_ok vf) _ => y; rewrite (_ : diag_mx _ = c%:M) //.
by apply/matrixP => i j; rewrite !mxE ffunE.
Qed.

Lemma diagonal_map : ring_map cfg p (fun v => exists f, @vector_of n E F rep v f) (diagonal A n)
    (VectorRing cfg n A) (MatrixRing cfg A n) /\
  one_to_one p (fun v => exists f, @vector_of n E F rep v f) (diagonal A n)
    (VectorRing cfg n A) (MatrixRing cfg A n) /\
  same_units p (fun v => exists f, @vector_of n E F rep v f) (diagonal A n)
    (VectorRing cfg n A) (MatrixRing cfg A n).
Proof.
have hV : ring_alg_spec cfg p (@vector_of n E F rep) (pointwise *%R) [ffun => 1] (VectorRing cfg n A) :=
  VectorRing_ok n hR.
pose phi (f : {ffun 'I_n -> F}) : 'M[F]_n := diag_mx (\row_i f i).
have inj : injective phi.
  move=> f g /matrixP h; apply/ffunP => i; have := h i i.
  by rewrite !mxE eqxx.
have phi1 : phi [ffun => 1] = 1%:M by apply/matrixP => i j; rewrite !mxE ffunE.
have phiM f g : phi (pointwise *%R f g) = phi f *m phi g.
  by rewrite /phi mulmx_diag; congr diag_mx; apply/rowP => i; rewrite !mxE ffunE.
split; [|split].
- apply: (ring_map_ok (phi := phi) _ _ _ _ _ _ _ diagonal_ok hV hX) => //.
  + exact: mulmxA.
  + exact: mul1mx.
  + exact: mulmx1.
  + by move=> f g; rewrite /phi -linearD; congr diag_mx; apply/rowP => i; rewrite !mxE ffunE.
- exact: (one_to_one_ok (phi := phi) _ diagonal_ok hV hX).
- move=> v [f vf].
  apply: (@agree_iff _ _ _ (exists g, inverse_of (pointwise *%R) [ffun => 1] f g)
    (exists T, inverse_of mulmx 1%:M (phi f) T)).
  + exact: (invertible_ok (mo_mo_ok (ri_mon_ok hV)) vf).
  + apply: ensures_bind (diagonal_ok vf) _ => x; exact: (invertible_ok (mo_mo_ok (ri_mon_ok hX))).
  + split=> [[g [h1 h2]]|/mat_unitP]; first by exists (phi g); split; rewrite -phiM ?h1 ?h2.
    rewrite det_diag => /prodf_neq0 h; exists [ffun i => (f i)^-1].
    by split; apply/ffunP => i; rewrite !ffunE ?mulfV ?mulVf //; have := h i isT; rewrite mxE.
Qed.
End Field.
