(** * PMatProps.v -- the properties of matrices and vectors, from PMat.v and PVec.v. *)

From Coq Require Import ZArith Lia List.
From mathcomp Require Import all_ssreflect all_algebra zify.
From Verif Require Import Rust Traits MInts MConstr RingTac Wp Spec PropSpec RingSpec Laws.
From Verif Require Import PDefaults PVec MatFacts PMat PLaws PLaws2 PDistr PPolyProps.

Set Implicit Arguments.
Unset Strict Implicit.
Unset Printing Implicit Defensive.

Import GRing.Theory.
Local Open Scope ring_scope.

Lemma bad_len1 E n (v : seq E) : bad_length n v -> size v != n.
Proof. by move/eqP. Qed.
Lemma bad_len2 E n (v u : seq E) : bad_length n v \/ bad_length n u ->
  (size v != n) || (size u != n).
Proof. by case=> /eqP ->; rewrite ?orbT. Qed.

(** ** Vectors *)
Section Vectors.
Variables (cfg : Cfg) (p : Prop) (E : Type) (n : nat).

Section Rep.
Variables (V : eqType) (rep : E -> V -> Prop).
Lemma vector_ofE v (f : {ffun 'I_n -> V}) : vector_of rep v f <->
  size v = n /\ forall (i : 'I_n) d, rep (nth d v i) (f i).
Proof.
split=> [h|[sv h]].
  have sv : size v = n by rewrite (vrep_size h).
  split=> // i d; have := h => /(Forall2_nthP rep _ _ d (f i)) [_ /(_ i)].
  rewrite sv ltn_ord => /(_ isT); rewrite (nth_map i) ?size_enum_ord ?ltn_ord //.
  by rewrite nth_ord_enum.
case: n f sv h => [f /size0nil -> _|m f sv h].
  by rewrite /vector_of enum_ord0; exact: Forall2_nil.
case: v sv h => // d v sv h; apply/(Forall2_nthP rep _ _ d (f ord0)).
rewrite size_map size_enum_ord; split=> // i; rewrite sv => im.
rewrite (nth_map ord0) ?size_enum_ord //.
have -> : nth ord0 (enum 'I_m.+1) i = Ordinal im by apply: val_inj; rewrite /= nth_enum_ord.
exact: (h (Ordinal im) d).
Qed.
End Rep.

Lemma vector_checks (A : RingAlg E) :
  [/\ checks_domain n (VectorRing cfg n A), checks_mult n (VectorRing cfg n A),
      checks_monoid n (VectorRing cfg n A) &
      checks_additive n (VectorRing cfg n A) (VectorRing cfg n A)].
Proof.
have h1 T (v : seq E) (m : M T) : bad_length n v -> panics (do! assert_len1 n v in m).
  by move=> /bad_len1; exact: assert_len1_panics.
have h2 T (v u : seq E) (m : M T) : bad_length n v \/ bad_length n u ->
  panics (do! assert_len2 n v u in m) by move=> /bad_len2; exact: assert_len2_panics.
split.
- split=> [v /bad_len1 hv|v u hv] /=; last exact: h2.
  by rewrite hv; exact: returns_ret.
- by split=> [v hv|v u hv] /=; [exact: h1|split; exact: h2].
- by move=> v hv /=; split; exact: h1.
- by split=> [v hv|v u hv] /=; split; (exact: h1 || exact: h2).
Qed.

Lemma vector_lattice_checks (A : LatticeAlg E) :
  checks_domain n (VectorLattice n A) /\ checks_lattice n (VectorLattice n A) (VectorLattice n A).
Proof.
have h2 T (v u : seq E) (m : M T) : bad_length n v \/ bad_length n u ->
  panics (do! assert_len2 n v u in m) by move=> /bad_len2; exact: assert_len2_panics.
split.
- split=> [v /bad_len1 hv|v u hv] /=; last exact: h2.
  by rewrite hv; exact: returns_ret.
- move=> v u hv; split; [exact: h2| | |exact: h2|exact: h2] => /=.
    by apply: panics_bind; apply: panics_bind; exact: h2.
  by apply: panics_bind; exact: h2.
Qed.

Lemma vector_methods (V : zmodType) (rep : E -> V -> Prop) op e (A : RingAlg E) :
  ring_alg_spec cfg p rep op e A ->
  ring_methods p (@vector_of n E V rep) cfg (fun f g => [ffun i => op (f i) (g i)])
    [ffun => e] (VectorRing cfg n A).
Proof. by move=> hA; exact: (ring_methods_ok (VectorRing_ok n hA)). Qed.

Lemma vector_laws (V : zmodType) (rep : E -> V -> Prop) op e (A : RingAlg E) :
  ring_alg_spec cfg p rep op e A -> Z.le (Zpos (xO xH)) (ptr_bits cfg) ->
  associative op -> left_id e op -> right_id e op ->
  (forall a b c : V, op a (b + c) = op a b + op a c) ->
  (forall a b c : V, op (a + b) c = op a c + op b c) ->
  ring_alg_laws p (fun x => exists f, @vector_of n E V rep x f) cfg (VectorRing cfg n A).
Proof.
move=> hA hc oA o1 o2 dl dr.
apply: (ring_alg_laws_ok hc (fun x h => h) _ _ _ _ _ (VectorRing_ok n hA)).
- by move=> f g h; apply/ffunP => i; rewrite !ffunE oA.
- by move=> f; apply/ffunP => i; rewrite !ffunE o1.
- by move=> f; apply/ffunP => i; rewrite !ffunE o2.
- by move=> f g h; apply/ffunP => i; rewrite !ffunE dl.
- by move=> f g h; apply/ffunP => i; rewrite !ffunE dr.
Qed.
End Vectors.

(** ** Matrices *)
Section Matrices.
Variables (cfg : Cfg) (p : Prop) (E : Type) (n : nat).

Lemma matrix_ofE (R : ringType) (rep : E -> R -> Prop) v (N : 'M[R]_n) : matrix_of rep v N <->
  size v = (n * n)%N /\ forall (i j : 'I_n) d, rep (nth d v (i * n + j)) (N i j).
Proof.
split=> [[r [vr sr hr]]|[sv h]].
  have sv : size v = (n * n)%N by rewrite (reps_size vr).
  split=> // i j d; have := vr => /(Forall2_nthP rep _ _ d 0) [_ /(_ (i * n + j)%N)].
  by rewrite sv ix_lt // -hr; apply.
pose f k : R := if @insub _ (fun i => i < n)%N _ (k %/ n)%N is Some i then
  if @insub _ (fun i => i < n)%N _ (k %% n)%N is Some j then N i j else 0 else 0.
have fE (i j : 'I_n) : f (i * n + j)%N = N i j.
  have [h1 h2 h3] := ix_div (ix_lt (ltn_ord i) (ltn_ord j)).
  rewrite /f (insubT (fun i => i < n)%N h1) (insubT (fun i => i < n)%N h2).
  have /eqP := h3; rewrite ix_eq // => /andP[/eqP h4 /eqP h5].
  by congr (N _ _); apply: val_inj => /=; rewrite -?h4 -?h5.
exists (mkseq f (n * n)); split; last by move=> i j; rewrite nth_mkseq ?fE // ix_lt.
- case: v sv h => [|d v] sv h; first by rewrite -sv; exact: Forall2_nil.
  apply/(Forall2_nthP rep _ _ d 0); rewrite size_mkseq; split=> // k kn.
  rewrite sv in kn; rewrite nth_mkseq //; have [h1 h2 h3] := ix_div kn.
  by rewrite h3; have := h (Ordinal h1) (Ordinal h2) d; rewrite -fE.
- by rewrite size_mkseq.
Qed.

Section Field.
Variables (F : fieldType) (rep : E -> F -> Prop) (A : FieldAlg E).
Hypothesis hF : field_alg_spec cfg p rep A.
Hypothesis hc : Z.le (Zpos (xO xH)) (ptr_bits cfg).
Local Notation mof := (@matrix_of n E F rep).

Lemma matrix_methods : ring_methods p mof cfg mulmx 1%:M (MatrixRing cfg A n).
Proof. exact: (ring_methods_ok (MatrixRing_ok hF n hc)). Qed.

Lemma matrix_laws :
  ring_alg_laws p (fun x => exists N, mof x N) cfg (MatrixRing cfg A n).
Proof.
apply: (ring_alg_laws_ok hc (fun x h => h) _ _ _ _ _ (MatrixRing_ok hF n hc)).
- exact: mulmxA.
- exact: mul1mx.
- exact: mulmx1.
- exact: mulmxDr.
- exact: mulmxDl.
Qed.

Lemma matrix_inverse x N : mof x N ->
  ensures p (try_inv (MatrixRing cfg A n) x) (fun o => match o with
    | Some y => exists T, [/\ mof y T, N *m T = 1%:M & T *m N = 1%:M]
    | None => N \notin unitmx
    end) /\
  answers p (invertible (MatrixRing cfg A n) x) (N \in unitmx).
Proof.
have uP : (exists T, inverse_of mulmx 1%:M N T) <-> N \in unitmx.
  by rewrite mat_unitP unitmxE unitfE.
move=> xN; split.
  apply: ensures_mono (mat_try_inv hF hc xN) _ => -[y [T yT [h1 h2]]|h]; first by exists T.
  by apply/negP => /uP[T hT]; exact: (h T hT).
apply: ensures_mono (mat_invertible hF hc xN) _ => b hb; apply/idP/idP; first by move/hb/uP.
by move/uP/hb.
Qed.

Lemma matrix_determinant x N : mof x N -> ensures p (determinant A n x) (fun z =>
  [/\ rep z (\det N) \/ rep z (- \det N),
      \det N = 0 -> rep z 0,
      (1 + 1 = 0 :> F) -> rep z (\det N) &
      (forall m (mn : (m <= n)%N), (0 < m < n)%N -> \det (lsub mn N) <> 0) -> rep z (\det N)]).
Proof.
move=> xN; apply: ensures_mono (mat_determinant hF hc xN) _ => z [b zb hb]; split.
- by case: b zb {hb}; rewrite ?expr0 ?expr1 ?mul1r ?mulN1r; [right|left].
- by move=> d0; move: zb; rewrite d0 mulr0.
- move=> h; move: zb; case: (b) => //; rewrite ?expr0 ?expr1 ?mul1r //.
  have -> : (-1 : F) = 1 by apply/esym/eqP; rewrite -addr_eq0 h.
  by rewrite mul1r.
- by move/hb => b0; move: zb; rewrite b0 expr0 mul1r.
Qed.
End Field.

Lemma matrix_checks (A : FieldAlg E) :
  [/\ checks_domain (n * n) (MatrixRing cfg A n), checks_mult (n * n) (MatrixRing cfg A n),
      checks_additive (n * n) (MatrixRing cfg A n) (MatrixRing cfg A n) &
      forall v : seq E, bad_length (n * n) v -> panics (matrix_transpose n v)].
Proof.
have h1 T (v : seq E) (m : M T) : bad_length (n * n) v ->
  panics (do! assert (size v == matrix_len n) in m).
  by move=> /bad_len1 h; exact: panics_assert_bind.
have h2 T (v u : seq E) (m : M T) : bad_length (n * n) v \/ bad_length (n * n) u ->
  panics (do! assert ((size v == matrix_len n) && (size u == matrix_len n)) in m).
  by move=> /bad_len2 h; apply: panics_assert_bind; rewrite negb_and.
split.
- split=> [v /bad_len1 hv|v u hv] /=; last exact: h2.
  by rewrite /matrix_len hv; exact: returns_ret.
- split=> [v hv|v u hv] /=; first by apply: h2; left.
  by split; exact: h2.
- by split=> [v hv|v u hv] /=; split; (exact: h1 || exact: h2).
- by move=> v hv; exact: h1.
Qed.
End Matrices.

Lemma matrix_new_ok (cfg : Cfg) n :
  (Z.lt (Z.mul (Z.of_nat n) (Z.of_nat n)) (Z.pow (Zpos (xO xH)) (ptr_bits cfg)) ->
   returns (matrix_new cfg n) tt) /\
  (Z.le (Z.pow (Zpos (xO xH)) (ptr_bits cfg)) (Z.mul (Z.of_nat n) (Z.of_nat n)) ->
   panics (matrix_new cfg n)).
Proof.
rewrite /matrix_new /is_usize /in_u /umax; split=> h; last by apply: panics_assert; lia.
by rewrite (_ : _ && _ = true); [exact: returns_ret|lia].
Qed.
