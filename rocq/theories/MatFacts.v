(** * MatFacts.v -- row operations and determinants, pure mathematics. *)

From mathcomp Require Import all_ssreflect all_algebra all_fingroup zify.

Set Implicit Arguments.
Unset Strict Implicit.
Unset Printing Implicit Defensive.

Import GRing.Theory.
Local Open Scope ring_scope.

Section Rows.
Variables (F : fieldType) (n : nat).
Implicit Types (N T U : 'M[F]_n) (i j a b : 'I_n) (c : F).

(** Multiply row [i] by [c]. *)
Definition rscale i c N : 'M[F]_n :=
  \matrix_(a, b) (if a == i then N a b * c else N a b).
(** Add [c] times row [i] to row [j]. *)
Definition radd i j c N : 'M[F]_n :=
  \matrix_(a, b) (if a == j then N j b + N i b * c else N a b).

Lemma rscale_mul i c T U : rscale i c T *m U = rscale i c (T *m U).
Proof.
apply/matrixP => a b; rewrite !mxE; case: ifP => ai.
  by rewrite big_distrl /=; apply: eq_bigr => k _; rewrite !mxE ai mulrAC.
by apply: eq_bigr => k _; rewrite !mxE ai.
Qed.

Lemma radd_mul i j c T U : radd i j c T *m U = radd i j c (T *m U).
Proof.
apply/matrixP => a b; rewrite !mxE; case: ifP => ai.
  rewrite big_distrl -big_split /=; apply: eq_bigr => k _.
  by rewrite !mxE ai mulrDl mulrAC.
by apply: eq_bigr => k _; rewrite !mxE ai.
Qed.

Lemma xrow_mul i j T U : xrow i j T *m U = xrow i j (T *m U).
Proof. by rewrite !xrowE mulmxA. Qed.

Lemma det_rscale i c N : \det (rscale i c N) = c * \det N.
Proof.
have h : row' i N = row' i (rscale i c N).
  by apply/matrixP => a b; rewrite !mxE eq_sym (negbTE (neq_lift _ _)).
rewrite (@determinant_multilinear _ _ (rscale i c N) N N i c 0) ?mul0r ?addr0 //.
by apply/rowP => b; rewrite !mxE eqxx mul0r addr0 mulrC.
Qed.

Lemma det_radd i j c N : i != j -> \det (radd i j c N) = \det N.
Proof.
move=> ij; pose C : 'M[F]_n := \matrix_(a, b) (if a == j then N i b else N a b).
have h : row' j N = row' j (radd i j c N).
  by apply/matrixP => a b; rewrite !mxE eq_sym (negbTE (neq_lift _ _)).
have h' : row' j C = row' j (radd i j c N).
  by apply/matrixP => a b; rewrite !mxE eq_sym (negbTE (neq_lift _ _)).
rewrite (@determinant_multilinear _ _ (radd i j c N) N C j 1 c) //; last first.
  by apply/rowP => b; rewrite !mxE eqxx mul1r mulrC.
rewrite (@determinant_alternate _ _ C _ _ ij) ?mulr0 ?addr0 ?mul1r // => b.
by rewrite !mxE eqxx (negbTE ij).
Qed.

Lemma det_xrow i j N : i != j -> \det (xrow i j N) = - \det N.
Proof. by move=> ij; rewrite xrowE det_mulmx det_perm odd_tperm ij mulN1r. Qed.

(** Columns [< k] have only zeros below the diagonal. *)
Definition cleared k N : Prop := forall a b, (b < k)%N -> (b < a)%N -> N a b = 0.

Lemma det_singular (k : 'I_n) N : cleared k N ->
  (forall a, (k <= a)%N -> N a k = 0) -> \det N = 0.
Proof.
move=> cN kN; rewrite /determinant big1 // => s _.
have [a sa] : exists a, N a (s a) = 0; last first.
  by rewrite (bigD1 a) //= sa mul0r mulr0.
suff /existsP[a /eqP] : [exists a, N a (s a) == 0] by exists a.
apply: contraT; rewrite negb_exists => /forallP h.
have sub : [set s a | a in [set a : 'I_n | (k <= a)%N]] \subset [set b : 'I_n | (k < b)%N].
  apply/subsetP => b0 /imsetP[a]; rewrite !inE => ka ->.
  rewrite ltnNge leq_eqVlt negb_or; apply/andP; split.
    by apply: contra (h a) => /eqP/val_inj ->; rewrite kN.
  by apply: contra (h a) => lt; rewrite cN // (leq_trans lt).
have := subset_leq_card sub; rewrite card_imset; last exact: perm_inj.
have -> : [set a : 'I_n | (k <= a)%N] = k |: [set b : 'I_n | (k < b)%N].
  by apply/setP => a; rewrite !inE leq_eqVlt eq_sym.
by rewrite cardsU1 inE ltnn /= add1n ltnn.
Qed.

(** The leading principal submatrices. *)
Definition lsub m (mn : (m <= n)%N) N : 'M[F]_m :=
  \matrix_(i, j) N (widen_ord mn i) (widen_ord mn j).
End Rows.

Section Minors.
Variables (F : fieldType) (n : nat).
Implicit Types (N : 'M[F]_n) (i j : 'I_n) (c : F).

Lemma lsub_full (nn : (n <= n)%N) N : lsub nn N = N.
Proof. by apply/matrixP => a b; rewrite mxE; congr (N _ _); apply: val_inj. Qed.

Lemma det_lsub_radd m (mn : (m <= n)%N) i j c N : (i < j)%N ->
  \det (lsub mn (radd i j c N)) = \det (lsub mn N).
Proof.
move=> ij; case: (ltnP j m) => [jm|mj].
  have im : (i < m)%N by exact: ltn_trans jm.
  rewrite -[RHS](@det_radd _ _ (Ordinal im) (Ordinal jm) c); last first.
    by apply/eqP => /(congr1 val) /= h; rewrite h ltnn in ij.
  congr (\det _); apply/matrixP => a b; rewrite !mxE -!(inj_eq val_inj) /=.
  by case: ifP => // _; congr (N _ _ + N _ _ * c); apply: val_inj.
congr (\det _); apply/matrixP => a b; rewrite !mxE -!(inj_eq val_inj) /= ltn_eqF //.
exact: leq_trans (ltn_ord a) mj.
Qed.

Lemma det_lsub_rscale m (mn : (m <= n)%N) i c N : c != 0 ->
  (\det (lsub mn (rscale i c N)) == 0) = (\det (lsub mn N) == 0).
Proof.
move=> c0; case: (ltnP i m) => [im|mi].
  suff -> : lsub mn (rscale i c N) = rscale (Ordinal im) c (lsub mn N).
    by rewrite det_rscale mulf_eq0 (negbTE c0).
  by apply/matrixP => a b; rewrite !mxE -!(inj_eq val_inj).
congr (\det _ == 0); apply/matrixP => a b; rewrite !mxE -!(inj_eq val_inj) /= ltn_eqF //.
exact: leq_trans (ltn_ord a) mi.
Qed.

(** All leading principal minors, but possibly the last, are non-zero. *)
Definition lminors N : Prop :=
  forall m (mn : (m <= n)%N), (0 < m < n)%N -> \det (lsub mn N) <> 0.

Lemma lminors_radd i j c N : (i < j)%N -> lminors N -> lminors (radd i j c N).
Proof. by move=> ij h m mn mb; rewrite det_lsub_radd //; exact: h. Qed.
Lemma lminors_rscale i c N : c != 0 -> lminors N -> lminors (rscale i c N).
Proof.
by move=> c0 h m mn mb /eqP; rewrite det_lsub_rscale // => /eqP; exact: h.
Qed.

(** The next pivot is not zero. *)
Lemma lminors_pivot (k : 'I_n) N : (k.+1 < n)%N -> cleared k N -> lminors N -> N k k != 0.
Proof.
move=> kn cN h; apply/eqP => z; have := h _ (ltn_ord k); rewrite kn /= => /(_ isT); apply.
apply: (@det_singular _ _ ord_max) => [a b /= bk ba|a]; rewrite mxE; first exact: cN.
move=> /= ka; have ek : (a : nat) = k by apply/eqP; rewrite eqn_leq ka -ltnS ltn_ord.
by rewrite -[RHS]z; congr (N _ _); apply: val_inj.
Qed.
End Minors.

Section Triangular.
Variables (F : fieldType) (n : nat).
Implicit Types (N : 'M[F]_n).
(** Upper unitriangular. *)
Lemma det_unitri N : cleared n N -> (forall a : 'I_n, N a a = 1) -> \det N = 1.
Proof.
move=> cN dN; rewrite -det_tr det_trig.
  by rewrite big1 // => i _; rewrite mxE dN.
by apply/is_trig_mxP => i j ij; rewrite mxE cN.
Qed.
End Triangular.
