(** * PDiag.v -- VectorAlgebra::diagonal is a homomorphism; transposition is an
    antiautomorphism. *)

From Coq Require Import ZArith Lia.
From mathcomp Require Import all_ssreflect all_algebra.
From Verif Require Import Rust Traits MInts MConstr Spec PropSpec RingSpec NumSpec Laws.
From Verif Require Import Wp PLaws MatFacts PMat PMatProps DiagSpec.

Set Implicit Arguments.
Unset Strict Implicit.
Unset Printing Implicit Defensive.

Section Lists.
Variables (A B C : Type).

Lemma map_nseqM (f : A -> M B) n x k : mapM f (nseq n.+1 x) k =
  match f x k with Done y => Done (nseq n.+1 y) | Panicked => Panicked | Unfinished => Unfinished end.
Proof.
elim: n => [|n ih] /=; rewrite /bind; case e: (f x k) => //.
by have := ih; rewrite /= /bind e => ->.
Qed.
Lemma map2_nseqM (f : A -> B -> M C) n x y k : map2M f (nseq n.+1 x) (nseq n.+1 y) k =
  match f x y k with Done z => Done (nseq n.+1 z) | Panicked => Panicked | Unfinished => Unfinished end.
Proof.
elim: n => [|n ih] /=; rewrite /bind; case e: (f x y k) => //.
by have := ih; rewrite /= /bind e => ->.
Qed.
Lemma all_nseqM (f : A -> M bool) n x k : allM f (nseq n.+1 x) k = f x k.
Proof.
elim: n => [|n ih] /=; rewrite /andM /bind; case e: (f x k) => [b||] //; case: b e => // e.
by have := ih; rewrite /= /andM /bind e => ->.
Qed.
Lemma all2_nseqM (f : A -> B -> M bool) n x y k :
  all2M f (nseq n.+1 x) (nseq n.+1 y) k = f x y k.
Proof.
elim: n => [|n ih] /=; rewrite /andM /bind; case e: (f x y k) => [b||] //; case: b e => // e.
by have := ih; rewrite /= /andM /bind e => ->.
Qed.
End Lists.

Lemma diag_entries (E : Type) n i (x d : E) : i < n ->
  size (vector_diagonal n x) = n /\ nth d (vector_diagonal n x) i = x.
Proof. by move=> h; rewrite size_nseq nth_nseq h. Qed.

Section Diagonal.
Variables (cfg : Cfg) (E : Type) (n : nat).
Local Notation d := (@vector_diagonal E n.+1).

Lemma len1 x T (m : M T) k : (do! assert_len1 n.+1 (d x) in m) k = m k.
Proof. by rewrite /assert_len1 size_nseq eqxx. Qed.
Lemma len2 x y T (m : M T) k : (do! assert_len2 n.+1 (d x) (d y) in m) k = m k.
Proof. by rewrite /assert_len2 !size_nseq eqxx. Qed.
Lemma imid T (m : M T) k :
  match m k with Done x => Done (id x) | Panicked => Panicked | Unfinished => Unfinished end = m k.
Proof. by case: (m k). Qed.

Lemma im1 f x : image d (f x) (do! assert_len1 n.+1 (d x) in mapM f (d x)).
Proof. by move=> k; exact: etrans (len1 _ _ _) (map_nseqM _ _ _ _). Qed.
Lemma im2 f x y : image d (f x y) (do! assert_len2 n.+1 (d x) (d y) in map2M f (d x) (d y)).
Proof. by move=> k; exact: etrans (len2 _ _ _ _) (map2_nseqM _ _ _ _ _). Qed.
Lemma as1 f x : image id (f x) (do! assert_len1 n.+1 (d x) in allM f (d x)).
Proof. by move=> k; rewrite imid; exact: etrans (len1 _ _ _) (all_nseqM _ _ _ _). Qed.
Lemma as2 f x y : image id (f x y) (do! assert_len2 n.+1 (d x) (d y) in all2M f (d x) (d y)).
Proof. by move=> k; rewrite imid; exact: etrans (len2 _ _ _ _) (all2_nseqM _ _ _ _ _). Qed.

Lemma diag_domain (A : Domain E) : hom_domain d A (vector_domain n.+1 A).
Proof.
split; last by move=> x y; exact: as2.
by move=> x k; rewrite imid /= -(all_nseqM _ n) size_nseq eqxx.
Qed.
Lemma diag_semigroup (A : Semigroup E) : hom_semigroup d A (vector_semigroup n.+1 A).
Proof. by split=> [x y|x y|x]; [exact: im2|exact: im2|exact: im1]. Qed.

Lemma try_inv_loopE (A : Monoid E) x m w k :
  vector_try_inv_loop A (nseq m x) w k = if m is 0 then Done (Some w) else
  match try_inv A x k with
  | Done (Some y) => Done (Some (w ++ nseq m y))
  | Done None => Done None | Panicked => Panicked | Unfinished => Unfinished
  end.
Proof.
elim: m w => // m ih w; rewrite [nseq _ _]/= [LHS]/= /bind; case e: (try_inv A x k) => [[y|]||] //.
rewrite ih e; case: m {ih} => [|m] /=; first by rewrite cats1.
by rewrite -cats1 -catA.
Qed.
Lemma diag_monoid (A : Monoid E) : hom_monoid d A (vector_monoid n.+1 A).
Proof.
split=> [|x|x k|x] //; try exact: as1.
apply: etrans (len1 _ _ _) _; rewrite /vector_diagonal try_inv_loopE.
by case: (try_inv A x k) => [[y|]||].
Qed.
Lemma diag_cmonoid (A : CommMonoid E) : hom_cmonoid d A (vector_cmonoid n.+1 A).
Proof. by split=> [|x|x y|x y|x] //; [exact: as1|exact: im2|exact: im2|exact: im1]. Qed.
Lemma diag_abelian (A : AbelianAlg E) : hom_abelian d A (vector_abelian cfg n.+1 A).
Proof. by split=> [x|x|x y|x y]; [exact: im1|exact: im1|exact: im2|exact: im2]. Qed.
Lemma diag_order (A : OrderAlg E) : hom_order d A (vector_order n.+1 A).
Proof. by split=> x y; exact: as2. Qed.
Lemma diag_lattice (A : Lattice E) : hom_lattice d A (vector_lattice n.+1 A).
Proof. by split=> x y; exact: im2. Qed.
Lemma diag_bounded (A : BoundedOrder E) : hom_bounded d A (vector_bounded n.+1 A).
Proof. by split. Qed.

Lemma diag_group (A : GroupAlg E) : image1 d (ginv A) (ginv (vector_group cfg n.+1 A)).
Proof. by move=> x; exact: im1. Qed.
Lemma diag_int (A : UnitaryRing E) z : image d (int A z) (int (vector_unitary n.+1 A) z).
Proof. by []. Qed.
Lemma diag_boolean (A : BooleanAlgebra E) : image1 d (bnot A) (bnot (vector_boolean n.+1 A)).
Proof. by move=> x; exact: im1. Qed.
End Diagonal.

(** ** Transposition *)
Section Entries.
Variables (E : Type) (n : nat).

Lemma transpose_entries (v : seq E) : size v = n * n ->
  exists2 w, returns (matrix_transpose n v) w & transposed n v w.
Proof.
move=> sv; suff : ensures False (matrix_transpose n v) (transposed n v).
  by case=> [[w [h1 h2]]|[]//]; exists w.
rewrite /matrix_transpose; apply: ensures_assert_bind; first by rewrite sv eqxx.
pose ok m res := size res = m /\ forall i j d, j < n -> i * n + j < m ->
  nth d res (i * n + j) = nth d v (j * n + i).
have ok0 : ok (0 * n) [::] by [].
apply: ensures_mono (@ensures_for _ _ 0 n _ _ (fun i => ok (i * n)) ok0 _) _.
  move=> i res /andP[_ hi] h0; rewrite add0n in hi.
  have h0' : ok (i * n + 0) res by rewrite addn0.
  apply: ensures_mono (@ensures_for _ _ 0 n _ _ (fun j => ok (i * n + j)) h0' _) _; last first.
    by move=> r; rewrite add0n -mulSnr.
  move=> j r /andP[_ hj] [sr hr]; rewrite add0n in hj.
  have hv : j * n + i < size v by rewrite sv; nia.
  case e: v hv => [//|d0 v'] hv; rewrite -e in hv *.
  rewrite (vgetE d0 hv); apply: ensures_bind (@ensures_ret _ _ _ (eq (nth d0 v (j * n + i))) erefl) _ => _ <-; apply: ensures_ret.
  split=> [|a b d hb ab]; first by rewrite size_rcons sr addnS.
  rewrite nth_rcons sr; move: ab; rewrite addnS ltnS => ab; case: ltngtP ab => [lt _|//|eq _].
  - exact: hr.
  - have : (a * n + b == i * n + j) by rewrite eq.
    rewrite ix_eq // => /andP[/eqP-> /eqP->].
    exact: set_nth_default.
move=> r; rewrite add0n => -[sr hr]; split=> // i j d hi hj; apply: hr => //; nia.
Qed.
Lemma transpose_twice (v : seq E) : size v = n * n ->
  exists2 w, returns (matrix_transpose n v) w & returns (matrix_transpose n w) v.
Proof.
move=> sv; have [w hw [sw ew]] := transpose_entries sv; exists w => //.
have [u hu [su eu]] := transpose_entries sw.
suff <- : u = v by [].
case: v sv ew {hw} => [|d v] sv ew; first by case: u su {hu eu} => //= x u; rewrite -sv.
apply: (@eq_from_nth _ d); first by rewrite su sv.
move=> k; rewrite su => hk.
have n0 : 0 < n by move: hk; case: (n).
have e : k = k %/ n * n + k %% n := divn_eq k n.
have h1 : k %% n < n by rewrite ltn_mod.
have h2 : k %/ n < n by rewrite ltn_divLR.
by rewrite e eu // ew.
Qed.
End Entries.

Section Field.
Variables (cfg : Cfg) (p : Prop) (E : Type) (n : nat) (F : fieldType) (rep : E -> F -> Prop).
Variable A : FieldAlg E.
Hypothesis hF : field_alg_spec cfg p rep A.
Hypothesis hc : Z.le (Zpos (xO xH)) (ptr_bits cfg).
Local Notation mof := (@matrix_of n E F rep).
Import GRing.Theory.
Local Open Scope ring_scope.

Lemma transpose_laws : anti_automorphism cfg p (fun x => exists N, mof x N)
  (MatrixRing cfg A n) (matrix_transpose n).
Proof.
have hR := MatrixRing_ok hF n hc.
have hM := ri_mon_ok hR; have hC := ri_cm_ok hR; have hA := ri_ab_ok hR.
have hU := ri_ur_ok hR; have hD := mo_dom_ok hM; have hS := mo_sg_ok hM; have hO := mo_mo_ok hM.
have tr m N : gives p mof m N -> gives p mof (let! a := m in matrix_transpose n a) N^T.
  by move=> h; apply: gbind h _ => a aN; exact: mat_transpose.
have tr2 x y N T (f : seq E -> seq E -> M (seq E)) r : mof x N -> mof y T ->
  (forall a b, mof a N^T -> mof b T^T -> gives p mof (f a b) r) ->
  gives p mof (let! a := matrix_transpose n x in let! b := matrix_transpose n y in f a b) r.
  move=> xN yT h; apply: ensures_bind (mat_transpose p xN) _ => a aN.
  by apply: ensures_bind (mat_transpose p yT) _ => b bT; exact: h.
split.
- by move=> x [N xN]; apply: (member_ok hD (mat_transpose p xN)).
- move=> x [N xN]; apply: (same_eq hD (tr _ _ (mat_transpose p xN)) (gret p xN)).
  exact: trmxK.
- move=> x y [N xN] [T yT]; apply: (same_eq hD (tr _ _ (mul_ok hS xN yT)) _ (trmx_mul N T)).
  by apply: tr2 yT xN _ => a b; exact: (mul_ok hS).
- exact: (same_eq hD (tr _ _ (one_ok hO)) (one_ok hO) (trmx1 _ _)).
- exact: (same_eq hD (tr _ _ (zero_ok hC)) (zero_ok hC) (trmx0 _ _ _)).
- move=> k k1 k2; have gk : good_isize cfg k by [].
  apply: (same_eq hD (tr _ _ (int_ok hU gk)) (int_ok hU gk)).
  by rewrite -zmul_scalar tr_scalar_mx.
- move=> x y [N xN] [T yT].
  apply: (same_eq hD (tr _ _ (add_ok hC xN yT)) _ (raddfD _ N T)).
  by apply: tr2 xN yT _ => a b; exact: (add_ok hC).
- move=> x y [N xN] [T yT].
  apply: (same_eq hD (tr _ _ (sub_ok hA xN yT)) _ (raddfB _ N T)).
  by apply: tr2 xN yT _ => a b; exact: (sub_ok hA).
- move=> x [N xN].
  apply: (same_eq hD (tr _ _ (neg_ok hA xN)) _ (raddfN _ N)).
  by apply: gbind (mat_transpose p xN) _ => a; exact: (neg_ok hA).
- move=> x [N xN]; have [_ h] := matrix_inverse hF hc xN.
  apply: (agree_ok h _ (esym (unitmx_tr N))).
  apply: ensures_bind (mat_transpose p xN) _ => a aN.
  by have [] := matrix_inverse hF hc aN.
- move=> x [N xN]; have [h _] := matrix_inverse hF hc xN.
  apply: ensures_bind h _ => o ho; apply: ensures_bind (mat_transpose p xN) _ => a aN.
  have [h' _] := matrix_inverse hF hc aN; apply: ensures_bind h' _ => q.
  case: o ho => [y [T [yT NT TN]]|nu]; case: q => [z [U [zU NU UN]]|nu'].
  + apply: (same_eq hD (mat_transpose p yT) (gret p zU)).
    by rewrite -[LHS]mul1mx -UN -mulmxA -trmx_mul TN trmx1 mulmx1.
  + by move: nu'; rewrite unitmx_tr; have [->] := mulmx1_unit NT.
  + by have [] := mulmx1_unit NU; rewrite unitmx_tr (negbTE nu).
  + exact: ensures_ret.
Qed.
End Field.
