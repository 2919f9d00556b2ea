(** * PAssign.v -- the in-place methods agree with the pure ones. *)

From mathcomp Require Import all_ssreflect all_algebra all_fingroup ssrZ zify.
From Coq Require Import ZArith Lia.
From Verif Require Import Rust Traits MInts MConstr Wp Spec PropSpec RingSpec CallSpec.
From Verif Require Import PIntsZ PInts POrders PVec PPerm POrdProps Laws PLaws2 Refuted.

Set Implicit Arguments.
Unset Strict Implicit.
Unset Printing Implicit Defensive.

Import GRing.Theory.
Local Open Scope ring_scope.

Section Same.
Context {A B : Type}.
Lemma same_run_refl (m : M A) : same_run m m.
Proof. by []. Qed.
Lemma same_run_call (m1 m2 : M A) : same_run m1 m2 -> same_call m1 m2.
Proof.
move=> h; split=> [v| |].
- by split=> -[n hn]; exists n => k nk; [rewrite -h|rewrite h]; exact: hn.
- by split=> -[n hn]; exists n => k nk; [rewrite -h|rewrite h]; exact: hn.
- by split=> hn k; [rewrite -h|rewrite h]; exact: hn.
Qed.
Lemma same_call_ret (m1 m2 : M A) v : returns m1 v -> returns m2 v -> same_call m1 m2.
Proof.
have noloop (m : M A) : returns m v -> ~ diverges m.
  by case=> n hn hd; move: (hn n (leqnn n)); rewrite hd.
move=> h1 h2; split=> [w| |].
- by split=> h; [rewrite (returns_det h h1)|rewrite (returns_det h h2)].
- by split=> h; [case: (returns_panics h1 h)|case: (returns_panics h2 h)].
- by split=> h; [case: (noloop _ h1 h)|case: (noloop _ h2 h)].
Qed.
Lemma same_run_bind (m1 m2 : M A) (f1 f2 : A -> M B) : same_run m1 m2 ->
  (forall v, same_run (f1 v) (f2 v)) -> same_run (bind m1 f1) (bind m2 f2).
Proof. by move=> h hf k; rewrite /bind h; case: (m2 k) => // v; exact: hf. Qed.
End Same.

Lemma same_run_map A B (f g : A -> M B) (s : seq A) : (forall x, same_run (f x) (g x)) ->
  same_run (mapM f s) (mapM g s).
Proof.
move=> h; elim: s => //= x s IH; apply: same_run_bind => // y.
exact: same_run_bind.
Qed.
Lemma same_run_map2 A B C (f g : A -> B -> M C) (s : seq A) (t : seq B) :
  (forall x y, same_run (f x y) (g x y)) -> same_run (map2M f s t) (map2M g s t).
Proof.
move=> h; elim: s t => [|x s IH] [|y t] //=; apply: same_run_bind => // z.
exact: same_run_bind.
Qed.
Lemma same_run_map_diag A B (f : A -> M B) (g : A -> A -> M B) (s : seq A) :
  (forall x, same_run (f x) (g x x)) -> same_run (mapM f s) (map2M g s s).
Proof.
move=> h; elim: s => //= x s IH; apply: same_run_bind => // y.
exact: same_run_bind.
Qed.

(** ** The numbers *)

Lemma inplace_ZZ : inplace_ring ZZ.
Proof.
split; split=> // x k; rewrite /= /integers_add /ret; congr (Done _); lia.
Qed.
Lemma inplace_NN : inplace_mul NN /\ inplace_add NN.
Proof.
split; split=> // x k; rewrite /= /naturals_add /ret; congr (Done _); by rewrite N.mul_comm; case: x => //= p; rewrite Pos.add_diag.
Qed.
Lemma inplace_CheckedInts cfg w : inplace_ring (CheckedInts cfg w).
Proof. by split; split. Qed.
Lemma inplace_CheckedUints w : inplace_mul (CheckedUints w) /\ inplace_add (CheckedUints w).
Proof. by split; split. Qed.
Lemma inplace_BB : inplace_ring BB.
Proof. by split; split=> // -[] //; case. Qed.

(** ** The constructions *)

Section Constr.
Variables (cfg : Cfg) (E : Type).
Lemma inplace_QuotientRing (A : EuclAlg E) m : inplace_ring (QuotientRing cfg A m).
Proof. by split; split. Qed.
Lemma inplace_QuotientField (A : EuclAlg E) m : inplace_ring (QuotientField cfg A m).
Proof. by split; split. Qed.
Lemma inplace_ReducedFractions (A : EuclAlg E) : inplace_ring (ReducedFractions cfg A).
Proof. by split; split. Qed.
Lemma inplace_PolyRing (A : RingAlg E) : inplace_ring (PolyRing A).
Proof. by split; split. Qed.

Lemma inplace_vector_mul n (A : Semigroup E) : inplace_mul A -> inplace_mul (vector_semigroup n A).
Proof.
case=> h1 h2; split=> [v u|v] /=; first by apply: same_run_bind => // _; exact: same_run_map2.
by rewrite /assert_len1 /assert_len2 andbb; apply: same_run_bind => // _; exact: same_run_map_diag.
Qed.
Lemma inplace_vector_add n (A : CommMonoid E) : inplace_add A -> inplace_add (vector_cmonoid n A).
Proof.
case=> h1 h2; split=> [v u|v] /=; first by apply: same_run_bind => // _; exact: same_run_map2.
by rewrite /assert_len1 /assert_len2 andbb; apply: same_run_bind => // _; exact: same_run_map_diag.
Qed.
Lemma inplace_vector_neg n (A : AbelianAlg E) : inplace_neg A ->
  inplace_neg (vector_abelian cfg n A).
Proof.
by case=> h; split=> v /=; apply: same_run_bind => // _; exact: same_run_map.
Qed.
Lemma inplace_VectorRing n (A : RingAlg E) : inplace_ring A -> inplace_ring (VectorRing cfg n A).
Proof.
by case=> h1 h2 h3; split; [exact: inplace_vector_mul|exact: inplace_vector_add|
  exact: inplace_vector_neg].
Qed.
Lemma inplace_MatrixRing n (A : FieldAlg E) : inplace_ring A -> inplace_ring (MatrixRing cfg A n).
Proof.
case=> h1 h2 h3; split; first by split.
- by case: (inplace_vector_add (n * n) h2).
- by case: (@inplace_vector_neg (n * n) A h3).
Qed.
Lemma inplace_AdditiveGroup (A : AbelianAlg E) : inplace_add A ->
  inplace_mul (AdditiveGroup cfg A).
Proof. by case. Qed.
Lemma inplace_MultiplicativeGroup (A : MonoidAlg E) : inplace_mul A ->
  inplace_mul (MultiplicativeGroup cfg A).
Proof. by case. Qed.
End Constr.

(** ** Permutations *)

Lemma inplace_Permutations cfg n v u :
  (exists s : {perm 'I_n}, permutation_of v s) -> (exists t : {perm 'I_n}, permutation_of u t) ->
  same_call (mul_assign (Permutations cfg n) v u) (mul (Permutations cfg n) v u) /\
  same_call (square (Permutations cfg n) v) (mul (Permutations cfg n) v v).
Proof.
case=> s vs [t ut]; split; last exact: same_run_call.
have [_ [_ [inj _]]] := permutation_bijective n.
case: (permutation_methods cfg False n) => _ _ _ h; case: (h v s u t vs ut).
case=> [[z1 [r1 h1]]|[[]]] // [[z2 [r2 h2]]|[[]]] // _.
by have e := inj _ _ _ h2 h1; subst z2; exact: same_call_ret r2 r1.
Qed.

(** ** Subtraction *)

(** Where every element has one representation and nothing panics. *)
Lemma inplace_sub cfg E (V : zmodType) (rep : E -> V -> Prop) (A : AbelianGroup E) x u y v :
  abelian_spec cfg False rep A -> (forall a b w, rep a w -> rep b w -> a = b) ->
  rep x u -> rep y v ->
  same_call (sub_assign A x y) (sub A x y).
Proof.
move=> hA inj xu yv.
case: (sub_assign_ok hA xu yv) => [[z1 [r1 h1]]|[[]]] //.
case: (sub_ok hA xu yv) => [[z2 [r2 h2]]|[[]]] //.
by have e := inj _ _ _ h1 h2; subst z2; exact: same_call_ret r1 r2.
Qed.

(** The checked integers: [sub_assign] also panics when [y] is the least value. *)
Lemma checked_sub_assign cfg w x y : (0 < w)%Z -> in_i w x -> in_i w y ->
  (y <> imin w -> same_call (sub_assign (CheckedInts cfg w) x y) (sub (CheckedInts cfg w) x y)) /\
  (y = imin w -> panics (sub_assign (CheckedInts cfg w) x y) /\
     (returns (sub (CheckedInts cfg w) x y) (x - y)%Z <-> (x < 0)%Z)).
Proof.
move=> w0 xw yw.
rewrite /= /default_sub_assign /checked_ints_neg /default_add_assign /checked_ints_add /checked_i.
have p0 : (0 < 2 ^ (w - 1))%Z by apply: Z.pow_pos_nonneg; lia.
move: xw yw; rewrite /in_i /imin /imax => /andP[/Z.leb_le x1 /Z.leb_le x2] /andP[/Z.leb_le y1 /Z.leb_le y2].
split=> hy.
  have -> : ((- 2 ^ (w - 1) <=? 0 - y) && (0 - y <=? 2 ^ (w - 1) - 1) = true)%Z.
    by apply/andP; split; apply/Z.leb_le; lia.
  apply: same_run_call => k; rewrite /= /bind /=.
  by have -> : (x + (0 - y) = x - y)%Z by lia.
have -> : ((- 2 ^ (w - 1) <=? 0 - y) && (0 - y <=? 2 ^ (w - 1) - 1) = false)%Z.
  by apply/andP; case=> /Z.leb_le h1 /Z.leb_le; lia.
split; first by exists 0%nat.
split=> [|hx].
  case: ifP => [/andP[/Z.leb_le h1 /Z.leb_le h2] _|_ [n hn]]; first lia.
  by move: (hn n (leqnn n)).
have -> : ((- 2 ^ (w - 1) <=? x - y) && (x - y <=? 2 ^ (w - 1) - 1) = true)%Z.
  by apply/andP; split; apply/Z.leb_le; lia.
exact: returns_ret.
Qed.

(** Everywhere, up to [equals]. *)
Lemma inplace_sub_equals cfg p E (V : zmodType) (rep : E -> V -> Prop) (A : AbelianAlg E) x u y v :
  abelian_alg_spec cfg p rep A -> rep x u -> rep y v ->
  ensures p (let! a := sub_assign A x y in let! b := sub A x y in equals A a b)
    (fun r => r = true).
Proof.
case=> hD _ hA xu yv.
exact: (PLaws.same_eq hD) (sub_assign_ok hA xu yv) (sub_ok hA xu yv) erefl.
Qed.

Lemma I8_sub_assign_min : forall cfg,
  returns (sub (CheckedInts cfg 8) (-1) (-128))%Z 127%Z /\
  panics (sub_assign (CheckedInts cfg 8) (-1) (-128))%Z.
Proof. by move=> cfg; split; run 1%nat. Qed.

Lemma inplace_numbers cfg w :
  [/\ inplace_ring ZZ, inplace_ring (CheckedInts cfg w), inplace_ring BB,
      inplace_mul NN /\ inplace_add NN &
      inplace_mul (CheckedUints w) /\ inplace_add (CheckedUints w)].
Proof.
by split; [exact: inplace_ZZ|exact: inplace_CheckedInts|exact: inplace_BB|exact: inplace_NN|
  exact: inplace_CheckedUints].
Qed.
Lemma inplace_quotients cfg E (A : EuclAlg E) m :
  [/\ inplace_ring (QuotientRing cfg A m), inplace_ring (QuotientField cfg A m) &
      inplace_ring (ReducedFractions cfg A)].
Proof.
by split; [exact: inplace_QuotientRing|exact: inplace_QuotientField|
  exact: inplace_ReducedFractions].
Qed.
Lemma inplace_groups cfg E :
  (forall A : AbelianAlg E, inplace_add A -> inplace_mul (AdditiveGroup cfg A)) /\
  (forall A : MonoidAlg E, inplace_mul A -> inplace_mul (MultiplicativeGroup cfg A)) /\
  (forall (n : nat) (A : GroupAlg E), inplace_mul A -> inplace_mul (vector_group cfg n A)).
Proof.
by split; [exact: inplace_AdditiveGroup|split; [exact: inplace_MultiplicativeGroup|
  move=> n A; exact: inplace_vector_mul]].
Qed.
