(** * POrdProps.v -- the properties of lattices of vectors, of the divisibility
    order and of permutations, from PVec.v, PDiv.v, PDistr.v and PPerm.v. *)

From Coq Require Import ZArith Lia List.
From mathcomp Require Import all_ssreflect all_algebra all_fingroup zify.
From Verif Require Import Rust Traits MInts MConstr RingTac Wp Spec PropSpec RingSpec Laws.
From Verif Require Import PDefaults PEucl POrders PVec PDiv PPerm PLaws PLaws2 PDistr PMatProps.

Set Implicit Arguments.
Unset Strict Implicit.
Unset Printing Implicit Defensive.

Import GRing.Theory.
Local Open Scope ring_scope.

(** ** Vectors *)
Section VectorLattice.
Variables (p : Prop) (E : Type) (n : nat) (V : eqType) (rep : E -> V -> Prop) (le : rel V).
Local Notation vof := (@vector_of n E V rep).
Local Notation vle := (fun f g : {ffun 'I_n -> V} => [forall i, le (f i) (g i)]).

Lemma vector_lattice_contract (A : LatticeAlg E) : lattice_alg_spec p rep le A ->
  lattice_alg_spec p vof vle (VectorLattice n A).
Proof. exact: vec_lattice. Qed.

Lemma vector_bounds top bot (A : BoundedOrder E) : bounded_spec p rep le top bot A ->
  bounded_spec p vof vle [ffun => top] [ffun => bot] (vector_bounded n A).
Proof. exact: vec_bounded. Qed.

Lemma vector_boolean_contract top bot (A : BooleanAlg E) :
  boolean_alg_spec p rep le top bot A ->
  boolean_alg_spec p vof vle [ffun => top] [ffun => bot] (VectorBoolean n A).
Proof. exact: VectorBoolean_ok. Qed.

Lemma vector_meet_join (A : LatticeAlg E) : lattice_alg_spec p rep le A ->
  forall x f y g, vof x f -> vof y g ->
  ensures p (meet (VectorLattice n A) x y) (fun z => exists2 h, vof z h &
    forall i, is_glb le (f i) (g i) (h i)) /\
  ensures p (join (VectorLattice n A) x y) (fun z => exists2 h, vof z h &
    forall i, is_lub le (f i) (g i) (h i)).
Proof.
move=> [_ [hm hj]] x f y g xf yg; split.
  exact: (v_map2_ex (R := is_glb le) hm xf yg).
exact: (v_map2_ex (R := is_lub le) hj xf yg).
Qed.

Lemma vector_lattice_laws (A : LatticeAlg E) : lattice_alg_spec p rep le A ->
  lattice_alg_laws p (fun x => exists f, vof x f) (VectorLattice n A) /\
  (distributive_order le ->
   lattice_distributes p (fun x => exists f, vof x f) (VectorLattice n A) (VectorLattice n A)).
Proof.
move=> hA; split; first exact: (lattice_alg_laws_ok (fun x h => h) (vec_lattice n hA)).
move=> hd; apply: (lattice_alg_distr (fun x h => h) _ (vec_lattice n hA)).
by apply: pointwise_distributive => //; case: hA => [[_ _ [h _ _]] _].
Qed.
End VectorLattice.

(** The Boolean algebra of bit vectors. *)
Lemma vector_bool_laws p n :
  boolean_alg_laws p (fun x : seq bool => size x = n) (VectorBoolean n BB_boolean).
Proof.
have hB := VectorBoolean_ok n (BB_boolean_ok p).
apply: (boolean_alg_laws_ok _ _ _ hB).
- move=> x sx; exists [ffun i : 'I_n => nth false x i]; apply/vector_ofE; split=> // i d.
  by rewrite ffunE; apply: set_nth_default; rewrite sx.
- by apply: (pointwise_distributive _ bool_distributive); case.
- by move=> x u y v z w _ _ _; apply: pointwise_complement bool_complement u v w; case.
Qed.

(** ** The divisibility order *)
Section Divisibility.
Variables (cfg : Cfg) (p : Prop) (E : Type) (R : idomainType) (rep : E -> R -> Prop).
Variable AS : assoc_struct R.
Local Notation crep := (fun x a => rep x a /\ arep AS a = a).

Lemma divisibility_order (A : IDomAlg E) : idom_alg_spec cfg p rep AS A ->
  [/\ ensures p (omin (DivisibilityOrder A)) (fun z => crep z 1),
      ensures p (omax (DivisibilityOrder A)) (fun z => crep z 0) &
      forall x a, rep x a -> answers p (contains (DivisibilityOrder A) x) (arep AS a == a)] /\
  (forall x a y b, crep x a -> crep y b ->
   [/\ decides p (leq (DivisibilityOrder A) x y) (exists c, b = c * a),
       decides p (less_than (DivisibilityOrder A) x y) (a <> b /\ exists c, b = c * a),
       decides p (comparable (DivisibilityOrder A) x y)
         ((exists c, b = c * a) \/ (exists c, a = c * b)) &
       answers p (equals (DivisibilityOrder A) x y) (a == b)]).
Proof.
move=> hA; have [[[hD hS hM] hC _ _] hi] := hA; split.
  split.
  - by apply: ensures_mono (one_ok hM) _ => z zE; split=> //; exact: arep1.
  - by apply: ensures_mono (zero_ok hC) _ => z zE; split=> //; exact: arep0.
  - by move=> x a xa; exact: (divorder_contains_ok hA xa).
move=> x a y b [xa ha] [yb hb].
have hl : decides p (leq (DivisibilityOrder A) x y) (dvds a b) by exact: (divisible_ok hi yb xa).
have hl' : decides p (leq (DivisibilityOrder A) y x) (dvds b a) by exact: (divisible_ok hi xa yb).
split=> //; last exact: (equals_ok hD xa yb).
- apply: (ensures_bind (R := fun r => r = (a != b))).
    by apply: ensures_bind (equals_ok hD xa yb) _ => r ->; exact: ensures_ret.
  move=> r ->; case: eqVneq => ab /=; first by apply: ensures_ret; split=> // -[].
  by apply: ensures_mono hl _ => r' h; split=> [/h h'|[_ /h]] //; split=> //; apply/eqP.
- apply: ensures_bind hl _ => -[] h; first by apply: ensures_ret; split=> // _; left; exact/h.
  apply: ensures_mono hl' _ => r' h'; split=> [/h' h2|[/h //|/h' //]]; by right.
Qed.

Lemma divisibility_lattice (S : eucl_struct R) (A : EuclAlg E) : eucl_alg_spec cfg p rep AS S A ->
  forall x a y b, crep x a -> crep y b ->
  ensures p (meet (DivisibilityLattice A) x y) (fun z => exists2 d, crep z d & is_gcd a b d) /\
  ensures p (join (DivisibilityLattice A) x y) (fun z => exists2 m, crep z m & is_lcm a b m).
Proof.
move=> hA x a y b xa yb.
have [_ [hm hj]] := DivisibilityLattice_ok (@edvdP _ S) hA; split.
  apply: ensures_mono (hm _ _ _ _ xa yb) _ => z [d zd h]; exists d => //.
  by apply/(glb_gcd (@edvdP _ S)).
apply: ensures_mono (hj _ _ _ _ xa yb) _ => z [d zd h]; exists d => //.
by apply/(lub_lcm (@edvdP _ S)).
Qed.

Lemma divisibility_laws (S : eucl_struct R) (A : EuclAlg E) : eucl_alg_spec cfg p rep AS S A ->
  [/\ bounded_alg_laws p (fun x => exists a, crep x a) (DivisibilityOrder A),
      lattice_alg_laws p (fun x => exists a, crep x a) (DivisibilityLattice A) &
      lattice_distributes p (fun x => exists a, crep x a) (DivisibilityLattice A)
        (DivisibilityLattice A)].
Proof.
move=> hA; have hL := DivisibilityLattice_ok (@edvdP _ S) hA; split.
- exact: (bounded_alg_laws_ok (fun x h => h) (DivisibilityOrder_ok (@edvdP _ S) (eu_idom_ok hA))).
- exact: (lattice_alg_laws_ok (fun x h => h) hL).
- apply: (lattice_alg_distr (fun x h => h) _ hL).
  exact: (divisibility_distributive S (@edvdP _ S)).
Qed.

(** The order of an integral domain whose divisibility is decidable. *)
Lemma divisibility_order_laws (le : rel R) (A : IDomAlg E) :
  (forall a b, le a b <-> dvds a b) -> idom_alg_spec cfg p rep AS A ->
  bounded_alg_laws p (fun x => exists a, crep x a) (DivisibilityOrder A).
Proof.
move=> leP hA.
exact: (bounded_alg_laws_ok (fun x h => h) (DivisibilityOrder_ok leP hA)).
Qed.
End Divisibility.

(** ** Permutations *)
Section Perm.
Variables (cfg : Cfg) (p : Prop) (n : nat).
Implicit Types (v u : seq nat) (s t : 'S_n).

Lemma permutation_ofE v s : permutation_of v s <->
  v = [seq val (s i) | i <- enum 'I_n].
Proof. exact: perm_rep_list. Qed.
Lemma permutation_exists v : (exists s : 'S_n, permutation_of v s) <->
  [/\ size v = n, uniq v & forall a, a \in v -> (a < n)%N].
Proof.
rewrite (perm_repP n v); split=> -[h1 h2 h3]; split=> //; exact/allP.
Qed.

Lemma permutation_bijective :
  (forall s, exists v, permutation_of v s) /\
  (forall v s t, permutation_of v s -> permutation_of v t -> s = t) /\
  (forall v u s, permutation_of v s -> permutation_of u s -> v = u) /\
  #|{: 'S_n}| = n`!.
Proof.
split=> [s|]; first by exists [seq val (s i) | i <- enum 'I_n]; apply/permutation_ofE.
split=> [v s t [_ vs] [_ vt]|].
  by apply/permP => i; apply: val_inj; rewrite /= -vs -vt.
split=> [v u s /permutation_ofE -> /permutation_ofE -> //|].
rewrite -[RHS]card_Sn; apply: eq_card => s; by rewrite inE.
Qed.

Lemma permutation_accepted v : returns (contains (Permutations cfg n) v) true <->
  exists s : 'S_n, permutation_of v s.
Proof.
split=> [r|/permutation_exists [sv uv av]]; last first.
  by rewrite /= perm_contains_in_range ?sv ?eqxx ?uv //; [exact: returns_ret|exact/allP].
case: (perm_contains_exact n v) => [[b [rb hb]]|[_ pv]].
  by apply/hb; rewrite (returns_det rb r).
by case: (returns_panics r pv).
Qed.

Lemma permutation_methods : [/\
    ensures p (one (Permutations cfg n)) (fun z => @permutation_of n z 1%g),
    forall v s, permutation_of v s ->
    [/\ ensures p (square (Permutations cfg n) v) (fun z => permutation_of z (s * s)%g),
        ensures p (ginv (Permutations cfg n) v) (fun z => permutation_of z s^-1%g),
        ensures p (try_inv (Permutations cfg n) v)
          (fun o => exists2 z, o = Some z & permutation_of z s^-1%g),
        answers p (is_one (Permutations cfg n) v) (s == 1%g) &
        answers p (invertible (Permutations cfg n) v) true],
    forall v s k, permutation_of v s -> good_isize cfg k ->
      ensures p (gpower (Permutations cfg n) k v) (fun z => permutation_of z
        match k with
        | Z0 => 1%g | Zpos m => (s ^+ Pos.to_nat m)%g | Zneg m => (s ^- Pos.to_nat m)%g
        end) &
    forall v s u t, permutation_of v s -> permutation_of u t ->
      [/\ ensures p (mul (Permutations cfg n) v u) (fun z => permutation_of z (s * t)%g),
          ensures p (mul_assign (Permutations cfg n) v u) (fun z => permutation_of z (s * t)%g) &
          answers p (equals (Permutations cfg n) v u) (s == t)]].
Proof.
have [[hD hS hM] hG] := Permutations_ok cfg p n; split.
- exact: one_ok hM.
- move=> v s vs; split.
  + exact: (square_ok hS vs).
  + exact: (ginv_ok hG vs).
  + exact: (perm_try_inv_ok _ _ vs).
  + exact: (is_one_ok hM vs).
  + exact: ensures_ret.
- move=> v s k vs gk; have := gpower_ok hG gk vs; rewrite /zpow.
  have np (t : 'S_n) m : npow mulg 1%g t m = (t ^+ m)%g.
    by elim: m => [|m IH] //; rewrite expgS -IH.
  by case: k gk => [|m|m] gk; rewrite ?np ?expgVn.
- by move=> v s u t vs ut; split; [exact: (mul_ok hS vs ut)|exact: (mul_assign_ok hS vs ut)|
    exact: (equals_ok hD vs ut)].
Qed.

Lemma perm_repeated v (seen : seq nat) (used : seq bool) v1 a v2 :
  size used = n -> (forall i, (i < n)%N -> nth false used i = (i \in seen)) ->
  v = v1 ++ a :: v2 -> (forall b, b \in v1 -> (b < n)%N) -> (a < n)%N ->
  a \in seen ++ v1 -> returns (perm_contains_loop v used) false.
Proof.
elim: v1 v seen used => [|b v1 IH] v seen used su hu -> /= v1n an.
  by rewrite cats0 => ain; rewrite (vgetE false) ?su // bind_ret hu // ain; exact: returns_ret.
move=> ain; have bn := v1n b (mem_head _ _).
rewrite (vgetE false) ?su // bind_ret hu //; case: ifP => bs; first exact: returns_ret.
rewrite (vsetE false) ?su // bind_ret.
apply: (IH _ (b :: seen)) => //.
- by rewrite size_set_nth su; apply/maxn_idPr.
- by move=> i ni; rewrite nth_set_nth /= inE; case: eqVneq => //= _; exact: hu.
- by move=> c cv; apply: v1n; rewrite inE cv orbT.
- by move: ain; rewrite !mem_cat !inE; case: (a == b); rewrite ?orbT.
Qed.

Lemma permutation_laws : Z.le (Zpos (xO xH)) (ptr_bits cfg) ->
  group_alg_laws p (fun v => exists s : 'S_n, permutation_of v s) cfg (Permutations cfg n).
Proof.
move=> hc; apply: (group_alg_laws_ok hc (fun x h => h) _ _ _ _ (Permutations_ok cfg p n)).
- exact: mulgA.
- exact: mul1g.
- exact: mulg1.
- by move=> x u _; split; [exact: mulgV|exact: mulVg].
Qed.

(** What [contains] does on all vectors. *)
Lemma permutation_contains v :
  [/\ size v <> n -> returns (contains (Permutations cfg n) v) false,
      size v = n -> (forall a, a \in v -> (a < n)%N) ->
        returns (contains (Permutations cfg n) v) (uniq v),
      forall v1 a v2, size v = n -> v = v1 ++ a :: v2 -> (n <= a)%N -> uniq v1 ->
        (forall b, b \in v1 -> (b < n)%N) -> panics (contains (Permutations cfg n) v) &
      forall v1 a v2, size v = n -> v = v1 ++ a :: v2 -> a \in v1 -> uniq v1 ->
        (forall b, b \in v1 -> (b < n)%N) -> returns (contains (Permutations cfg n) v) false].
Proof.
split.
- by move=> /eqP sv; rewrite /= /perm_contains sv; exact: returns_ret.
- move=> sv /allP av; rewrite /= perm_contains_in_range // sv eqxx; exact: returns_ret.
- by move=> v1 a v2 sv vE na u1 /allP a1; exact: (perm_contains_panics sv vE na a1 u1).
- move=> v1 a v2 sv vE av1 u1 a1; rewrite /= /perm_contains sv eqxx /=.
  apply: (@perm_repeated v [::] _ v1 a v2) => //; first by rewrite size_nseq.
    by move=> i ni; rewrite nth_nseq ni.
  exact: a1.
Qed.
End Perm.
