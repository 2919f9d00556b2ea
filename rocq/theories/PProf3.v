(** * PProf3.v -- every structure of the crate compiled with two profiles. *)

From Coq Require Import ZArith Lia.
From mathcomp Require Import all_ssreflect all_algebra zify ssrZ.
From Verif Require Import Rust Traits MInts MConstr Wp ZFacts PIntsZ PInts PSim PGSim CallSpec
  PAssign ProfSpec PProf PProf2.

Set Implicit Arguments.
Unset Strict Implicit.
Unset Printing Implicit Defensive.

Lemma gsim_triv st T (Q : T -> Prop) (m : M T) : (forall v, Q v) -> gsim st Q m m.
Proof. by move=> h; split=> // k v ->. Qed.

Lemma prof_refl_domain st E (D : Domain E) : domain_rel (@gsim st) any D D.
Proof. by split; repeat intro; exact: gsim_triv. Qed.

Section Bases.
Variables (st : Prop) (ok : Z -> Prop).
Local Notation r := (@gsim st).

Lemma prof_ring_refl E (A : RingAlg E) : ring_alg_rel r ok any A A.
Proof. by split; [split| | |]; split; repeat intro; apply: gsim_triv => // -[]. Qed.
Lemma prof_eucl_refl E (A : EuclAlg E) : eucl_alg_rel r ok any A A.
Proof.
split; last by split; repeat intro; exact: gsim_triv.
split; first exact: prof_ring_refl.
by split; repeat intro; apply: gsim_triv => // -[].
Qed.
Lemma prof_field_refl E (A : FieldAlg E) : field_alg_rel r ok any A A.
Proof.
split; first exact: prof_eucl_refl.
by split; repeat intro; exact: gsim_triv.
Qed.

Section CI.
Variables (c1 c2 : Cfg) (w : Z).
Hypothesis w2 : Z.le (Zpos (xO xH)) w.
Local Notation Q := (fun x : Z => is_true (in_i w x)).

Lemma prof_checked z : r Q (unwrap (checked_i w z)) (unwrap (checked_i w z)).
Proof. by apply: gsim_unwrap => v; rewrite /checked_i; case: ifP => // h [<-]. Qed.
Lemma prof_checked_ints : eucl_alg_rel r ok Q (CheckedInts c1 w) (CheckedInts c2 w).
Proof.
have h0 : r Q (ret Z0) (ret Z0) by apply: gsim_ret; exact: in_i0.
have h1 : r Q (ret (Zpos xH)) (ret (Zpos xH)) by apply: gsim_ret; exact: in_i1.
have ha : rel2 r Q (checked_ints_add w) (checked_ints_add w).
  by move=> x y _ _; exact: prof_checked.
have hm : rel2 r Q (checked_ints_mul w) (checked_ints_mul w).
  by move=> x y _ _; exact: prof_checked.
have hd : rel1 r Q (default_double (checked_ints_add w)) (default_double (checked_ints_add w)).
  by move=> x Qx; exact: ha.
have hn : rel1 r Q (checked_ints_neg w) (checked_ints_neg w).
  by move=> x _; exact: prof_checked.
have hv : rel1b r Q checked_ints_invertible checked_ints_invertible.
  by move=> x _; exact: gsim_refl.
have hz : rel1b r Q (fun x => ret (Z.eqb x Z0)) (fun x => ret (Z.eqb x Z0)).
  by move=> x _; exact: gsim_refl.
have ht n : rel1 r Q (checked_ints_ztimes w n) (checked_ints_ztimes w n).
  by move=> x _; apply: gsim_bind (prof_checked _) _ => k _; exact: prof_checked.
have hs : rel2 r Q (fun x y => unwrap (checked_i w (Z.sub x y)))
    (fun x y => unwrap (checked_i w (Z.sub x y))).
  by move=> x y _ _; exact: prof_checked.
have htd : rel2o r Q (checked_ints_try_div c1 w) (checked_ints_try_div c2 w).
  move=> x y Qx Qy; have [->|y0] := Z.eq_dec y Z0; first exact: gsim_panic.
  rewrite !checked_ints_try_divE //; case: ifP => [_|/negbT nb]; first exact: gsim_panic.
  by apply: gsim_ret; case: ifP => //= _; exact: in_zquo.
have hdv := gsim_divisible hz htd.
have hq : rel2p r Q (checked_ints_quo_rem c1 w) (checked_ints_quo_rem c2 w).
  move=> x y Qx Qy; have [->|y0] := Z.eq_dec y Z0; first exact: gsim_panic.
  rewrite !checked_ints_quo_remE //; case: ifP => [_|/negbT nb]; first exact: gsim_panic.
  by apply: gsim_ret; split=> /=; [exact: in_zquo|exact: in_zrem].
have hQ := gsim_quo hq; have hr := gsim_rem hq; have hg := gsim_gcd hz hr.
split; last first.
  split; [exact: hq|exact: hQ|exact: hr| |exact: hg|exact: (gsim_lcm hz hm hQ hg)| |].
  - by move=> x y Qx Qy; rewrite /= !checked_ints_reducedE //; exact: gsim_refl.
  - by move=> x y Qx Qy; exact: (gsim_extended_gcd hz h1 h0 hm hs hq Qx Qy).
  - exact: (gsim_relative_primes hv hg).
split; last first.
  split; [exact: htd|exact: hdv|exact: (gsim_associates hdv)| |].
    by move=> x Qx; apply: gsim_if => _; [exact: hn|exact: gsim_ret].
  move=> x Qx; apply: gsim_bind (gsim_assert _ _) _ => _ _; apply: gsim_if => _ //.
  by apply: gsim_ret; exact: in_iN1.
split.
- split; first by split=> [x _|x y _ _]; exact: gsim_refl.
    by split=> //; move=> x Qx; exact: hm.
  split; [exact: h1|by move=> x _; exact: gsim_refl| |exact: hv].
  by move=> x Qx; apply: gsim_bind (hv x Qx) _ => -[] _; exact: gsim_ret.
- by split=> // n _ x Qx; exact: (gsim_ntimes _ h0 ha hd Qx).
- by split; [exact: hn|exact: hn|exact: hs|exact: (gsim_sub_assign hn ha)|move=> n _; exact: ht].
- by split=> n _; exact: (prof_int (ht n) h1).
Qed.
End CI.
End Bases.

(** ** All structures *)
Section All.
Variables (st : Prop) (c1 c2 : Cfg) (ok : Z -> Prop).
Hypothesis okP : forall n, ok n -> Z.ltb n Z0 ->
  gsim st any (prim_i c1 (ptr_bits c1) (Z.opp n)) (prim_i c2 (ptr_bits c2) (Z.opp n)).
Hypothesis ok1 : ok (Zpos xH).
Local Notation r := (@gsim st).

Fixpoint prof_eucl_all E (ty : E -> Prop) A (h : prof_eucl ty A) {struct h} :
  eucl_alg_rel r ok ty (A c1) (A c2)
with prof_field_all E (ty : E -> Prop) A (h : prof_field ty A) {struct h} :
  field_alg_rel r ok ty (A c1) (A c2).
Proof.
- case: E ty A / h => [|w w2|E ty A hA|E ty A hA].
  + exact: prof_eucl_refl.
  + exact: prof_checked_ints.
  + exact: fi_eucl_alg_rel (prof_field_all _ _ _ hA).
  + exact: prof_poly_eucl (prof_field_all _ _ _ hA).
- case: E ty A / h => [|E ty A m hA hm|E ty A hA].
  + exact: prof_field_refl.
  + exact: (prof_quotient_field okP (prof_eucl_all _ _ _ hA) hm).
  + exact: (prof_fractions okP (prof_eucl_all _ _ _ hA)).
Qed.
Lemma prof_idom_all E (ty : E -> Prop) A : prof_idom ty A ->
  idom_alg_rel r ok ty (A c1) (A c2).
Proof.
elim=> {E ty A} [E ty A hA|E ty A _ IH].
  exact: eu_idom_alg_rel (prof_eucl_all hA).
exact: prof_poly_idom IH.
Qed.
Definition debug_follows : Prop := forall m1 m2, r any m1 m2 ->
  r any (debug_assert c1 m1) (debug_assert c2 m2).
Lemma prof_ring_all (mat : bool) E (ty : E -> Prop) A : (mat -> debug_follows) -> prof_ring mat ty A ->
  ring_alg_rel r ok ty (A c1) (A c2).
Proof.
move=> hdbg; elim=> {E ty A}
  [E ty A hA|E ty A m hA hm|E ty n A _ IH|E ty A _ IH|E ty n A hmat hA].
- exact: id_ring_alg_rel (prof_idom_all hA).
- exact: (prof_quotient_ring okP (prof_eucl_all hA) hm).
- exact: (prof_vector_ring okP n IH).
- exact: prof_poly_ring IH.
- apply: (prof_matrix_ring okP (n := n) (prof_field_all hA) ok1) => v Qv.
  by apply: hdbg => //; exact: (prof_matrix_is_one n (prof_field_all hA) ok1 Qv).
Qed.
Lemma debug_len_same n v : size v = n -> r any (debug_len c1 n v) (debug_len c2 n v).
Proof.
by move=> h; rewrite /debug_len /debug_assert h eqxx; do 2![case: (debug_assertions _)];
  exact: gsim_refl.
Qed.
Lemma prof_group_all (mat : bool) E (ty : E -> Prop) A : (mat -> debug_follows) -> prof_group mat ty A ->
  group_alg_rel r ok ty (A c1) (A c2).
Proof.
move=> hdbg; elim=> {E ty A} [E ty A hA|E ty A hA|n|E ty n A _ IH].
- have [[hD _ _] hC hG _] := prof_ring_all hdbg hA.
  exact: (prof_additive okP hD hC (neg_rel hG)).
- exact: (prof_multiplicative okP (ri_monoid_alg_rel (prof_ring_all hdbg hA))).
- apply: (prof_permutations okP) => // [v u -> //|v hv]; exact: debug_len_same.
- exact: (prof_vector_group okP n IH).
Qed.
Lemma prof_divorder_all E (ty : E -> Prop) A : prof_idom ty A ->
  bounded_alg_rel r ty (DivisibilityOrder (A c1)) (DivisibilityOrder (A c2)).
Proof. by move=> hA; exact: prof_divorder (prof_idom_all hA). Qed.
Lemma prof_divlattice_all E (ty : E -> Prop) A : prof_eucl ty A ->
  lattice_alg_rel r ty (DivisibilityLattice (A c1)) (DivisibilityLattice (A c2)).
Proof. by move=> hA; exact: prof_divlattice (prof_eucl_all hA). Qed.
End All.

(** ** The two relations used in the properties *)
Ltac pick := match goal with H : _ |- _ => solve [by move: H; rewrite /rel1 /rel2 /rel1b /rel2b /rel1o /rel2o /rel2p /rel2t; auto|exact H|apply H; assumption|apply (H _); assumption] end.
Section Map.
Variables (r r' : forall T, (T -> Prop) -> M T -> M T -> Prop) (ok : Z -> Prop).
Hypothesis rr' : forall T (Q : T -> Prop) m1 m2, r Q m1 m2 -> r' Q m1 m2.
Variables (E : Type) (Q : E -> Prop).
Lemma map_domain (A B : Domain E) : domain_rel r Q A B -> domain_rel r' Q A B.
Proof. by case=> *; split; repeat intro; apply: rr'; pick. Qed.
Lemma map_semigroup (A B : Semigroup E) : semigroup_rel r Q A B -> semigroup_rel r' Q A B.
Proof. by case=> *; split; repeat intro; apply: rr'; pick. Qed.
Lemma map_monoid (A B : Monoid E) : monoid_rel r Q A B -> monoid_rel r' Q A B.
Proof. by case=> *; split; repeat intro; apply: rr'; pick. Qed.
Lemma map_cmonoid (A B : CommMonoid E) : cmonoid_rel r Q A B -> cmonoid_rel r' Q A B.
Proof. by case=> *; split; repeat intro; apply: rr'; pick. Qed.
Lemma map_group (A B : Group E) : group_rel r ok Q A B -> group_rel r' ok Q A B.
Proof. by case=> *; split; repeat intro; apply: rr'; pick. Qed.
Lemma map_abelian (A B : AbelianGroup E) : abelian_rel r ok Q A B -> abelian_rel r' ok Q A B.
Proof. by case=> *; split; repeat intro; apply: rr'; pick. Qed.
Lemma map_unitary (A B : UnitaryRing E) : unitary_rel r ok Q A B -> unitary_rel r' ok Q A B.
Proof. by case=> *; split; repeat intro; apply: rr'; pick. Qed.
Lemma map_idom (A B : IntegralDomain E) : idom_rel r Q A B -> idom_rel r' Q A B.
Proof. by case=> *; split; repeat intro; apply: rr'; pick. Qed.
Lemma map_eucl (A B : EuclideanDomain E) : eucl_rel r Q A B -> eucl_rel r' Q A B.
Proof. by case=> *; split; repeat intro; apply: rr'; pick. Qed.
Lemma map_field (A B : Field E) : field_rel r ok Q A B -> field_rel r' ok Q A B.
Proof. by case=> *; split; repeat intro; apply: rr'; pick. Qed.
Lemma map_order (A B : PartialOrder E) : order_rel r Q A B -> order_rel r' Q A B.
Proof. by case=> *; split; repeat intro; apply: rr'; pick. Qed.
Lemma map_bounded (A B : BoundedOrder E) : bounded_rel r Q A B -> bounded_rel r' Q A B.
Proof. by case=> *; split; repeat intro; apply: rr'; pick. Qed.
Lemma map_lattice (A B : Lattice E) : lattice_rel r Q A B -> lattice_rel r' Q A B.
Proof. by case=> *; split; repeat intro; apply: rr'; pick. Qed.
Lemma map_boolean (A B : BooleanAlgebra E) : boolean_rel r Q A B -> boolean_rel r' Q A B.
Proof. by case=> *; split; repeat intro; apply: rr'; pick. Qed.
Lemma map_monoid_alg (A B : MonoidAlg E) : monoid_alg_rel r Q A B -> monoid_alg_rel r' Q A B.
Proof. by case=> h0 h1 h2; split; [exact: map_domain|exact: map_semigroup|exact: map_monoid]. Qed.
Lemma map_group_alg (A B : GroupAlg E) : group_alg_rel r ok Q A B -> group_alg_rel r' ok Q A B.
Proof. by case=> h0 h1; split; [exact: map_monoid_alg|exact: map_group]. Qed.
Lemma map_ring_alg (A B : RingAlg E) : ring_alg_rel r ok Q A B -> ring_alg_rel r' ok Q A B.
Proof. by case=> h0 h1 h2 h3; split; [exact: map_monoid_alg|exact: map_cmonoid|exact: map_abelian|exact: map_unitary]. Qed.
Lemma map_idom_alg (A B : IDomAlg E) : idom_alg_rel r ok Q A B -> idom_alg_rel r' ok Q A B.
Proof. by case=> h0 h1; split; [exact: map_ring_alg|exact: map_idom]. Qed.
Lemma map_eucl_alg (A B : EuclAlg E) : eucl_alg_rel r ok Q A B -> eucl_alg_rel r' ok Q A B.
Proof. by case=> h0 h1; split; [exact: map_idom_alg|exact: map_eucl]. Qed.
Lemma map_field_alg (A B : FieldAlg E) : field_alg_rel r ok Q A B -> field_alg_rel r' ok Q A B.
Proof. by case=> h0 h1; split; [exact: map_eucl_alg|exact: map_field]. Qed.
Lemma map_order_alg (A B : OrderAlg E) : order_alg_rel r Q A B -> order_alg_rel r' Q A B.
Proof. by case=> h0 h1; split; [exact: map_domain|exact: map_order]. Qed.
Lemma map_bounded_alg (A B : BoundedAlg E) : bounded_alg_rel r Q A B -> bounded_alg_rel r' Q A B.
Proof. by case=> h0 h1; split; [exact: map_order_alg|exact: map_bounded]. Qed.
Lemma map_lattice_alg (A B : LatticeAlg E) : lattice_alg_rel r Q A B -> lattice_alg_rel r' Q A B.
Proof. by case=> h0 h1; split; [exact: map_order_alg|exact: map_lattice]. Qed.
End Map.

Lemma gsim_agree T (Q : T -> Prop) m1 m2 : gsim True Q m1 m2 -> agree Q m1 m2.
Proof.
case=> h e; split; first by apply: same_run_call; exact: e.
by move=> v hv; have [] := sim_returns h hv.
Qed.
Lemma gsim_follows T (Q : T -> Prop) m1 m2 : gsim False Q m1 m2 -> follows Q m1 m2.
Proof. by case=> h _ v; exact: sim_returns. Qed.

Lemma not_minP c1 c2 n : same_machine c1 c2 -> not_min c1 n -> Z.ltb n Z0 ->
  gsim True any (prim_i c1 (ptr_bits c1) (Z.opp n)) (prim_i c2 (ptr_bits c2) (Z.opp n)).
Proof.
move=> <- [h1 h2] /Z.ltb_lt n0; rewrite /prim_i.
have -> : in_i (ptr_bits c1) (Z.opp n) by rewrite /in_i /imin /imax; apply/andP; split; lia.
exact: gsim_refl.
Qed.
Lemma not_min1 c : Z.le 2 (ptr_bits c) -> not_min c 1.
Proof.
move=> h; have := Z.pow_le_mono_r 2 1 (ptr_bits c - 1); rewrite /not_min; lia.
Qed.
Lemma stricterP c1 c2 z : stricter c1 c2 ->
  gsim False any (prim_i c1 (ptr_bits c1) z) (prim_i c2 (ptr_bits c2) z).
Proof.
case=> <- h _; rewrite /prim_i; split=> //; case: ifP => _; first exact: sim_refl.
by move: h; case: (overflow_checks c1) => // h; case: (overflow_checks c2) h => [/(_ isT)|] //= _;
  exact: sim_refl.
Qed.
Lemma stricter_debug c1 c2 : stricter c1 c2 -> debug_follows False c1 c2.
Proof.
move=> [_ _ h] m1 m2 hm; rewrite /debug_assert; split=> //; have [hs _] := hm.
move: h; case: (debug_assertions c1); case: (debug_assertions c2) => h.
- by apply: sim_bind hs _ => b _; exact: sim_refl.
- by move=> k v; rewrite /bind; case: (m1 k) => //= -[] // [<-].
- by have := h isT.
- exact: sim_refl.
Qed.

Section Statements.
Variables (c1 c2 : Cfg).
Local Notation ok := (not_min c1).

Lemma agree_field (E : Type) (ty : E -> Prop) A : same_machine c1 c2 -> prof_field ty A ->
  field_alg_rel agree ok ty (A c1) (A c2).
Proof.
move=> hc hA; apply: (map_field_alg (@gsim_agree)).
by apply: prof_field_all hA => n; exact: not_minP.
Qed.
Lemma agree_eucl (E : Type) (ty : E -> Prop) A : same_machine c1 c2 -> prof_eucl ty A ->
  eucl_alg_rel agree ok ty (A c1) (A c2) /\
  lattice_alg_rel agree ty (DivisibilityLattice (A c1)) (DivisibilityLattice (A c2)).
Proof.
move=> hc hA; split.
  by apply: (map_eucl_alg (@gsim_agree)); apply: prof_eucl_all hA => n; exact: not_minP.
apply: (map_lattice_alg (@gsim_agree)).
by apply: (prof_divlattice_all (ok := ok)) hA => n; exact: not_minP.
Qed.
Lemma agree_idom (E : Type) (ty : E -> Prop) A : same_machine c1 c2 -> prof_idom ty A ->
  idom_alg_rel agree ok ty (A c1) (A c2) /\
  bounded_alg_rel agree ty (DivisibilityOrder (A c1)) (DivisibilityOrder (A c2)).
Proof.
move=> hc hA; split.
  by apply: (map_idom_alg (@gsim_agree)); apply: prof_idom_all hA => n; exact: not_minP.
apply: (map_bounded_alg (@gsim_agree)).
by apply: (prof_divorder_all (ok := ok)) hA => n; exact: not_minP.
Qed.
Lemma agree_ring (E : Type) (ty : E -> Prop) A : same_machine c1 c2 -> Z.le 2 (ptr_bits c1) ->
  prof_ring false ty A -> ring_alg_rel agree ok ty (A c1) (A c2).
Proof.
move=> hc h2 hA; apply: (map_ring_alg (@gsim_agree)).
by apply: prof_ring_all hA => // [n|]; [exact: not_minP|exact: not_min1].
Qed.
Lemma agree_group (E : Type) (ty : E -> Prop) A : same_machine c1 c2 -> Z.le 2 (ptr_bits c1) ->
  prof_group false ty A -> group_alg_rel agree ok ty (A c1) (A c2).
Proof.
move=> hc h2 hA; apply: (map_group_alg (@gsim_agree)).
by apply: prof_group_all hA => // [n|]; [exact: not_minP|exact: not_min1].
Qed.
Lemma agree_matrix (E : Type) (ty : E -> Prop) n A : same_machine c1 c2 ->
  Z.le 2 (ptr_bits c1) -> prof_field ty A ->
  let R1 := MatrixRing c1 (A c1) n in let R2 := MatrixRing c2 (A c2) n in
  [/\ domain_rel agree (in_vec ty) R1 R2, semigroup_rel agree (in_vec ty) R1 R2,
      cmonoid_rel agree (in_vec ty) R1 R2, abelian_rel agree ok (in_vec ty) R1 R2 &
      unitary_rel agree ok (in_vec ty) R1 R2] /\
  [/\ agree (in_vec ty) (one R1) (one R2),
      rel1b agree (in_vec ty) (is_one R1) (is_one R2),
      rel1b agree (in_vec ty) (invertible R1) (invertible R2) &
      forall v, in_vec ty v -> agree ty (determinant (A c1) n v) (determinant (A c2) n v)].
Proof.
move=> hc h2 hA.
have okP k := @not_minP c1 c2 k hc; have h1 := not_min1 h2.
have hF := prof_field_all okP hA; split; split.
- exact: (map_domain (@gsim_agree) (prof_matrix_domain n hF)).
- exact: (map_semigroup (@gsim_agree) (prof_matrix_semigroup n hF)).
- exact: (map_cmonoid (@gsim_agree) (prof_matrix_cmonoid n hF)).
- exact: (map_abelian (@gsim_agree) (prof_matrix_abelian okP n hF)).
- apply: (map_unitary (@gsim_agree)); split=> k okk; exact: (prof_matrix_int n hF okk).
- exact: gsim_agree (prof_matrix_one n hF h1).
- by move=> v Qv; exact: gsim_agree (prof_matrix_is_one n hF h1 Qv).
- by move=> v Qv; exact: gsim_agree (prof_matrix_invertible n hF Qv).
- by move=> v Qv; exact: gsim_agree (prof_determinant n hF Qv).
Qed.

Lemma follows_field (E : Type) (ty : E -> Prop) A : stricter c1 c2 -> prof_field ty A ->
  field_alg_rel follows (fun _ => True) ty (A c1) (A c2).
Proof.
move=> hc hA; apply: (map_field_alg (@gsim_follows)).
by apply: prof_field_all hA => n _ _; exact: stricterP.
Qed.
Lemma follows_eucl (E : Type) (ty : E -> Prop) A : stricter c1 c2 -> prof_eucl ty A ->
  eucl_alg_rel follows (fun _ => True) ty (A c1) (A c2) /\
  lattice_alg_rel follows ty (DivisibilityLattice (A c1)) (DivisibilityLattice (A c2)).
Proof.
move=> hc hA; split.
  by apply: (map_eucl_alg (@gsim_follows)); apply: prof_eucl_all hA => n _ _; exact: stricterP.
apply: (map_lattice_alg (@gsim_follows)).
by apply: (prof_divlattice_all (ok := any)) hA => n _ _; exact: stricterP.
Qed.
Lemma follows_idom (E : Type) (ty : E -> Prop) A : stricter c1 c2 -> prof_idom ty A ->
  idom_alg_rel follows (fun _ => True) ty (A c1) (A c2) /\
  bounded_alg_rel follows ty (DivisibilityOrder (A c1)) (DivisibilityOrder (A c2)).
Proof.
move=> hc hA; split.
  by apply: (map_idom_alg (@gsim_follows)); apply: prof_idom_all hA => n _ _; exact: stricterP.
apply: (map_bounded_alg (@gsim_follows)).
by apply: (prof_divorder_all (ok := any)) hA => n _ _; exact: stricterP.
Qed.
Lemma follows_ring (E : Type) (ty : E -> Prop) A : stricter c1 c2 ->
  prof_ring true ty A -> ring_alg_rel follows (fun _ => True) ty (A c1) (A c2).
Proof.
move=> hc hA; apply: (map_ring_alg (@gsim_follows)).
apply: prof_ring_all hA => // [n _ _|_]; [exact: stricterP|exact: stricter_debug].
Qed.
Lemma follows_group (E : Type) (ty : E -> Prop) A : stricter c1 c2 ->
  prof_group true ty A -> group_alg_rel follows (fun _ => True) ty (A c1) (A c2).
Proof.
move=> hc hA; apply: (map_group_alg (@gsim_follows)).
apply: prof_group_all hA => // [n _ _|_]; [exact: stricterP|exact: stricter_debug].
Qed.
End Statements.
