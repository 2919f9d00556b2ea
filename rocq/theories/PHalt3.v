(** * PHalt3.v -- every call of every structure of the crate comes to an end. *)

From Coq Require Import ZArith Lia.
From mathcomp Require Import all_ssreflect all_algebra zify ssrZ.
From Verif Require Import Rust Traits MInts MConstr Wp ZFacts PIntsZ PInts PSim CallSpec
  ProfSpec HaltSpec PHSim PHalt PHalt2.

Set Implicit Arguments.
Unset Strict Implicit.
Unset Printing Implicit Defensive.

Local Notation r := halts.
Local Notation ok := every_num.
Local Notation T := (fun _ => True).

Ltac head_of m := match m with ?f _ => head_of f | _ => m end.
Ltac ends := repeat intro; rewrite /=; repeat match goal with
  | |- halts _ (ret _) _ => apply: hsim_ret
  | |- halts _ panic _ => exact: hsim_panic
  | |- halts _ (unwrap _) _ => solve [auto]
  | |- halts _ (if ?b then _ else _) _ => case: b
  | |- halts _ (bind (ret _) _) _ => rewrite !bind_ret
  | |- halts _ (bind (assert _) _) _ => apply: hsim_bind (hsim_assert _) _ => _ _
  | |- halts _ ?m _ => let h := head_of m in unfold h
  end; try by [].

(** ** The integers *)
Lemma descends_ZZ : descends T (is_zero ZZ) (quo_rem ZZ) Z.abs_nat.
Proof.
move=> x y _ _; have [->|y0] := Z.eq_dec y Z0; first exact: ensures_panic.
rewrite /= integers_quo_remE //; apply: ensures_ret; split=> //; right => /=.
have := zrem_bound x y y0; lia.
Qed.
Lemma halt_ZZ : eucl_alg_rel r ok T ZZ ZZ.
Proof.
have hq : rel2p r T (quo_rem ZZ) (quo_rem ZZ).
  by move=> x y _ _; apply/haltsE; apply: ensures_mono (descends_ZZ I I) _ => ? [].
have hz : rel1b r T (is_zero ZZ) (is_zero ZZ) by move=> x _; exact: hsim_ret.
have hm : rel2 r T (mul ZZ) (mul ZZ) by move=> x y _ _; exact: hsim_ret.
have hs : rel2 r T (sub ZZ) (sub ZZ) by move=> x y _ _; exact: hsim_ret.
have h0 : r T (zero ZZ) (zero ZZ) by exact: hsim_ret.
have h1 : r T (one ZZ) (one ZZ) by exact: hsim_ret.
have hQ := hsim_quo hq; have hr := hsim_rem hq; have hg := hsim_gcd (rem ZZ) hz descends_ZZ.
have hv : rel1b r T integers_invertible integers_invertible by move=> x _; exact: hsim_ret.
split; last first.
  split; [exact: hq|exact: hQ|exact: hr|by ends|exact: hg|exact: (hsim_lcm hz hm hQ hg)| |].
  - by move=> x y Qx Qy; exact: (hsim_extended_gcd _ hz h1 h0 hm hs descends_ZZ Qx Qy).
  - exact: (hsim_relative_primes hv hg).
have hd : rel2b r T (divisible ZZ) (divisible ZZ) by ends.
split; last first.
  split; [|exact: hd|exact: (hsim_associates hd)| |]; try by ends.
split; [split| | |]; split; try by ends.
- by move=> x Qx; apply: hsim_bind (hv x Qx) _ => -[] _; exact: hsim_ret.
- by move=> x y _ _; rewrite /= /default_sub_assign bind_ret; exact: hsim_ret.
Qed.
Lemma sane_ZZ : sane_constants ZZ.
Proof.
by split=> z h; have <- := returns_det (returns_ret _) h; exact: returns_ret.
Qed.

(** ** Checked integers *)
Section CI.
Variables (c : Cfg) (w : Z).
Hypothesis w2 : Z.le (Zpos (xO xH)) w.
Local Notation Q := (fun x : Z => is_true (in_i w x)).
Local Notation CI := (CheckedInts c w).

Lemma halt_checked z : r Q (unwrap (checked_i w z)) (unwrap (checked_i w z)).
Proof. by apply: hsim_unwrap => v; rewrite /checked_i; case: ifP => // h [<-]. Qed.
Lemma descends_CI : descends Q (is_zero CI) (quo_rem CI) Z.abs_nat.
Proof.
move=> x y Qx Qy; have [->|y0] := Z.eq_dec y Z0; first exact: ensures_panic.
rewrite /= checked_ints_quo_remE //; case: ifP => [_|/negbT nb]; first exact: ensures_panic.
apply: ensures_ret; split; first by split=> /=; [exact: in_zquo|exact: in_zrem].
by right => /=; have := zrem_bound x y y0; lia.
Qed.
Lemma halt_checked_ints : eucl_alg_rel r ok Q CI CI.
Proof.
have h0 : r Q (ret Z0) (ret Z0) by apply: hsim_ret; exact: in_i0.
have h1 : r Q (ret (Zpos xH)) (ret (Zpos xH)) by apply: hsim_ret; exact: in_i1.
have ha : rel2 r Q (checked_ints_add w) (checked_ints_add w).
  by move=> x y _ _; exact: halt_checked.
have hm : rel2 r Q (checked_ints_mul w) (checked_ints_mul w).
  by move=> x y _ _; exact: halt_checked.
have hd : rel1 r Q (default_double (checked_ints_add w)) (default_double (checked_ints_add w)).
  by move=> x Qx; exact: ha.
have hn : rel1 r Q (checked_ints_neg w) (checked_ints_neg w).
  by move=> x _; exact: halt_checked.
have hv : rel1b r Q checked_ints_invertible checked_ints_invertible.
  by move=> x _; exact: hsim_ret.
have hz : rel1b r Q (is_zero CI) (is_zero CI).
  by move=> x _; exact: hsim_ret.
have ht n : rel1 r Q (checked_ints_ztimes w n) (checked_ints_ztimes w n).
  by move=> x _; apply: hsim_bind (halt_checked _) _ => k _; exact: halt_checked.
have hs : rel2 r Q (fun x y => unwrap (checked_i w (Z.sub x y)))
    (fun x y => unwrap (checked_i w (Z.sub x y))).
  by move=> x y _ _; exact: halt_checked.
have htd : rel2o r Q (checked_ints_try_div c w) (checked_ints_try_div c w).
  move=> x y Qx Qy; have [->|y0] := Z.eq_dec y Z0; first exact: hsim_panic.
  rewrite !checked_ints_try_divE //; case: ifP => [_|/negbT nb]; first exact: hsim_panic.
  by apply: hsim_ret; case: ifP => //= _; exact: in_zquo.
have hdv := hsim_divisible hz htd.
have hq : rel2p r Q (quo_rem CI) (quo_rem CI).
  by move=> x y Qx Qy; apply/haltsE; apply: ensures_mono (descends_CI Qx Qy) _ => ? [].
have hQ := hsim_quo hq; have hr := hsim_rem hq; have hg := hsim_gcd (rem CI) hz descends_CI.
split; last first.
  split; [exact: hq|exact: hQ|exact: hr| |exact: hg|exact: (hsim_lcm hz hm hQ hg)| |].
  - by move=> x y Qx Qy; rewrite /= !checked_ints_reducedE //; exact: hsim_ret.
  - by move=> x y Qx Qy; exact: (hsim_extended_gcd _ hz h1 h0 hm hs descends_CI Qx Qy).
  - exact: (hsim_relative_primes hv hg).
split; last first.
  split; [exact: htd|exact: hdv|exact: (hsim_associates hdv)| |].
    by move=> x Qx; apply: hsim_if => _; [exact: hn|exact: hsim_ret].
  move=> x Qx; apply: hsim_bind (hsim_assert _) _ => _ _; apply: hsim_if => _ //.
  by apply: hsim_ret; exact: in_iN1.
split.
- split; first by split=> [x _|x y _ _]; exact: hsim_ret.
    by split=> //; move=> x Qx; exact: hm.
  split; [exact: h1|by move=> x _; exact: hsim_ret| |exact: hv].
  by move=> x Qx; apply: hsim_bind (hv x Qx) _ => -[] _; exact: hsim_ret.
- by split=> // n _ x Qx; exact: (hsim_ntimes _ h0 ha hd Qx).
- by split; [exact: hn|exact: hn|exact: hs|exact: (hsim_sub_assign hn ha)|move=> n _; exact: ht].
- by split=> n _; exact: (halt_int (ht n) h1).
Qed.
Lemma sane_CI : sane_constants CI.
Proof.
by split=> z h; have <- := returns_det (returns_ret _) h; exact: returns_ret.
Qed.
End CI.

(** ** The two element algebra *)
Lemma halt_two_ring : ring_alg_rel r ok T two_ring two_ring.
Proof.
split; [split| | |]; split; try by ends.
by move=> n _ x Qx; apply: (hsim_ntimes _ _ _ _ Qx); ends.
Qed.
Lemma halt_BB : field_alg_rel r ok T BB BB.
Proof.
apply: halt_field_alg; first exact: halt_two_ring; first by split; ends.
by move=> z h; have <- := returns_det (returns_ret _) h; exact: returns_ret.
Qed.
Lemma sane_BB : sane_constants BB.
Proof.
by split=> z h; have <- := returns_det (returns_ret _) h; exact: returns_ret.
Qed.

(** ** Polynomials have sane constants *)
Lemma sane_poly (k : Z -> Prop) E (Q : E -> Prop) (A B : FieldAlg E) : field_alg_rel r k Q A B ->
  sane_constants A -> sane_constants (PolyEucl A).
Proof.
move=> hA [_ h0 h1]; split=> z h.
- by have <- := returns_det (returns_ret _) h; exact: returns_ret.
- by have <- := returns_det (returns_ret _) h; exact: returns_ret.
have hO : monoid_rel r Q A B := hA : ring_alg_rel r k Q A B.
move: h; rewrite /= /poly_one => h.
have [|o ho {}h] := returns_inv h.
  by case: (one_rel hO) => [[b [hb _]]|hb]; [left; exists b|right].
have [|b hb {}h] := returns_inv h.
  case: (one_rel hO) => [[b [hb Qb]]|hb]; last by case: (returns_panics ho hb).
  rewrite (returns_det ho hb).
  have hC : cmonoid_rel r Q A B := hA : ring_alg_rel r k Q A B.
  exact: is_zero_rel hC _ Qb.
have [|u hu {}h] := returns_inv h; first by apply: hsim_mono (hsim_assert _) _.
have [|o' ho' {}h] := returns_inv h.
  by left; exists o.
have <- := returns_det (returns_ret _) h.
by rewrite /poly_equals /=; apply: returns_bind (h1 _ ho') _; exact: returns_ret.
Qed.

(** ** All structures *)
Section All.
Variable c : Cfg.

Fixpoint halt_eucl_all E (ty : E -> Prop) A (h : prof_eucl ty A) {struct h} :
  eucl_alg_rel r ok ty (A c) (A c) /\ sane_constants (A c)
with halt_field_all E (ty : E -> Prop) A (h : prof_field ty A) {struct h} :
  field_alg_rel r ok ty (A c) (A c) /\ sane_constants (A c).
Proof.
- case: E ty A / h => [|w w2|E ty A hA|E ty A hA].
  + by split; [exact: halt_ZZ|exact: sane_ZZ].
  + by split; [exact: halt_checked_ints|exact: sane_CI].
  + by have [h1 h2] := halt_field_all _ _ _ hA; split=> //; exact: fi_eucl_alg_rel h1.
  + by have [h1 h2] := halt_field_all _ _ _ hA; split; [exact: halt_poly_eucl h1|exact: sane_poly h1 h2].
- case: E ty A / h => [|E ty A m hA hm|E ty A hA].
  + by split; [exact: halt_BB|exact: sane_BB].
  + have [h1 h2] := halt_eucl_all _ _ _ hA.
    by split; [exact: halt_quotient_field h1 hm h2|exact: sane_quotient h2].
  + have [h1 h2] := halt_eucl_all _ _ _ hA.
    by split; [exact: halt_fractions h1 h2|exact: sane_fractions h1 h2].
Qed.
Lemma halt_idom_all E (ty : E -> Prop) A : prof_idom ty A -> idom_alg_rel r ok ty (A c) (A c).
Proof.
elim=> {E ty A} [E ty A hA|E ty A _ IH].
  by have [h _] := halt_eucl_all hA; exact: eu_idom_alg_rel h.
exact: halt_poly_idom IH.
Qed.
Lemma halt_debug m : r T m m -> r T (debug_assert c m) (debug_assert c m).
Proof.
move=> h; rewrite /debug_assert; case: (debug_assertions c); last exact: hsim_ret.
by apply: hsim_bind h _ => b _; apply: hsim_mono (hsim_assert _) _.
Qed.
Lemma halt_ring_all (mat : bool) E (ty : E -> Prop) A : prof_ring mat ty A ->
  ring_alg_rel r ok ty (A c) (A c).
Proof.
elim=> {E ty A} [E ty A hA|E ty A m hA hm|E ty n A _ IH|E ty A _ IH|E ty n A hmat hA].
- exact: id_ring_alg_rel (halt_idom_all hA).
- by have [h _] := halt_eucl_all hA; exact: halt_quotient_ring h hm.
- exact: halt_vector_ring IH.
- exact: halt_poly_ring IH.
- have [h _] := halt_field_all hA; apply: (halt_matrix_ring (n := n) h) => // v Qv.
  by apply: halt_debug; exact: (halt_matrix_is_one n h I Qv).
Qed.
Lemma halt_group_all (mat : bool) E (ty : E -> Prop) A : prof_group mat ty A ->
  group_alg_rel r ok ty (A c) (A c).
Proof.
elim=> {E ty A} [E ty A hA|E ty A hA|n|E ty n A _ IH].
- have [[hD _ _] hC hG _] := halt_ring_all hA.
  exact: halt_additive hD hC (neg_rel hG).
- exact: halt_multiplicative (ri_monoid_alg_rel (halt_ring_all hA)).
- by apply: halt_permutations => // [v u -> //|v hv]; apply: halt_debug; exact: hsim_ret.
- exact: halt_vector_group IH.
Qed.
End All.

(** ** Semirings and lattices *)
Lemma halt_NN : semiring_alg_rel r T NN NN.
Proof. by split; [split|]; split; ends. Qed.
Lemma halt_CheckedUints (w : Z) : Z.le 1 w ->
  semiring_alg_rel r (fun x => is_true (in_u w x)) (CheckedUints w) (CheckedUints w).
Proof.
move=> w1; have hc z : r (fun x => is_true (in_u w x)) (unwrap (checked_u w z)) (unwrap (checked_u w z)).
  by apply: hsim_unwrap => v; rewrite /checked_u; case: ifP => // h [<-].
have u1 : in_u w 1 by rewrite /in_u /umax; have := Z.pow_le_mono_r 2 1 w; lia.
have u0 : in_u w 0 by rewrite /in_u /umax; have := Z.pow_pos_nonneg 2 w; lia.
split; [split|]; split; try by ends.
by move=> n _ x Qx; apply: (hsim_ntimes (Q := fun x => is_true (in_u w x)) _ _ _ _ Qx); ends.
Qed.
Lemma halt_lattice E (e l : E -> E -> M bool) (m j : E -> E -> E) D f g p q :
  e = (fun x y => ret (f x y)) -> l = (fun x y => ret (g x y)) ->
  D = mkDomain p e -> p = (fun x => ret (q x)) ->
  lattice_alg_rel r T
    (mkLatticeAlg (mkOrderAlg D (mkPartialOrder l (default_less_than (equals D) l) (default_comparable l)))
       (mkLattice (fun x y => ret (m x y)) (fun x y => ret (j x y))))
    (mkLatticeAlg (mkOrderAlg D (mkPartialOrder l (default_less_than (equals D) l) (default_comparable l)))
       (mkLattice (fun x y => ret (m x y)) (fun x y => ret (j x y)))).
Proof.
move=> -> -> -> ->; have hl : rel2b r T (fun x y => ret (g x y)) (fun x y => ret (g x y)).
  by move=> x y _ _; exact: hsim_ret.
have he : rel2b r T (fun x y => ret (f x y)) (fun x y => ret (f x y)).
  by move=> x y _ _; exact: hsim_ret.
split; [split; split|split]; try by [exact: halt_less_than he hl|exact: halt_comparable hl|ends].
Qed.

(** ** The statements *)
Lemma halt_lattices :
  [/\ lattice_alg_rel r T ZZ_lattice ZZ_lattice, lattice_alg_rel r T NN_lattice NN_lattice,
      lattice_alg_rel r T CheckedInts_lattice CheckedInts_lattice,
      lattice_alg_rel r T CheckedUints_lattice CheckedUints_lattice &
      boolean_alg_rel r T BB_boolean BB_boolean].
Proof.
split; try exact: halt_lattice.
by split; [split; [split; split|split]|split|split]; ends.
Qed.
Section Statements.
Variable c : Cfg.
Lemma halt_news E (ty : E -> Prop) (A : EuclAlg E) m : eucl_alg_rel r ok ty A A -> ty m ->
  [/\ r T (quotient_ring_new A m) (quotient_ring_new A m),
      r T (quotient_field_new A m) (quotient_field_new A m) &
      r T (fractions_new A) (fractions_new A)].
Proof.
move=> h Qm; have hR : ring_alg_rel r ok ty A A := h.
have hO := ri_monoid_alg_rel hR; have hC : cmonoid_rel r ty A A := hR; split.
- apply: hsim_bind (contains_rel (mo_domain_rel hO) Qm) _ => b _.
  by apply: hsim_mono (hsim_assert _) _.
- apply: hsim_bind (contains_rel (mo_domain_rel hO) Qm) _ => b _.
  apply: hsim_bind (hsim_assert _) _ => _ _; apply: hsim_bind (one_rel hO) _ => o Qo.
  apply: hsim_bind (rem_rel h Qo Qo) _ => e Qe; apply: hsim_bind (is_zero_rel hC Qe) _ => z _.
  by apply: hsim_mono (hsim_assert _) _.
apply: hsim_bind (one_rel hO) _ => o Qo; apply: hsim_bind (is_zero_rel hC Qo) _ => z _.
by apply: hsim_mono (hsim_assert _) _.
Qed.
Lemma halt_eucl_stmt E (ty : E -> Prop) A : prof_eucl ty A ->
  [/\ eucl_alg_rel r ok ty (A c) (A c),
      lattice_alg_rel r ty (DivisibilityLattice (A c)) (DivisibilityLattice (A c)) &
      forall m, ty m ->
      [/\ r T (quotient_ring_new (A c) m) (quotient_ring_new (A c) m),
          r T (quotient_field_new (A c) m) (quotient_field_new (A c) m) &
          r T (fractions_new (A c)) (fractions_new (A c))]].
Proof.
move=> hA; have [h _] := halt_eucl_all c hA; split=> //; first exact: halt_divlattice h.
by move=> m; exact: halt_news.
Qed.
Lemma halt_idom_stmt E (ty : E -> Prop) A : prof_idom ty A ->
  idom_alg_rel r ok ty (A c) (A c) /\
  bounded_alg_rel r ty (DivisibilityOrder (A c)) (DivisibilityOrder (A c)).
Proof. by move=> /(halt_idom_all c) h; split=> //; exact: halt_divorder h. Qed.
Lemma halt_field_stmt E (ty : E -> Prop) A : prof_field ty A ->
  field_alg_rel r ok ty (A c) (A c) /\
  forall n v, in_vec ty v -> r ty (determinant (A c) n v) (determinant (A c) n v).
Proof.
move=> /(halt_field_all c)[h _]; split=> // n v Qv; exact: (halt_determinant n h).
Qed.
(** Any base whose own methods end. *)
Lemma halt_any_eucl E (Q : E -> Prop) (A : EuclAlg E) m : eucl_alg_rel r ok Q A A ->
  sane_constants A -> Q m ->
  [/\ ring_alg_rel r ok Q (QuotientRing c A m) (QuotientRing c A m),
      field_alg_rel r ok Q (QuotientField c A m) (QuotientField c A m),
      field_alg_rel r ok (in_pair Q) (ReducedFractions c A) (ReducedFractions c A),
      lattice_alg_rel r Q (DivisibilityLattice A) (DivisibilityLattice A) &
      sane_constants (QuotientField c A m) /\ sane_constants (ReducedFractions c A)].
Proof.
move=> h hs Qm; split; [exact: halt_quotient_ring h Qm|exact: halt_quotient_field h Qm hs|
  exact: halt_fractions h hs|exact: halt_divlattice h|].
by split; [exact: sane_quotient|exact: sane_fractions h hs].
Qed.
Lemma halt_any_field E (Q : E -> Prop) (A : FieldAlg E) n : field_alg_rel r ok Q A A ->
  sane_constants A ->
  [/\ eucl_alg_rel r ok (in_vec Q) (PolyEucl A) (PolyEucl A) /\ sane_constants (PolyEucl A),
      ring_alg_rel r ok (in_vec Q) (MatrixRing c A n) (MatrixRing c A n) &
      forall v, in_vec Q v -> r Q (determinant A n v) (determinant A n v)].
Proof.
move=> h hs; split; first by split; [exact: halt_poly_eucl h|exact: sane_poly h hs].
  apply: (halt_matrix_ring (n := n) h) => // v Qv.
  by apply: halt_debug; exact: (halt_matrix_is_one n h I Qv).
by move=> v Qv; exact: (halt_determinant n h).
Qed.
Lemma halt_any_ring E (Q : E -> Prop) (A : RingAlg E) n : ring_alg_rel r ok Q A A ->
  [/\ ring_alg_rel r ok (in_vec Q) (PolyRing A) (PolyRing A),
      ring_alg_rel r ok (in_vec Q) (VectorRing c n A) (VectorRing c n A),
      group_alg_rel r ok Q (AdditiveGroup c A) (AdditiveGroup c A) &
      group_alg_rel r ok Q (MultiplicativeGroup c A) (MultiplicativeGroup c A)].
Proof.
move=> h; split; [exact: halt_poly_ring h|exact: halt_vector_ring h| |].
  by have [[hD _ _] hC hG _] := h; exact: halt_additive hD hC (neg_rel hG).
exact: halt_multiplicative (ri_monoid_alg_rel h).
Qed.
Lemma halt_any_idom E (Q : E -> Prop) (A : IDomAlg E) : idom_alg_rel r ok Q A A ->
  idom_alg_rel r ok (in_vec Q) (PolyIDom A) (PolyIDom A) /\
  bounded_alg_rel r Q (DivisibilityOrder A) (DivisibilityOrder A).
Proof. by move=> h; split; [exact: halt_poly_idom h|exact: halt_divorder h]. Qed.
Lemma halt_any_lattice E (Q : E -> Prop) (A : LatticeAlg E) n : lattice_alg_rel r Q A A ->
  lattice_alg_rel r (in_vec Q) (VectorLattice n A) (VectorLattice n A).
Proof. exact: halt_vector_lattice. Qed.
Lemma halt_any_boolean E (Q : E -> Prop) (A : BooleanAlg E) n : boolean_alg_rel r Q A A ->
  boolean_alg_rel r (in_vec Q) (VectorBoolean n A) (VectorBoolean n A).
Proof. exact: halt_vector_boolean. Qed.
End Statements.

(** ** Constants that are not sane

    A base that claims that nothing is zero: division is defined and returns, but the
    algorithm of Euclid never finds a remainder that is zero. *)
Definition nothing_zero : RingAlg bool :=
  mkRingAlg two_ring
    (mkCommMonoid (ret false) (fun _ => ret false) (add two_cmonoid) (add_assign two_cmonoid)
       (double two_cmonoid) (ntimes two_cmonoid)) two_abelian two_unitary.
Definition nothing_zero_field : FieldAlg bool :=
  field_alg nothing_zero (mkField (fun x => ret x) (fun x _ => ret x) (fun _ x => ret x)).
Lemma nothing_zero_ends : ring_alg_rel r ok T nothing_zero nothing_zero /\
  field_rel r ok T nothing_zero_field nothing_zero_field.
Proof.
have [hM hC hA hU] := halt_two_ring; split; last by split; ends.
split=> //; split; try by ends.
exact: ntimes_rel hC.
Qed.
Lemma nothing_zero_diverges : diverges (extended_gcd nothing_zero_field true true).
Proof.
move=> k; rewrite /= /default_extended_gcd.
suff h f : forall x y, extended_gcd_fuel f (is_zero nothing_zero) (one nothing_zero)
    (zero nothing_zero) (mul nothing_zero) (sub nothing_zero)
    (quo_rem nothing_zero_field) x y k = Unfinished by exact: h.
by elim: f => // f IH x y; rewrite /= /bind /= IH.
Qed.
Lemma nothing_zero_all : ring_alg_rel r ok T nothing_zero nothing_zero /\
  field_rel r ok T nothing_zero_field nothing_zero_field /\
  diverges (extended_gcd nothing_zero_field true true).
Proof. by have [h1 h2] := nothing_zero_ends; split=> //; split=> //; exact: nothing_zero_diverges. Qed.
