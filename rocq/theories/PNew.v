(** * PNew.v -- constructors keep their arguments. *)

From Coq Require Import ZArith Lia.
From mathcomp Require Import all_ssreflect zify ssrZ.
From Verif Require Import Rust Traits MInts MConstr MIndex MNew ProfSpec Wp.

Set Implicit Arguments.
Unset Strict Implicit.
Unset Printing Implicit Defensive.

Lemma asserted A (m : M bool) (x s : A) :
  returns (let! b := m in do! assert b in ret x) s <-> returns m true /\ s = x.
Proof.
split=> [[k h]|[[k h] ->]].
  have e n : k <= n -> m n = Done true /\ s = x.
    by move=> /h; rewrite /bind; case: (m n) => // -[] //= [->].
  by split; [exists k => n /e[]|case: (e k (leqnn k))].
by exists k => n /h; rewrite /bind => ->.
Qed.
Lemma asserted_tt (m : M bool) : returns (let! b := m in assert b) tt <-> returns m true.
Proof.
split=> [[k h]|[k h]]; exists k => n /h; rewrite /bind; first by case: (m n) => // -[].
by move=> ->.
Qed.
Lemma denied A (m : M bool) (x : A) :
  returns m false \/ panics m -> panics (let! b := m in do! assert b in ret x).
Proof.
case=> h; last exact: panics_bind.
by apply: panics_bind2 h _; apply: panics_bind; exact: panics_assert.
Qed.

Lemma new_vector A (base : A) len : exists2 s, returns (va_new base len) s &
  va_base s = base /\ va_len s = len.
Proof. by eexists; first exact: returns_ret. Qed.

Lemma new_matrix cfg A (base : A) n : (0 <= ptr_bits cfg)%Z ->
  if (Z.of_nat n * Z.of_nat n <? 2 ^ ptr_bits cfg)%Z then
    exists2 s, returns (mr_new cfg base n) s &
      [/\ mr_base s = base, mr_size s = n, returns (mr_len cfg s) (n * n) & va_len (mr_valg s) = (n * n)%nat]
  else panics (mr_new cfg base n).
Proof.
move=> w0; have e : is_usize cfg (Z.of_nat n * Z.of_nat n) = (Z.of_nat n * Z.of_nat n <? 2 ^ ptr_bits cfg)%Z.
  by rewrite /is_usize /in_u /umax; lia.
rewrite /mr_new /= e; case h: (_ <? _)%Z; last by exists 0%nat.
have ez : Z.to_nat (Z.of_nat n * Z.of_nat n) = (n * n)%nat by lia.
exists (mkMatrixRing (mkVectorAlgebra base (n * n)) n); first by rewrite ez; exact: returns_ret.
by split=> //; rewrite /mr_len /umul /prim_usize e h ez; exact: returns_ret.
Qed.
Lemma new_matrix_check cfg A (base : A) n :
  returns (matrix_new cfg n) tt <-> exists s, returns (mr_new cfg base n) s.
Proof.
rewrite /matrix_new /mr_new /=; case: (is_usize _ _) => /=.
  by split=> _; [eexists; exact: returns_ret|exact: returns_ret].
split=> [[k /(_ k (leqnn k))]|[s [k /(_ k (leqnn k))]]] //.
Qed.

Lemma new_polynomials A (base : A) : exists2 s, returns (pa_new base) s & pa_base s = base.
Proof. by eexists; first exact: returns_ret. Qed.

Lemma new_quotient_ring E (A : EuclAlg E) m :
  (forall s, returns (qr_new A m) s <-> [/\ returns (contains A m) true, qr_base s = A & qr_modulo s = m]) /\
  (returns (contains A m) false \/ panics (contains A m) -> panics (qr_new A m)) /\
  (returns (quotient_ring_new A m) tt <-> exists s, returns (qr_new A m) s).
Proof.
have h s : returns (qr_new A m) s <-> returns (contains A m) true /\ s = mkQuotientRing A m := asserted _ _ _.
split; [|split].
- move=> s; rewrite h; split=> [[? ->]//|[? e1 e2]]; split=> //; rewrite -e1 -e2; by case: s {h e1 e2}.
- exact: denied.
by rewrite /quotient_ring_new asserted_tt; split=> [hc|[s /h[]//]]; exists (mkQuotientRing A m); apply/h.
Qed.

Definition unit_check E (A : EuclAlg E) : M bool :=
  let! o := one A in let! r := rem A o o in is_zero A r.
Lemma new_quotient_field E (A : EuclAlg E) m :
  (forall s, returns (qf_new A m) s <->
    [/\ returns (contains A m) true, returns (let! o := one A in let! r := rem A o o in is_zero A r) true,
        qf_base s = A & qf_modulo s = m]) /\
  (returns (contains A m) false \/ panics (contains A m) -> panics (qf_new A m)) /\
  (returns (quotient_field_new A m) tt <-> exists s, returns (qf_new A m) s).
Proof.
have h s : returns (qf_new A m) s <->
  [/\ returns (contains A m) true, returns (unit_check A) true & s = mkQuotientField A m].
  split=> [[k e]|[[k e] [k' e'] ->]].
    have e1 n : k <= n -> [/\ contains A m n = Done true, unit_check A n = Done true & s = mkQuotientField A m].
      move=> /e; rewrite /qf_new /unit_check /bind; case: (contains A m n) => // -[] //=.
      case: (one A n) => // o; case: (rem A o o n) => // r.
      by case: (is_zero A r n) => // -[] //= [->].
    by split; [exists k => n /e1[]|exists k => n /e1[]|case: (e1 k (leqnn k))].
  exists (maxn k k') => n; rewrite geq_max => /andP[/e h1 /e'].
  rewrite /qf_new /unit_check /bind h1 /=; case: (one A n) => // o; case: (rem A o o n) => // r.
  by case: (is_zero A r n) => // -[].
split; [|split].
- move=> s; rewrite h; split=> [[? ? ->]//|[? ? e1 e2]]; split=> //; rewrite -e1 -e2; by case: s {h e1 e2}.
- case=> hc; last exact: panics_bind.
  by apply: panics_bind2 hc _; apply: panics_bind; exact: panics_assert.
split=> [[k e]|[s [k e]]].
  exists (mkQuotientField A m); exists k => n /e; rewrite /quotient_field_new /qf_new /bind.
  case: (contains A m n) => // -[] //=; case: (one A n) => // o; case: (rem A o o n) => // r.
  by case: (is_zero A r n) => // -[].
exists k => n /e; rewrite /quotient_field_new /qf_new /bind.
case: (contains A m n) => // -[] //=; case: (one A n) => // o; case: (rem A o o n) => // r.
by case: (is_zero A r n) => // -[].
Qed.

Lemma new_fractions E (A : EuclAlg E) :
  (forall s, returns (rf_new A) s <->
    returns (let! o := one A in is_zero A o) false /\ rf_base s = A) /\
  (returns (let! o := one A in is_zero A o) true -> panics (rf_new A)) /\
  (returns (fractions_new A) tt <-> exists s, returns (rf_new A) s).
Proof.
have h s : returns (rf_new A) s <-> returns (let! o := one A in is_zero A o) false /\ s = mkReducedFractions A.
  split=> [[k e]|[[k e] ->]].
    have e1 n : k <= n -> (let! o := one A in is_zero A o) n = Done false /\ s = mkReducedFractions A.
      move=> /e; rewrite /rf_new /bind; case: (one A n) => // o.
      by case: (is_zero A o n) => // -[] //= [->].
    by split; [exists k => n /e1[]|case: (e1 k (leqnn k))].
  exists k => n /e; rewrite /rf_new /bind; case: (one A n) => // o.
  by case: (is_zero A o n) => // -[].
split; [|split].
- move=> s; rewrite h; split=> [[? ->]//|[? e]]; split=> //; rewrite -e; by case: s {h e}.
- case=> k e; exists k => n /e; rewrite /rf_new /bind; case: (one A n) => // o.
  by case: (is_zero A o n) => // -[].
split=> [[k e]|[s [k e]]].
  exists (mkReducedFractions A); exists k => n /e; rewrite /fractions_new /rf_new /bind.
  by case: (one A n) => // o; case: (is_zero A o n) => // -[].
exists k => n /e; rewrite /fractions_new /rf_new /bind.
by case: (one A n) => // o; case: (is_zero A o n) => // -[].
Qed.

Lemma new_wrappers A E (base : A) (G : AbelianAlg E) (O : MonoidAlg E) n :
  [/\ exists2 s, returns (do_new base) s & do_base s = base,
      exists2 s, returns (ag_new G) s & ag_base s = G,
      exists2 s, returns (mg_new O) s & mg_base s = O &
      exists2 s, returns (pm_new n) s & pm_size s = n].
Proof. by split; eexists; by [exact: returns_ret|]. Qed.

Lemma new_methods cfg E :
  (forall (A : RingAlg E) n s, returns (va_new A n) s -> va_methods cfg s = VectorRing cfg n A) /\
  (forall (A : FieldAlg E) n s, returns (mr_new cfg A n) s -> mr_methods cfg s = MatrixRing cfg A n) /\
  (forall (A : RingAlg E) s, returns (pa_new A) s -> pa_methods s = PolyRing A) /\
  (forall (A : IDomAlg E) s, returns (pa_new A) s -> pa_domain_methods s = PolyIDom A) /\
  (forall (A : FieldAlg E) s, returns (pa_new A) s -> pa_euclidean_methods s = PolyEucl A) /\
  (forall (A : EuclAlg E) m s, returns (qr_new A m) s -> qr_methods cfg s = QuotientRing cfg A m) /\
  (forall (A : EuclAlg E) m s, returns (qf_new A m) s -> qf_methods cfg s = QuotientField cfg A m) /\
  (forall (A : EuclAlg E) s, returns (rf_new A) s -> rf_methods cfg s = ReducedFractions cfg A) /\
  (forall (A : EuclAlg E) s, returns (do_new A) s -> do_methods s = DivisibilityLattice A) /\
  (forall (A : AbelianAlg E) s, returns (ag_new A) s -> ag_methods cfg s = AdditiveGroup cfg A) /\
  (forall (A : MonoidAlg E) s, returns (mg_new A) s -> mg_methods cfg s = MultiplicativeGroup cfg A) /\
  (forall n s, returns (pm_new n) s -> pm_methods cfg s = Permutations cfg n).
Proof.
do ![split].
- by move=> A n s h; have <- := returns_det (returns_ret _) h.
- move=> A n s [k /(_ k (leqnn k))]; rewrite /mr_new /=; case: (is_usize _ _) => //=.
  by rewrite /bind /= => -[<-].
- by move=> A s h; have <- := returns_det (returns_ret _) h.
- by move=> A s h; have <- := returns_det (returns_ret _) h.
- by move=> A s h; have <- := returns_det (returns_ret _) h.
- by move=> A m s /(proj1 (new_quotient_ring A m))[_ e1 e2]; rewrite /qr_methods e1 e2.
- by move=> A m s /(proj1 (new_quotient_field A m))[_ _ e1 e2]; rewrite /qf_methods e1 e2.
- by move=> A s /(proj1 (new_fractions A))[_ e]; rewrite /rf_methods e.
- by move=> A s h; have <- := returns_det (returns_ret _) h.
- by move=> A s h; have <- := returns_det (returns_ret _) h.
- by move=> A s h; have <- := returns_det (returns_ret _) h.
- by move=> n s h; have <- := returns_det (returns_ret _) h.
Qed.

(** ** One is not zero in any structure of the crate, not even in the residues modulo one *)
Definition nonzero_one E (A : RingAlg E) : Prop := exists o z,
  [/\ returns (one A) o, returns (zero A) z, returns (is_zero A o) false & returns (equals A o z) false].
Section NonzeroOne.
Variable c : Cfg.
Lemma nonzero_quotient E (A : EuclAlg E) m : nonzero_one A -> nonzero_one (QuotientField c A m).
Proof.
case=> o [z [h1 h2 _ h4]]; exists o, z; split=> //.
by apply: (returns_bind h2).
Qed.
Lemma nonzero_fractions E (A : EuclAlg E) : nonzero_one A -> nonzero_one (ReducedFractions c A).
Proof.
case=> o [z [h1 h2 h3 h4]].
have ho : returns (fractions_one A) (o, o) by apply: (returns_bind h1); apply: (returns_bind h1); exact: returns_ret.
have hz : returns (fractions_zero A) (z, o) by apply: (returns_bind h2); apply: (returns_bind h1); exact: returns_ret.
have he : returns (fractions_equals A (o, o) (z, o)) false by apply: (returns_bind h4); exact: returns_ret.
by exists (o, o), (z, o); split=> //; apply: returns_bind hz _.
Qed.
Lemma nonzero_poly E (A : FieldAlg E) : nonzero_one A -> nonzero_one (PolyEucl A).
Proof.
case=> o [z [h1 h2 h3 h4]]; exists [:: o], [::]; split; try exact: returns_ret.
by apply: (returns_bind h1); apply: (returns_bind h3); apply: returns_bind (returns_ret tt) _;
  apply: (returns_bind h1); exact: returns_ret.
Qed.
Fixpoint nonzero_eucl E (ty : E -> Prop) A (h : prof_eucl ty A) {struct h} : nonzero_one (A c)
with nonzero_field E (ty : E -> Prop) A (h : prof_field ty A) {struct h} : nonzero_one (A c).
Proof.
- case: E ty A / h => [|w w2|E ty A hA|E ty A hA].
  + by exists 1%Z, 0%Z; split; exact: returns_ret.
  + by exists 1%Z, 0%Z; split; exact: returns_ret.
  + exact: nonzero_field hA.
  + exact: nonzero_poly (nonzero_field _ _ _ hA).
- case: E ty A / h => [|E ty A m hA hm|E ty A hA].
  + by exists true, false; split; exact: returns_ret.
  + exact: nonzero_quotient (nonzero_eucl _ _ _ hA).
  + exact: nonzero_fractions (nonzero_eucl _ _ _ hA).
Qed.
Lemma fractions_always E (ty : E -> Prop) A : prof_eucl ty A -> exists s, returns (rf_new (A c)) s.
Proof.
move=> /nonzero_eucl[o [z [h1 _ h3 _]]]; eexists.
by apply: (returns_bind h1); apply: (returns_bind h3); apply: returns_bind (returns_ret tt) _; exact: returns_ret.
Qed.
End NonzeroOne.
