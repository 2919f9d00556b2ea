(** * PDiv.v -- DivisibilityOrder is a bounded distributive lattice. *)

From Coq Require Import ZArith Lia.
From mathcomp Require Import all_ssreflect all_algebra zify.
From Verif Require Import Rust Traits MInts MConstr RingTac Wp Spec PDefaults PEucl.
From Verif Require Import POrders.

Set Implicit Arguments.
Unset Strict Implicit.
Unset Printing Implicit Defensive.

Import GRing.Theory.
Local Open Scope ring_scope.

(** The members are the canonical representatives of the associate classes. *)
Definition div_rep (E : Type) (R : idomainType) (AS : assoc_struct R)
    (rep : E -> R -> Prop) (x : E) (v : R) : Prop := rep x v /\ arep AS v = v.

Section Divisibility.
Variables (cfg : Cfg) (p : Prop) (E : Type) (R : idomainType) (rep : E -> R -> Prop).
Variables (AS : assoc_struct R) (le : rel R).
Hypothesis leP : forall a b : R, le a b <-> dvds a b.
Local Notation drep := (div_rep AS rep).

Lemma div_laws : order_laws drep le.
Proof.
split.
- by move=> u; apply/leP; exact: dvds_refl.
- by move=> u v w /leP h1 /leP h2; apply/leP; exact: dvds_trans h1 h2.
- by move=> x u y v [_ hu] [_ hv] /leP h1 /leP h2; exact: arep_anti hu hv h1 h2.
Qed.

Section IDom.
Variable (A : IDomAlg E).
Hypothesis hA : idom_alg_spec cfg p rep AS A.
Let hR := id_ring_ok hA.
Let hD := mo_dom_ok (ri_mon_ok hR).
Let hM := mo_mo_ok (ri_mon_ok hR).
Let hC := ri_cm_ok hR.
Let hi := id_id_ok hA.

(** [contains] on members of the base. *)
Lemma divorder_contains_ok x v : rep x v ->
  answers p (contains (divorder_domain A) x) (arep AS v == v).
Proof.
move=> xv /=; apply: ensures_bind (is_zero_ok hC xv) _ => r ->.
case: eqVneq => [->|v0]; first by apply: ensures_ret; rewrite arep0 eqxx.
apply: ensures_bind (associate_coef_ok hi xv v0) _ => c cE.
by apply: ensures_mono (is_one_ok hM cE) _ => r' ->; rewrite arep_canonP.
Qed.

Lemma div_domain : domain_spec p drep (divorder_domain A).
Proof.
split=> /=.
- by move=> x u v [xu _] [xv _]; exact: (dom_fun hD xu xv).
- by move=> x v [xv hv]; apply: ensures_mono (divorder_contains_ok xv) _ => r ->; rewrite hv eqxx.
- by move=> x u y v [xu _] [yv _]; exact: (equals_ok hD xu yv).
Qed.

Lemma div_leq x u y v : drep x u -> drep y v -> answers p (divorder_leq A x y) (le u v).
Proof.
move=> [xu _] [yv _]; apply: ensures_mono (divisible_ok hi yv xu) _ => r h.
by apply/idP/idP => [/h/leP|/leP/h].
Qed.

Lemma div_order : order_spec p drep le (divorder_order A).
Proof. by apply: order_default; [exact: equals_ok div_domain|exact: div_leq]. Qed.

Lemma div_bounded : bounded_spec p drep le 0 1 (divorder_bounded A).
Proof.
split=> /=.
- by apply: ensures_mono (zero_ok hC) _ => z zE; split=> //; exact: arep0.
- by apply: ensures_mono (one_ok hM) _ => z zE; split=> //; exact: arep1.
- by move=> x u _; apply/leP; exact: dvds0.
- by move=> x u _; apply/leP; exact: dvd1s.
Qed.

Lemma DivisibilityOrder_ok : bounded_alg_spec p drep le 0 1 (DivisibilityOrder A).
Proof.
split; last exact: div_bounded.
by split; [exact: div_domain|exact: div_order|exact: div_laws].
Qed.
End IDom.

Section Eucl.
Variables (S : eucl_struct R) (A : EuclAlg E).
Hypothesis hA : eucl_alg_spec cfg p rep AS S A.
Let hi := id_id_ok (eu_idom_ok hA).
Let hE := eu_eu_ok hA.

Lemma DivisibilityLattice_ok : lattice_alg_spec p drep le (DivisibilityLattice A).
Proof.
split=> /=.
  split; [exact: div_domain (eu_idom_ok hA)|exact: div_order (eu_idom_ok hA)|].
  exact: div_laws.
split=> /=.
- move=> x u y v [xu _] [yv _].
  apply: ensures_bind (gcd_ok hE xu yv) _ => g [d gd [h1 h2 h3]].
  apply: ensures_mono (associate_repr_ok hi gd) _ => z zE.
  exists (arep AS d); first by split=> //; exact: arep_idem.
  split=> [||w /leP wu /leP wv]; apply/leP.
  + by apply: dvds_trans h1; exact: dvd_arep.
  + by apply: dvds_trans h2; exact: dvd_arep.
  + by apply: dvds_trans (arep_dvd AS d); exact: h3.
- move=> x u y v [xu _] [yv _].
  apply: ensures_bind (lcm_ok hE xu yv) _ => g [d gd [h1 h2 h3]].
  apply: ensures_mono (associate_repr_ok hi gd) _ => z zE.
  exists (arep AS d); first by split=> //; exact: arep_idem.
  split=> [||w /leP wu /leP wv]; apply/leP.
  + by apply: dvds_trans h1 _; exact: arep_dvd.
  + by apply: dvds_trans h2 _; exact: arep_dvd.
  + by apply: dvds_trans (dvd_arep AS d) _; exact: h3.
Qed.
End Eucl.
End Divisibility.

(** Divisibility is decided by the remainder. *)
Definition edvd (R : idomainType) (S : eucl_struct R) (a b : R) : bool :=
  if a == 0 then b == 0 else erem S b a == 0.
Lemma edvdP (R : idomainType) (S : eucl_struct R) (a b : R) :
  edvd S a b <-> dvds a b.
Proof.
rewrite /edvd; case: eqVneq => [->|a0]; last exact: erem_eq0.
by split=> [/eqP -> |/dvd0s ->//]; exact: dvds0.
Qed.

(** The divisibility lattice of a Euclidean domain is distributive. *)
Section Distributive.
Variables (R : idomainType) (S : eucl_struct R).
Implicit Types a b c d g h l m : R.

Lemma gcd_distr a b c l d g1 g2 m :
  is_lcm b c l -> is_gcd a l d -> is_gcd a b g1 -> is_gcd a c g2 -> is_lcm g1 g2 m ->
  dvds d m.
Proof.
move=> lE dE gE1 gE2 mE.
have [h [_ [_ [_ hE]]]] := bezout S g1 g2.
have [h0|h0] := eqVneq h 0.
  move: hE; rewrite h0 => -[/dvd0s h1 /dvd0s h2 _].
  by move: mE; rewrite h1 => -[/dvd0s -> _ _]; exact: dvds0.
have [e [_ [_ [_ eE]]]] := bezout S b c.
have [s [t g1E]] := gcd_bezout S gE1; have [s' [t' g2E]] := gcd_bezout S gE2.
have [hg1 hg2 _] := hE; have [g1a g1b _] := gE1; have [g2a g2c _] := gE2.
have [ha hb hc] : [/\ dvds h a, dvds h b & dvds h c].
  by split; [exact: dvds_trans g1a|exact: dvds_trans g1b|exact: dvds_trans g2c].
have [da dl _] := dE; have [_ _ lmin] := lE; have [m1 m2 mmin] := mE.
have he : dvds h e by case: eE => _ _; apply.
have e0 : e != 0 \/ e = 0 by case: (eqVneq e 0); [right|left].
(* b c = l e up to a unit, and g1 g2 = m h *)
have [x bcE] : dvds (l * e) (b * c).
  case: e0 => [e0|e0]; last first.
    by move: eE; rewrite e0 => -[/dvd0s -> /dvd0s -> _]; rewrite !mulr0; exact: dvds0.
  have [hl1 hl2 hl3] := lcm_of_gcd S e0 eE; have [eb ec _] := eE.
  have [y yE] := lmin _ hl1 hl2.
  by exists y; rewrite mulrA -yE [equo _ _ _ * c]mulrC -mulrA -equo_dvd // mulrC.
have [y gmE] : dvds (g1 * g2) (m * h).
  have [al [be ->]] := gcd_bezout S hE; have [x1 mE1] := m1; have [x2 mE2] := m2.
  by exists (al * x2 + be * x1); rewrite mulrDr {1}mE2 {1}mE1; cring.
have [z zE] : dvds (d * h) (m * h).
  rewrite gmE; apply: dvds_mull.
  have [a1 aE1] := da; have [l1 lE1] := dl; have [e1 eE1] := he.
  have [a2 aE2] := ha; have [b2 bE2] := hb; have [c2 cE2] := hc.
  exists (a1 * (s * s' * a2 + s * t' * c2 + s' * t * b2) + t * t' * x * l1 * e1).
  transitivity (a * (s * s' * a + s * t' * c + s' * t * b) + t * t' * (b * c)).
    by rewrite g1E g2E; cring.
  rewrite bcE {1}aE1 lE1 eE1 [X in s * s' * X]aE2 cE2 bE2; cring.
by exists z; apply: (mulIf h0); rewrite zE mulrA.
Qed.
End Distributive.
