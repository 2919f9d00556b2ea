(** * PPanic.v -- the documented panics. *)

From Coq Require Import ZArith Lia.
From mathcomp Require Import all_ssreflect all_algebra zify ssrZ.
From Verif Require Import Rust Traits MInts MConstr Spec PropSpec Wp PanicSpec RingSpec FracSpec Quotient.
From Verif Require Import PDefaults PEucl PInts POrders PPoly PNum NumSpec PQuotProps PFracProps PQuot.

Set Implicit Arguments.
Unset Strict Implicit.
Unset Printing Implicit Defensive.

Import GRing.Theory.
Local Open Scope ring_scope.

Section Contracts.
Variables (cfg : Cfg) (p : Prop) (E : Type).

Lemma ensures_runs T (m : M T) Q : ensures p m Q -> runs p m.
Proof. by move=> h; apply: ensures_mono h _. Qed.

Section IDom.
Variables (R : idomainType) (rep : E -> R -> Prop) (AS : assoc_struct R).
Local Notation mem := (fun x => exists a, rep x a).

Lemma panics_ifP (A : IDomAlg E) y b T (m : M T) Q : idom_alg_spec cfg p rep AS A ->
  rep y b -> (b = 0 -> panics m) -> (b != 0 -> ensures p m Q) -> panics_if p (is_zero A y) m.
Proof.
move=> hA yb h0 h1; have hz := is_zero_ok (ri_cm_ok (id_ring_ok hA)) yb; split.
- exact: ensures_runs hz.
- by move=> hr; apply: h0; apply/eqP; rewrite -(ensures_value hz hr).
- by move=> hr; apply: (@ensures_runs _ _ Q); apply: h1; rewrite -(ensures_value hz hr).
Qed.

Lemma idom_panics_ok (A : IDomAlg E) : idom_alg_spec cfg p rep AS A -> idom_panics p mem A.
Proof.
move=> hA; have hI := id_id_ok hA; have hM := mo_mo_ok (ri_mon_ok (id_ring_ok hA)); split.
- move=> x y [a xa] [b yb]; apply: (panics_ifP hA yb) (try_div_ok hI xa yb) => b0.
  by rewrite b0 in yb; exact: (try_div_zero hI xa yb).
- move=> x [a xa]; apply: (panics_ifP hA xa) (associate_coef_ok hI xa) => a0.
  by rewrite a0 in xa; exact: (associate_coef_zero hI xa).
- by move=> x y [a xa] [b yb]; exact: ensures_runs (divisible_ok hI xa yb).
- by move=> x y [a xa] [b yb]; exact: ensures_runs (associates_ok hI xa yb).
- by move=> x [a xa]; exact: ensures_runs (associate_repr_ok hI xa).
- by move=> x [a xa]; exact: ensures_runs (try_inv_ok hM xa).
- by move=> x [a xa]; exact: ensures_runs (invertible_ok hM xa).
Qed.
Lemma eucl_panics_ok (S : eucl_struct R) (A : EuclAlg E) : eucl_alg_spec cfg p rep AS S A ->
  eucl_panics p mem A.
Proof.
move=> hE; have hA := eu_idom_ok hE; have hU := eu_eu_ok hE; split.
- exact: idom_panics_ok.
- move=> x y [a xa] [b yb]; apply: (panics_ifP hA yb) (quo_rem_ok hU xa yb) => b0.
  by rewrite b0 in yb; exact: (quo_rem_zero hU xa yb).
- move=> x y [a xa] [b yb]; apply: (panics_ifP hA yb) (quo_ok hU xa yb) => b0.
  by rewrite b0 in yb; exact: (quo_zero hU xa yb).
- move=> x y [a xa] [b yb]; apply: (panics_ifP hA yb) (rem_ok hU xa yb) => b0.
  by rewrite b0 in yb; exact: (rem_zero hU xa yb).
- by move=> x y [a xa] [b yb]; exact: ensures_runs (reduced_ok hU xa yb).
- by move=> x y [a xa] [b yb]; exact: ensures_runs (gcd_ok hU xa yb).
- by move=> x y [a xa] [b yb]; exact: ensures_runs (lcm_ok hU xa yb).
- by move=> x y [a xa] [b yb]; exact: ensures_runs (extended_gcd_ok hU xa yb).
- by move=> x y [a xa] [b yb]; exact: ensures_runs (relative_primes_ok hU xa yb).
Qed.
End IDom.

Lemma field_panics_ok (F : fieldType) (rep : E -> F -> Prop) (A : FieldAlg E) :
  field_alg_spec cfg p rep A -> field_panics p (fun x => exists a, rep x a) A.
Proof.
move=> hF; have hE := fi_eucl_ok hF; have hf := fi_fi_ok hF; split.
- exact: eucl_panics_ok hE.
- move=> x [a xa]; apply: (panics_ifP (eu_idom_ok hE) xa) (finv_ok hf xa) => a0.
  by rewrite a0 in xa; exact: (finv_zero hf xa).
- move=> x y [a xa] [b yb]; apply: (panics_ifP (eu_idom_ok hE) yb) (fdiv_ok hf xa yb) => b0.
  by rewrite b0 in yb; exact: (fdiv_zero hf xa yb).
Qed.
End Contracts.

Lemma field_panics_sub p E (mem mem' : E -> Prop) A : (forall x, mem' x -> mem x) ->
  field_panics p mem A -> field_panics p mem' A.
Proof.
move=> h [[[h1 h2 h3 h4 h5 h6 h7] h8 h9 h10 h11 h12 h13 h14 h15] h16 h17].
by split; [split; [split|..]|..]; auto.
Qed.

(** ** The structures *)
Lemma zz_panics : eucl_panics False (fun _ => True) ZZ.
Proof.
have h := eucl_panics_ok (ZZ_ok (mkCfg true true (Zpos (xO xH))) False).
have e (P : Z -> Prop) : (forall x, (exists a, zz_rep x a) -> P x) -> forall x, True -> P x.
  by move=> hP x _; apply: hP; exists x.
case: h => [[h1 h2 h3 h4 h5 h6 h7] h8 h9 h10 h11 h12 h13 h14 h15].
by split; [split|..]; move=> x *; (apply: h1 || apply: h2 || apply: h3 || apply: h4 ||
  apply: h5 || apply: h6 || apply: h7 || apply: h8 || apply: h9 || apply: h10 || apply: h11 ||
  apply: h12 || apply: h13 || apply: h14 || apply: h15); eexists; exact: erefl.
Qed.

Section Structures.
Variables (cfg : Cfg) (p : Prop) (E : Type) (R : idomainType) (rep : E -> R -> Prop).
Variables (AS : assoc_struct R) (S : eucl_struct R).

Lemma poly_idom_panics (A : IDomAlg E) : idom_alg_spec cfg p rep AS A ->
  idom_panics p (fun x => exists P, poly_of rep x P) (PolyIDom A).
Proof. by move=> hA; exact: idom_panics_ok (PolyIDom_ok hA). Qed.

Lemma poly_eucl_panics (F : fieldType) (rep' : E -> F -> Prop) (A : FieldAlg E) :
  field_alg_spec cfg p rep' A -> eucl_panics p (fun x => exists P, poly_of rep' x P) (PolyEucl A).
Proof. by move=> hA; exact: eucl_panics_ok (PolyEucl_ok hA). Qed.

Lemma fractions_panics (A : EuclAlg E) : eucl_alg_spec cfg p rep AS S A ->
  field_panics p (fun x => exists a b, fraction_of AS rep x a b) (ReducedFractions cfg A).
Proof.
move=> hA; apply: field_panics_sub (field_panics_ok (reduced_fractions_contract hA)).
by move=> x [a [b /(fof_rep [rmorphism of @FracField.tofrac R])[_ h]]]; eexists; exact: h.
Qed.

Lemma quotient_panics (A : EuclAlg E) : eucl_alg_spec cfg p rep AS S A ->
  forall (m : R) (modulo : E), irreducible_elt m -> rep modulo m ->
  field_panics p (fun x => exists a, residue_of S m rep x a) (QuotientField cfg A modulo).
Proof.
move=> hA m modulo hirr hm.
have m0 : m != 0 by case: hirr.
have mu : m \isn't a GRing.unit by case: hirr.
pose md := @IrrModulus R (Modulus m0 mu) hirr.
have hQ := @QuotientField_ok cfg p E R rep AS S A hA md modulo hm.
apply: field_panics_sub (field_panics_ok hQ) => x [a /(@res_quot E R rep S md)[u xu _]].
by exists u.
Qed.

(** ** The constructors *)
Lemma quotient_ring_new_ok (A : EuclAlg E) modulo : eucl_alg_spec cfg p rep AS S A ->
  (forall m, rep modulo m -> runs p (quotient_ring_new A modulo) /\
     runs p (quotient_field_new A modulo)) /\
  runs p (fractions_new A).
Proof.
move=> hA; have hR := id_ring_ok (eu_idom_ok hA); have hM := ri_mon_ok hR; split.
  move=> m hm; have hc := contains_ok (mo_dom_ok hM) hm; split.
    by apply: ensures_bind hc _ => b ->; exact: ensures_ret.
  apply: ensures_bind hc _ => b ->; rewrite bind_ret.
  apply: ensures_bind (one_ok (mo_mo_ok hM)) _ => o o1.
  apply: ensures_bind (rem_ok (eu_eu_ok hA) o1 o1 (oner_neq0 _)) _ => r rE.
  apply: ensures_bind (is_zero_ok (ri_cm_ok hR) rE) _ => z ->.
  have -> : erem S 1 1 == 0 :> R.
    have := e_canon S 0 1 (oner_neq0 R); rewrite add0r mul1r => ->.
    by rewrite e_rem0 // oner_neq0.
  exact: ensures_ret.
apply: ensures_bind (one_ok (mo_mo_ok hM)) _ => o o1.
apply: ensures_bind (is_zero_ok (ri_cm_ok hR) o1) _ => b ->; rewrite oner_eq0.
exact: ensures_ret.
Qed.
End Structures.

Lemma new_panics E (A : EuclAlg E) modulo :
  (returns (contains A modulo) false ->
    panics (quotient_ring_new A modulo) /\ panics (quotient_field_new A modulo)) /\
  (returns (let! o := one A in is_zero A o) true -> panics (fractions_new A)).
Proof.
split=> [h|[n h]].
  by split; apply: panics_bind2 h _; exists 0%N.
exists n => k nk; have := h k nk; rewrite /fractions_new /bind; case: (one A k) => // o.
by case: (is_zero A o k) => // b [->].
Qed.
