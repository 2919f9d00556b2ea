(** * PCasesT.v -- towers of constructions, for the examples beside the theorems. *)

From mathcomp Require Import all_ssreflect all_algebra fraction zify ssrZ.
From Coq Require Import ZArith Znumtheory.
From Verif Require Import Rust Traits Wp MInts MConstr Spec PropSpec RingSpec PInts POrders PPoly.
From Verif Require Import Quotient PQuot PModular PFrac TowerSpec PTower PTowerEx PCases.

Set Implicit Arguments.
Unset Strict Implicit.
Unset Printing Implicit Defensive.

Import GRing.Theory.
Local Open Scope ring_scope.

(** The rational numbers; polynomials in two variables with integer coefficients; matrices
    of rational functions over the field with four elements. *)
Lemma qq_tower cfg p : tower_field cfg p qq_rep (QQ cfg).
Proof. exact: TF_fractions (TE_ZZ cfg p). Qed.
Lemma zxy_tower cfg p :
  tower_idom cfg p (R := poly_idomainType (poly_idomainType [idomainType of Z]))
    (poly_of (poly_of zz_rep)) (poly_assoc (poly_assoc Z_assoc)) (PolyIDom (PolyIDom ZZ)).
Proof. by apply: TI_poly; apply: TI_poly; exact: TI_eucl (TE_ZZ cfg p). Qed.
Definition rat4_rep := frac_rep (F := [fieldType of {fraction (poly_idomainType gf4)}])
  [rmorphism of @FracField.tofrac (poly_idomainType gf4)] (poly_assoc (field_assoc gf4))
  (poly_of gf4_rep).
Definition Rat4 cfg : FieldAlg (seq (seq bool) * seq (seq bool)) :=
  ReducedFractions cfg (PolyEucl (F4 cfg)).
Lemma rat4_tower cfg p : tower_field cfg p rat4_rep (Rat4 cfg).
Proof. by apply: TF_fractions; apply: TE_poly; exact: gf4_field. Qed.
Lemma mat4_tower cfg p :
  tower_ring cfg p (@matrix_of 2 _ _ rat4_rep) mulmx 1%:M (MatrixRing cfg (Rat4 cfg) 2).
Proof. by apply: TR_matrix; exact: rat4_tower. Qed.
