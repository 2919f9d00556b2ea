(** * TowerSpec.v -- compositions of the constructions, to any depth.

    The predicates below list the structures that can be built from the numbers
    and the two-element field with the constructions of the crate. Beside the
    structure [A] they carry its mathematical meaning: [rep x u] reads "the value
    [x] is a member denoting [u]". [p] says whether panicking is acceptable. *)

From Coq Require Import ZArith Znumtheory List.
From mathcomp Require Import all_ssreflect all_algebra fraction ssrZ.
From Verif Require Import Rust Traits MInts MConstr Spec PropSpec RingSpec NumSpec.
From Verif Require Import PEucl PIntsZ PInts POrders Quotient PQuot PModular PFrac PPoly.

Set Implicit Arguments.
Unset Strict Implicit.
Unset Printing Implicit Defensive.

Import GRing.Theory.
Local Open Scope ring_scope.

Section Towers.
Variables (cfg : Cfg) (p : Prop).

(** Fields: the two-element one; small prime fields of checked integers; quotients of
    Euclidean domains by irreducible elements; fractions over Euclidean domains.
    Euclidean domains: the integers; checked integers, if panicking is acceptable;
    fields; polynomials over fields. *)
Inductive tower_field : forall (E : Type) (F : fieldType), (E -> F -> Prop) ->
    FieldAlg E -> Prop :=
| TF_BB : tower_field bb_rep BB
| TF_small (w : Z) (m : irr_modulus [idomainType of Z]) :
    Z.le 4 w -> in_i w (mval m) ->
    Z.le (Z.mul (Z.abs (mval m) - 1) (Z.abs (mval m) - 1)) (imax w) ->
    tower_field (@qf_rep Z [idomainType of Z] (ci_rep w) Z_eucl m)
      (QuotientField cfg (CheckedInts cfg w) (mval m : Z))
| TF_quotient E R rep AS S (A : EuclAlg E) (m : irr_modulus R) modulo :
    @tower_eucl E R rep AS S A -> rep modulo (mval m) ->
    tower_field (@qf_rep E R rep S m) (QuotientField cfg A modulo)
| TF_fractions E R rep AS S (A : EuclAlg E) :
    @tower_eucl E R rep AS S A ->
    tower_field (frac_rep (F := [fieldType of {fraction R}])
      [rmorphism of @FracField.tofrac R] AS rep) (ReducedFractions cfg A)
with tower_eucl : forall (E : Type) (R : idomainType), (E -> R -> Prop) ->
    assoc_struct R -> eucl_struct R -> EuclAlg E -> Prop :=
| TE_ZZ : tower_eucl zz_rep Z_assoc Z_eucl ZZ
| TE_checked (w : Z) : p -> Z.le 2 w ->
    tower_eucl (ci_rep w) Z_assoc Z_eucl (CheckedInts cfg w)
| TE_field E (F : fieldType) (rep : E -> F -> Prop) (A : FieldAlg E) :
    tower_field rep A -> tower_eucl rep (field_assoc F) (field_estruct F) A
| TE_poly E (F : fieldType) (rep : E -> F -> Prop) (A : FieldAlg E) :
    tower_field rep A ->
    @tower_eucl (seq E) (poly_idomainType F) (poly_of rep) (poly_assoc (field_assoc F))
      (poly_estruct F) (PolyEucl A).

(** Integral domains: the Euclidean ones; polynomials over integral domains, so also
    polynomials in several variables. *)
Inductive tower_idom : forall (E : Type) (R : idomainType), (E -> R -> Prop) ->
    assoc_struct R -> IDomAlg E -> Prop :=
| TI_eucl E R rep AS S (A : EuclAlg E) :
    @tower_eucl E R rep AS S A -> tower_idom rep AS A
| TI_poly E R rep AS (A : IDomAlg E) :
    @tower_idom E R rep AS A ->
    @tower_idom (seq E) (poly_idomainType R) (poly_of rep) (poly_assoc AS) (PolyIDom A).

(** Rings: integral domains; quotients of Euclidean domains; matrices over fields;
    powers of rings. *)
Inductive tower_ring : forall (E : Type) (V : zmodType), (E -> V -> Prop) ->
    (V -> V -> V) -> V -> RingAlg E -> Prop :=
| TR_idom E (R : idomainType) (rep : E -> R -> Prop) AS (A : IDomAlg E) :
    @tower_idom E R rep AS A -> tower_ring rep *%R 1 A
| TR_quotient E R rep AS S (A : EuclAlg E) (m : modulus R) modulo :
    @tower_eucl E R rep AS S A -> rep modulo (mval m) ->
    tower_ring (@q_rep E R S m rep) *%R 1 (QuotientRing cfg A modulo)
| TR_matrix E (F : fieldType) (rep : E -> F -> Prop) (A : FieldAlg E) (n : nat) :
    tower_field rep A ->
    @tower_ring (seq E) [zmodType of 'M[F]_n] (@matrix_of n E F rep) mulmx 1%:M
      (MatrixRing cfg A n)
| TR_vector E V rep op e (A : RingAlg E) (n : nat) :
    @tower_ring E V rep op e A ->
    @tower_ring (seq E) [zmodType of {ffun 'I_n -> V}] (@vector_of n E V rep)
      (fun f g => [ffun i => op (f i) (g i)]) [ffun => e] (VectorRing cfg n A).
End Towers.

(** Finite fields: prime fields, and extensions by irreducible polynomials; the last
    argument is the number of elements. *)
Inductive finite_field (cfg : Cfg) : forall (E : Type) (F : fieldType), (E -> F -> Prop) ->
    FieldAlg E -> nat -> Prop :=
| FF_BB : finite_field cfg bb_rep BB 2
| FF_prime (q : Z) (hq : Znumtheory.prime q) :
    finite_field cfg (@qf_rep Z [idomainType of Z] zz_rep Z_eucl (prime_field hq))
      (QuotientField cfg ZZ q) (Z.to_nat q)
| FF_small (w q : Z) (hq : Znumtheory.prime q) :
    Z.le 4 w -> in_i w q -> Z.le (Z.mul (q - 1) (q - 1)) (imax w) ->
    finite_field cfg (@qf_rep Z [idomainType of Z] (ci_rep w) Z_eucl (prime_field hq))
      (QuotientField cfg (CheckedInts cfg w) q) (Z.to_nat q)
| FF_extension E (F : fieldType) (rep : E -> F -> Prop) (A : FieldAlg E) k
    (m : irr_modulus (poly_idomainType F)) modulo :
    finite_field cfg rep A k -> poly_of rep modulo (mval m) ->
    finite_field cfg
      (@qf_rep (seq E) (poly_idomainType F) (poly_of rep) (poly_estruct F) m)
      (QuotientField cfg (PolyEucl A) modulo) (k ^ (size (mval m : {poly F})).-1).

(** There are exactly [k] values with the property [mem]. *)
Definition has_members (E : Type) (mem : E -> Prop) (k : nat) : Prop :=
  exists s : seq E, [/\ NoDup s, length s = k & forall x, In x s <-> mem x].
