(** * Props_Frac.v -- the properties of ReducedFractions (C18, C19).

    [fraction_of AS rep x a b]: the pair [x] is the fraction a/b in lowest terms
    with canonical denominator; [fractions_correct] (PropSpec.v) lists the results
    of all methods by cross multiplication; [rational_field] (FracSpec.v) says the
    same for integers with the standard library's rational numbers. *)

From mathcomp Require Import all_ssreflect all_algebra zify ssrZ fraction.
From Coq Require Import ZArith QArith.
From Verif Require Import Rust Traits MInts MConstr Spec PropSpec FracSpec NumSpec Laws.
From Verif Require Import PCases PPoly POrders Wp.
From Verif Require Import PInts PFrac PFracProps PRational Refuted.

Import GRing.Theory.
Local Open Scope ring_scope.

(** ** C18: fractions over any Euclidean domain *)

Theorem C18_operations : forall (cfg : Cfg) (p : Prop) (E : Type) (R : idomainType)
    (rep : E -> R -> Prop) (AS : assoc_struct R) (S : eucl_struct R) (A : EuclAlg E),
  eucl_alg_spec cfg p rep AS S A ->
  fractions_correct p AS rep cfg (ReducedFractions cfg A).
Proof. exact reduced_fractions_correct. Qed.
Print Assumptions C18_operations.
(** The field of rational functions over the field with two elements. *)
Example C18_operations_case cfg :
  fractions_correct False (poly_assoc (field_assoc _)) (poly_rep bb_rep) cfg
    (ReducedFractions cfg (PolyEucl BB)).
Proof. exact: (C18_operations _ _ _ _ _ _ _ _ (PolyEucl_ok (BB_ok cfg False))). Qed.

(** A fraction has one representation in lowest terms ... *)
Theorem C18_unique : forall (E : Type) (R : idomainType) (rep : E -> R -> Prop)
    (AS : assoc_struct R) (x y : E * E) (a b c d : R),
  fraction_of AS rep x a b -> fraction_of AS rep y c d -> a * d = c * b -> a = c /\ b = d.
Proof. exact fraction_of_uniq. Qed.
Print Assumptions C18_unique.
Example C18_unique_case :
  fraction_of Z_assoc zz_rep (2, 3)%Z 2%Z 3%Z /\
  forall c d : Z, fraction_of Z_assoc zz_rep (c, d) c d -> 2%Z * d = c * 3%Z -> c = 2%Z /\ d = 3%Z.
Proof.
have h : fraction_of Z_assoc zz_rep (2, 3)%Z 2%Z 3%Z.
  by split=> //; exists (-1)%Z, 1%Z.
by split=> // c d hc e; have [-> ->] := C18_unique _ _ _ _ _ _ _ _ _ _ h hc e.
Qed.
(** ... and every element of the field of fractions has one. *)
Theorem C18_exists : forall (R : idomainType) (AS : assoc_struct R) (S : eucl_struct R)
    (q : {fraction R}), exists a b : R,
  [/\ b <> 0, arep AS b = b, coprime_to a b &
      q = [rmorphism of @FracField.tofrac R] a / [rmorphism of @FracField.tofrac R] b].
Proof. exact fraction_of_all. Qed.
Print Assumptions C18_exists.

(** All methods, including the derived Euclidean ones, in the field of fractions. *)
Theorem C18_contract : forall (cfg : Cfg) (p : Prop) (E : Type) (R : idomainType)
    (rep : E -> R -> Prop) (AS : assoc_struct R) (S : eucl_struct R) (A : EuclAlg E),
  eucl_alg_spec cfg p rep AS S A ->
  field_alg_spec cfg p
    (frac_rep (F := [fieldType of {fraction R}]) [rmorphism of @FracField.tofrac R] AS rep)
    (ReducedFractions cfg A).
Proof. exact reduced_fractions_contract. Qed.
Print Assumptions C18_contract.
Example C18_contract_case cfg :
  field_alg_spec cfg False
    (frac_rep (F := [fieldType of {fraction [idomainType of Z]}])
       [rmorphism of @FracField.tofrac [idomainType of Z]] Z_assoc zz_rep)
    (ReducedFractions cfg ZZ).
Proof. exact: (C18_contract _ _ _ _ _ _ _ _ (ZZ_ok cfg False)). Qed.
(** The laws of a field, as statements about calls of the methods. *)
Theorem C18_laws : forall (cfg : Cfg) (p : Prop) (E : Type) (R : idomainType)
    (rep : E -> R -> Prop) (AS : assoc_struct R) (S : eucl_struct R) (A : EuclAlg E),
  eucl_alg_spec cfg p rep AS S A -> Z.le 2 (ptr_bits cfg) ->
  field_alg_laws p (fun x => exists a b, fraction_of AS rep x a b) cfg (ReducedFractions cfg A).
Proof. exact reduced_fractions_laws. Qed.
Print Assumptions C18_laws.
Example C18_laws_case :
  field_alg_laws False (fun x => exists a b, fraction_of Z_assoc zz_rep x a b) debug64 (QQ debug64).
Proof. exact: (C18_laws _ _ _ _ _ _ _ _ (ZZ_ok debug64 False)). Qed.
(** [contains] accepts, among the pairs of members with non-zero denominator, those in
    lowest terms with canonical denominator. *)
Theorem C18_contains : forall (cfg : Cfg) (p : Prop) (E : Type) (R : idomainType)
    (rep : E -> R -> Prop) (AS : assoc_struct R) (S : eucl_struct R) (A : EuclAlg E),
  eucl_alg_spec cfg p rep AS S A ->
  forall (x : E * E) (a b : R), rep x.1 a -> rep x.2 b -> b <> 0 ->
  decides p (contains (ReducedFractions cfg A) x) (arep AS b = b /\ coprime_to a b).
Proof. exact fraction_contains. Qed.
Print Assumptions C18_contains.
Example C18_contains_case cfg :
  [/\ returns (contains (QQ cfg) (2, 3)%Z) true, returns (contains (QQ cfg) (2, 4)%Z) false &
      returns (contains (QQ cfg) (2, -3)%Z) false].
Proof. by split; run 20%nat. Qed.

(** The rational numbers: no panics. *)
Theorem C18_QQ : forall cfg : Cfg, rational_field cfg False canonical_pair (QQ cfg).
Proof. exact QQ_rational. Qed.
Print Assumptions C18_QQ.
Theorem C18_QQ_unique : forall x y : Z * Z,
  canonical_pair x -> canonical_pair y -> Qeq (q_of x) (q_of y) -> x = y.
Proof. exact canonical_uniq. Qed.
Print Assumptions C18_QQ_unique.
Example C18_QQ_unique_case : canonical_pair (2, 3)%Z /\ ~ canonical_pair (4, 6)%Z.
Proof. by split; [|case]. Qed.
Theorem C18_QQ_exists : forall q : Q, exists2 x, canonical_pair x & Qeq (q_of x) q.
Proof. exact canonical_all. Qed.
Print Assumptions C18_QQ_exists.
(** 1/6 + -3/10 = -2/15; (-2/3)^(-3) = -27/8; 1/0 panics. *)
Example C18_QQ_case : canonical_pair (-3, 10)%Z /\
  [/\ returns (add (QQ debug64) (1, 6)%Z (-3, 10)%Z) (-2, 15)%Z,
      returns (fdiv (QQ debug64) (1, 6)%Z (-3, 10)%Z) (-5, 9)%Z,
      returns (fpower (QQ debug64) (-3) (-2, 3)%Z) (-27, 8)%Z,
      returns (contains (QQ debug64) (2, -4)%Z) false &
      panics (finv (QQ debug64) (0, 1)%Z)].
Proof. by split; [split|split; run 30%nat]. Qed.
(** Fractions of polynomials over the field with two elements:
    (x + 1)/x * x/(x^2 + 1) = 1/(x + 1). *)
Example C18_poly_case cfg :
  returns (mul (ReducedFractions cfg (PolyEucl BB))
     ([:: true; true], [:: false; true]) ([:: false; true], [:: true; false; true]))
     ([:: true], [:: true; true]).
Proof. by run 30%nat. Qed.

(** ** C19: fractions of machine integers *)

Theorem C19_exact : forall (cfg : Cfg) (w : Z), Z.le 2 w ->
  rational_field cfg True
    (fun z => fits w z.1 /\ fits w z.2 /\ canonical_pair z)
    (ReducedFractions cfg (CheckedInts cfg w)).
Proof. exact ints_rational. Qed.
Print Assumptions C19_exact.
(** 1/4 * 2/15 = 1/30; 1/16 * 4/15 = 1/60 panics, because the product 4/240 is
    computed first; so panics also happen for results that fit. *)
Example C19_case cfg :
  returns (mul (ReducedFractions cfg (I8 cfg)) (1, 4)%Z (2, 15)%Z) (1, 30)%Z /\
  panics (mul (ReducedFractions cfg (I8 cfg)) (1, 16)%Z (4, 15)%Z).
Proof. by split; run 30%nat. Qed.
