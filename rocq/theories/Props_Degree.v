(** * Props_Degree.v -- C60: degree and leading_coef obey the laws of polynomials.

    DegreeSpec.v lists the laws; [terms] is the degree plus one, 0 for None. *)

From mathcomp Require Import all_ssreflect all_algebra zify ssrZ.
From Coq Require Import ZArith.
From Verif Require Import Rust Traits MInts MConstr Spec PropSpec RingSpec NumSpec Laws.
From Verif Require Import PCases PCasesT.
From Verif Require Import DegreeSpec PInts POrders PPoly TowerSpec PTower PTowerEx PDegree Refuted.

Import GRing.Theory.
Local Open Scope ring_scope.

Theorem C60_degree : forall (cfg : Cfg) (p : Prop) (E : Type) (R : idomainType)
    (rep : E -> R -> Prop) (AS : assoc_struct R) (A : IDomAlg E),
  idom_alg_spec cfg p rep AS A ->
  degree_laws p (fun x => exists P, poly_of rep x P) A (PolyIDom A).
Proof. exact degree_laws_ok. Qed.
Print Assumptions C60_degree.
Example C60_degree_case : degree_laws False (fun x => exists P, poly_of zz_rep x P) ZZ (PolyIDom ZZ).
Proof. exact: (C60_degree _ _ _ _ _ _ _ (zz_idom debug64)). Qed.
Theorem C60_division : forall (cfg : Cfg) (p : Prop) (E : Type) (F : fieldType)
    (rep : E -> F -> Prop) (A : FieldAlg E),
  field_alg_spec cfg p rep A ->
  division_degrees p (fun x => exists P, poly_of rep x P) A (PolyEucl A).
Proof. exact division_degrees_ok. Qed.
Print Assumptions C60_division.
Example C60_division_case :
  division_degrees False (fun x => exists P, poly_of qq_rep x P) (QQ debug64) (PolyEucl (QQ debug64)).
Proof. exact: (C60_division _ _ _ _ _ _ (qq_field debug64)). Qed.
Theorem C60_degree_towers : forall (cfg : Cfg) (p : Prop) (E : Type) (R : idomainType)
    (rep : E -> R -> Prop) (AS : assoc_struct R) (A : IDomAlg E),
  tower_idom cfg p rep AS A ->
  degree_laws p (fun x => exists P, poly_of rep x P) A (PolyIDom A).
Proof. exact tower_degree. Qed.
Print Assumptions C60_degree_towers.
(** Polynomials in three variables, as polynomials in the last one. *)
Example C60_degree_towers_case :
  degree_laws False (fun x => exists P, poly_of (poly_of (poly_of zz_rep)) x P)
    (PolyIDom (PolyIDom ZZ)) (PolyIDom (PolyIDom (PolyIDom ZZ))).
Proof. exact: (C60_degree_towers _ _ _ _ _ _ _ (zxy_tower debug64 False)). Qed.
Theorem C60_division_towers : forall (cfg : Cfg) (p : Prop) (E : Type) (F : fieldType)
    (rep : E -> F -> Prop) (A : FieldAlg E),
  tower_field cfg p rep A ->
  division_degrees p (fun x => exists P, poly_of rep x P) A (PolyEucl A).
Proof. exact tower_division. Qed.
Print Assumptions C60_division_towers.
(** Polynomials in two variables over the integers; over the field with four elements. *)
Example C60_towers cfg p :
  (exists (R : idomainType) (rep : _ -> R -> Prop) AS,
     tower_idom cfg p rep AS (PolyIDom ZZ)) /\
  exists (F : fieldType) (rep : _ -> F -> Prop), tower_field cfg p rep (F4 cfg).
Proof.
split; first by do 3 eexists; apply: TI_poly; apply: TI_eucl; exact: TE_ZZ.
by do 2 eexists; exact: gf4_field.
Qed.
(** (2x - 3)(x^2 + 5) = 2x^3 - 3x^2 + 10x - 15; (x^2 + 1) + (1 - x^2) = 2; over F2,
    x^4 = (x^2 + x)(x^2 + x + 1) + x, and (x+1)^2, x(x+1) have gcd x+1. *)
Example C60_case :
  [/\ returns (mul (PolyIDom ZZ) [:: -3; 2]%Z [:: 5; 0; 1]%Z) [:: -15; 10; -3; 2]%Z,
      poly_degree [:: -15; 10; -3; 2]%Z = Some 3%nat,
      returns (poly_leading_coef [:: -15; 10; -3; 2]%Z) (Some 2%Z),
      returns (add (PolyIDom ZZ) [:: 1; 0; 1]%Z [:: 1; 0; -1]%Z) [:: 2%Z] &
      returns (invertible (PolyIDom ZZ) [:: 2%Z]) false] /\
  [/\ returns (quo_rem (PolyEucl BB) [:: false; false; false; false; true] [:: true; true; true])
        ([:: false; true; true], [:: false; true]),
      returns (reduced (PolyEucl BB) [:: true; true] [:: true; false; true]) true,
      returns (gcd (PolyEucl BB) [:: true; false; true] [:: false; true; true]) [:: true; true],
      returns (lcm (PolyEucl BB) [:: true; false; true] [:: false; true; true])
        [:: false; true; false; true] &
      returns (associate_repr (PolyEucl (QuotientField debug64 ZZ 5%Z)) [:: 1; 3]%Z)
        [:: 2; 1]%Z].
Proof. by split; split; first [done|run 30%nat]. Qed.
