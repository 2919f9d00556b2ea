(** * Props_Tower.v -- compositions of the constructions (C24).

    [tower_field], [tower_eucl], [tower_idom], [tower_ring] (TowerSpec.v): what can be
    built from the numbers with quotients, fractions, polynomials, matrices and
    vectors, to any depth; [finite_field]: towers of extensions of prime fields. *)

From mathcomp Require Import all_ssreflect all_algebra fraction zify ssrZ.
From Coq Require Import ZArith.
From Verif Require Import Rust Traits MInts MConstr Spec PropSpec RingSpec NumSpec Laws.
From Verif Require Import PCases PCasesT.
From Verif Require Import PIntsZ PInts POrders PFrac PPoly TowerSpec PTower PTowerEx Refuted.

Import GRing.Theory.
Local Open Scope ring_scope.

(** ** C24: towers *)

(** The output of each construction meets the contract that the next one needs. *)
Theorem C24_fields : forall (cfg : Cfg) (p : Prop) (E : Type) (F : fieldType)
    (rep : E -> F -> Prop) (A : FieldAlg E),
  tower_field cfg p rep A -> field_alg_spec cfg p rep A.
Proof. exact tower_field_contract. Qed.
Print Assumptions C24_fields.
(** Rational functions over the field with four elements. *)
Example C24_fields_case cfg : field_alg_spec cfg False rat4_rep (Rat4 cfg).
Proof. exact: (C24_fields _ _ _ _ _ _ (rat4_tower cfg False)). Qed.
Theorem C24_euclidean : forall (cfg : Cfg) (p : Prop) (E : Type) (R : idomainType)
    (rep : E -> R -> Prop) (AS : assoc_struct R) (S : eucl_struct R) (A : EuclAlg E),
  tower_eucl cfg p rep AS S A -> eucl_alg_spec cfg p rep AS S A.
Proof. exact tower_eucl_contract. Qed.
Print Assumptions C24_euclidean.
(** Polynomials over them. *)
Example C24_euclidean_case cfg :
  eucl_alg_spec cfg False (poly_of rat4_rep) (poly_assoc (field_assoc _)) (poly_estruct _)
    (PolyEucl (Rat4 cfg)).
Proof. exact: (C24_euclidean _ _ _ _ _ _ _ _ (TE_poly (rat4_tower cfg False))). Qed.
Theorem C24_domains : forall (cfg : Cfg) (p : Prop) (E : Type) (R : idomainType)
    (rep : E -> R -> Prop) (AS : assoc_struct R) (A : IDomAlg E),
  tower_idom cfg p rep AS A -> idom_alg_spec cfg p rep AS A.
Proof. exact tower_idom_contract. Qed.
Print Assumptions C24_domains.
(** Polynomials with integer coefficients in two variables. *)
Example C24_domains_case cfg :
  idom_alg_spec cfg False (poly_of (poly_of zz_rep)) (poly_assoc (poly_assoc Z_assoc))
    (PolyIDom (PolyIDom ZZ)).
Proof. exact: (C24_domains _ _ _ _ _ _ _ (zxy_tower cfg False)). Qed.
Theorem C24_rings : forall (cfg : Cfg) (p : Prop), Z.le 2 (ptr_bits cfg) ->
  forall (E : Type) (V : zmodType) (rep : E -> V -> Prop) (op : V -> V -> V) (e : V)
    (A : RingAlg E),
  tower_ring cfg p rep op e A -> ring_alg_spec cfg p rep op e A.
Proof. exact tower_ring_contract. Qed.
Print Assumptions C24_rings.
(** Matrices of rational functions. *)
Example C24_rings_case :
  ring_alg_spec debug64 False (@matrix_of 2 _ _ rat4_rep) mulmx 1%:M
    (MatrixRing debug64 (Rat4 debug64) 2).
Proof. by apply: C24_rings (mat4_tower debug64 False). Qed.

(** The laws, as statements about calls of the methods. *)
Theorem C24_field_laws : forall (cfg : Cfg) (p : Prop), Z.le 2 (ptr_bits cfg) ->
  forall (E : Type) (F : fieldType) (rep : E -> F -> Prop) (A : FieldAlg E),
  tower_field cfg p rep A -> field_alg_laws p (fun x => exists u, rep x u) cfg A.
Proof. exact tower_field_laws. Qed.
Print Assumptions C24_field_laws.
Example C24_field_laws_case :
  field_alg_laws False (fun x => exists u, rat4_rep x u) debug64 (Rat4 debug64).
Proof. by apply: C24_field_laws (rat4_tower debug64 False). Qed.
Theorem C24_euclidean_laws : forall (cfg : Cfg) (p : Prop), Z.le 2 (ptr_bits cfg) ->
  forall (E : Type) (R : idomainType) (rep : E -> R -> Prop) (AS : assoc_struct R)
    (S : eucl_struct R) (A : EuclAlg E),
  tower_eucl cfg p rep AS S A -> eucl_alg_laws p (fun x => exists u, rep x u) cfg A.
Proof. exact tower_eucl_laws. Qed.
Print Assumptions C24_euclidean_laws.
Example C24_euclidean_laws_case :
  eucl_alg_laws False (fun x => exists u, poly_of rat4_rep x u) debug64 (PolyEucl (Rat4 debug64)).
Proof. by apply: C24_euclidean_laws (TE_poly (rat4_tower debug64 False)). Qed.
Theorem C24_domain_laws : forall (cfg : Cfg) (p : Prop), Z.le 2 (ptr_bits cfg) ->
  forall (E : Type) (R : idomainType) (rep : E -> R -> Prop) (AS : assoc_struct R)
    (A : IDomAlg E),
  tower_idom cfg p rep AS A -> idom_alg_laws p (fun x => exists u, rep x u) cfg A.
Proof. exact tower_idom_laws. Qed.
Print Assumptions C24_domain_laws.
Example C24_domain_laws_case :
  idom_alg_laws False (fun x => exists u, poly_of (poly_of zz_rep) x u) debug64
    (PolyIDom (PolyIDom ZZ)).
Proof. by apply: C24_domain_laws (zxy_tower debug64 False). Qed.
Theorem C24_ring_laws : forall (cfg : Cfg) (p : Prop), Z.le 2 (ptr_bits cfg) ->
  forall (E : Type) (V : zmodType) (rep : E -> V -> Prop) (op : V -> V -> V) (e : V)
    (A : RingAlg E),
  tower_ring cfg p rep op e A -> ring_alg_laws p (fun x => exists u, rep x u) cfg A.
Proof. exact tower_ring_laws. Qed.
Print Assumptions C24_ring_laws.
Example C24_ring_laws_case :
  ring_alg_laws False (fun x => exists u, @matrix_of 2 _ _ rat4_rep x u) debug64
    (MatrixRing debug64 (Rat4 debug64) 2).
Proof. by apply: C24_ring_laws (mat4_tower debug64 False). Qed.

(** Finite fields: they do not panic, they have as many members as they should, each
    element is denoted by one value, and power(q, x) is x for every member. *)
Theorem C24_finite : forall (cfg : Cfg) (E : Type) (F : fieldType) (rep : E -> F -> Prop)
    (A : FieldAlg E) (k : nat), finite_field cfg rep A k -> field_alg_spec cfg False rep A.
Proof. exact finite_field_contract. Qed.
Print Assumptions C24_finite.
Example C24_finite_case cfg : field_alg_spec cfg False gf16_rep (F16 cfg).
Proof. exact: (C24_finite _ _ _ _ _ _ (gf16_tower cfg)). Qed.
Theorem C24_finite_members : forall (cfg : Cfg) (E : Type) (F : fieldType)
    (rep : E -> F -> Prop) (A : FieldAlg E) (k : nat), finite_field cfg rep A k ->
  [/\ has_members (fun x => exists u, rep x u) k,
      forall u, exists x, rep x u &
      forall x y u, rep x u -> rep y u -> x = y].
Proof. exact finite_field_members. Qed.
Print Assumptions C24_finite_members.
Example C24_finite_members_case : has_members (fun x => exists u, gf16_rep x u) 16.
Proof. by have [] := C24_finite_members _ _ _ _ _ _ (gf16_tower debug64). Qed.
Theorem C24_finite_power : forall (cfg : Cfg) (E : Type) (F : fieldType)
    (rep : E -> F -> Prop) (A : FieldAlg E) (k : nat), finite_field cfg rep A k ->
  good_isize cfg (Z.of_nat k) ->
  forall x, (exists u, rep x u) -> returns (fpower A (Z.of_nat k) x) x.
Proof. exact finite_field_fermat. Qed.
Print Assumptions C24_finite_power.

(** GF(16) as GF(2)[x]/(x^2 + x + 1)[y]/(y^2 + y + x): y * y = y + x, and
    the inverse of y + 1 is (x + 1) y. *)
Example C24_tower cfg : finite_field cfg gf16_rep (F16 cfg) 16.
Proof. exact (gf16_tower cfg). Qed.
Example C24_tower_case :
  [/\ returns (mul (F16 debug64) [:: [::]; [:: true]] [:: [::]; [:: true]])
        [:: [:: false; true]; [:: true]],
      returns (finv (F16 debug64) [:: [:: true]; [:: true]])
        [:: [::]; [:: true; true]],
      returns (fpower (F16 debug64) 16 [:: [:: false; true]; [:: true]])
        [:: [:: false; true]; [:: true]] &
      returns (add (F16 debug64) [:: [:: true]; [:: true]] [:: [::]; [:: true]])
        [:: [:: true]]].
Proof. by split; run 60%nat. Qed.
(** Matrices of rational functions over GF(4), and vectors of those. *)
Example C24_deep cfg p : exists (V : zmodType) (rep : _ -> V -> Prop) op e,
  tower_ring cfg p rep op e
    (VectorRing cfg 3 (MatrixRing cfg (ReducedFractions cfg (PolyEucl (F4 cfg))) 2)).
Proof.
do 4 eexists; apply: TR_vector; apply: TR_matrix; apply: TF_fractions; apply: TE_poly.
exact: gf4_field.
Qed.
