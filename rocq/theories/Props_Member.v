(** * Props_Member.v -- membership (C42, C43).

    [contains_decides p ty mem A] (MemberSpec.v): on the values [ty] of the element type,
    [contains] accepts exactly those in [mem]; [entries P v]: all entries of [v] are
    in [P]; [closed_... p mem A]: whatever a method returns on members is a member, and
    [contains] accepts it. *)

From mathcomp Require Import all_ssreflect all_algebra zify ssrZ.
From Coq Require Import ZArith.
From Verif Require Import Rust Traits MInts MConstr Spec PropSpec MemberSpec TowerSpec.
From Verif Require Import RingSpec PPoly PCases PCasesT Wp.
From Verif Require Import PInts POrders PMember PMember2 PTower PTowerEx Refuted.

Import GRing.Theory.
Local Open Scope ring_scope.

(** ** C42: contains decides membership

    False: in the field with four elements 5 + 7x and the vector [0, 0] are accepted,
    and the latter is not equal to the zero of the field; for the fraction 1/0 the call
    panics. *)
Theorem C42_refuted : forall cfg : Cfg,
  [/\ returns (contains (GF4 cfg) [:: 5; 7]%Z) true,
      returns (contains (GF4 cfg) [:: 0; 0]%Z) true &
      returns (equals (GF4 cfg) [:: 0; 0]%Z [::]) false] /\
  panics (contains (QQ cfg) (1, 0)%Z).
Proof. exact (fun cfg => conj (GF4_contains cfg) (QQ_contains_1_0 cfg)). Qed.
Print Assumptions C42_refuted.
(** More generally, entries are not looked at. *)
Theorem C42_poly_quotient_refuted : forall (cfg : Cfg) (E : Type) (A : FieldAlg E)
    (modulo v : seq E), (size v < size modulo)%nat ->
  returns (contains (QuotientRing cfg (PolyEucl A) modulo) v) true /\
  returns (contains (QuotientField cfg (PolyEucl A) modulo) v) true.
Proof. exact poly_quotient_accepts. Qed.
Print Assumptions C42_poly_quotient_refuted.
Example C42_poly_quotient_case : (size [:: 5; 7]%Z < size [:: 1; 1; 1]%Z)%nat.
Proof. by []. Qed.

(** What holds: the numbers, vectors, matrices and polynomials over exact bases,
    residues and fractions of members; missing: quotients and fractions whose arguments
    are not members of the base. *)
Theorem C42_numbers_partial : forall (cfg : Cfg) (p : Prop) (w : Z),
  [/\ contains_decides p (fun _ => True) (fun _ => True) ZZ,
      contains_decides p (fun _ => True) (fun _ => True) NN,
      contains_decides p (fun _ => True) (fun _ => True) BB,
      contains_decides p (in_i w) (in_i w) (CheckedInts cfg w) &
      contains_decides p (in_u w) (in_u w) (CheckedUints w)].
Proof. exact numbers_decide. Qed.
Print Assumptions C42_numbers_partial.
Theorem C42_vectors_partial : forall (p : Prop) (E : Type) (ty mem : E -> Prop) (A : Domain E)
    (n : nat), contains_decides p ty mem A ->
  contains_decides p (entries ty) (fun v => size v = n /\ entries mem v) (vector_domain n A).
Proof. exact vector_decides. Qed.
Print Assumptions C42_vectors_partial.
(** Vectors of residues modulo 10. *)
Example C42_vectors_partial_case cfg :
  contains_decides False (entries (fun _ => True))
    (fun v => size v = 3%nat /\ entries (fun x => 0 <= x < 10)%Z v)
    (vector_domain 3 (QuotientRing cfg ZZ 10%Z)).
Proof.
apply: C42_vectors_partial.
by have [||h _ _ _] := modular_decides cfg False (w := 8%Z) (m := 10%Z).
Qed.
Theorem C42_matrices_partial : forall (p : Prop) (E : Type) (ty mem : E -> Prop)
    (A : FieldAlg E) (n : nat), contains_decides p ty mem A ->
  contains_decides p (entries ty) (fun v => size v = (n * n)%nat /\ entries mem v)
    (matrix_domain A n).
Proof. exact matrix_decides. Qed.
Print Assumptions C42_matrices_partial.
(** Matrices of residues modulo 5. *)
Example C42_matrices_partial_case cfg :
  contains_decides False (entries (fun _ => True))
    (fun v => size v = (2 * 2)%nat /\ entries (fun x => 0 <= x < 5)%Z v)
    (matrix_domain (QuotientField cfg ZZ 5%Z) 2).
Proof.
apply: C42_matrices_partial.
by have [||_ h _ _] := modular_decides cfg False (w := 8%Z) (m := 5%Z).
Qed.
Theorem C42_polynomials_partial : forall (p : Prop) (E : Type) (ty mem : E -> Prop)
    (A : AbelianAlg E) (is0 : E -> Prop), contains_decides p ty mem A ->
  (forall x, mem x -> ensures p (is_zero A x) (fun b => b = true <-> is0 x)) ->
  contains_decides p (entries ty)
    (fun v => entries mem v /\ forall x, (0 < size v)%nat -> ~ is0 (nth x v (size v).-1))
    (poly_domain A).
Proof. exact poly_decides. Qed.
Print Assumptions C42_polynomials_partial.
Example C42_polynomials_partial_case :
  contains_decides False (entries (fun _ => True))
    (fun v => entries (fun _ => True) v /\
       forall x, (0 < size v)%nat -> ~ (nth x v (size v).-1 = 0%Z)) (poly_domain (ring_abelian ZZ)).
Proof.
apply: (C42_polynomials_partial _ _ _ _ _ (fun x => x = 0%Z)) => x _; apply: ensures_ret => //.
by rewrite /=; split=> /Z.eqb_eq.
Qed.
Theorem C42_modular_partial : forall (cfg : Cfg) (p : Prop) (w m : Z), m <> 0%Z -> (2 <= w)%Z ->
  [/\ contains_decides p (fun _ => True) (fun x => 0 <= x < Z.abs m)%Z (QuotientRing cfg ZZ m),
      contains_decides p (fun _ => True) (fun x => 0 <= x < Z.abs m)%Z (QuotientField cfg ZZ m),
      contains_decides p (in_i w) (fun x => 0 <= x < Z.abs m)%Z
        (QuotientRing cfg (CheckedInts cfg w) m) &
      contains_decides p (in_i w) (fun x => 0 <= x < Z.abs m)%Z
        (QuotientField cfg (CheckedInts cfg w) m)].
Proof. exact modular_decides. Qed.
Print Assumptions C42_modular_partial.
Example C42_modular_partial_case cfg :
  contains_decides False (in_i 8) (fun x => 0 <= x < 5)%Z (QuotientRing cfg (CheckedInts cfg 8) (-5)%Z).
Proof. by have [||_ _ h _] := C42_modular_partial cfg False 8 (-5). Qed.
Theorem C42_quotients_partial : forall (cfg : Cfg) (p : Prop) (E : Type) (R : idomainType)
    (rep : E -> R -> Prop) (AS : assoc_struct R) (S : eucl_struct R) (A : EuclAlg E),
  eucl_alg_spec cfg p rep AS S A -> forall (m : R) (modulo : E), m <> 0 -> rep modulo m ->
  contains_decides p (fun x => exists a, rep x a) (fun x => exists a, rep x a /\ erem S a m = a)
    (QuotientRing cfg A modulo) /\
  contains_decides p (fun x => exists a, rep x a) (fun x => exists a, rep x a /\ erem S a m = a)
    (QuotientField cfg A modulo).
Proof. exact quotient_decides. Qed.
Print Assumptions C42_quotients_partial.
Example C42_quotients_partial_case cfg :
  contains_decides False (fun x => exists a, zz_rep x a)
    (fun x => exists a, zz_rep x a /\ erem Z_eucl a 10%Z = a) (QuotientRing cfg ZZ 10%Z).
Proof. by have [||h _] := C42_quotients_partial _ _ _ _ _ _ _ _ (ZZ_ok cfg False) 10%Z 10%Z. Qed.
Theorem C42_fractions_partial : forall (cfg : Cfg) (p : Prop) (E : Type) (R : idomainType)
    (rep : E -> R -> Prop) (AS : assoc_struct R) (S : eucl_struct R) (A : EuclAlg E),
  eucl_alg_spec cfg p rep AS S A ->
  contains_decides p (fun x => (exists a, rep x.1 a) /\ exists2 b, rep x.2 b & b <> 0)
    (fun x => exists a b, fraction_of AS rep x a b) (ReducedFractions cfg A).
Proof. exact fractions_decide. Qed.
Print Assumptions C42_fractions_partial.
Example C42_fractions_partial_case cfg :
  contains_decides False (fun x => (exists a, zz_rep x.1 a) /\ exists2 b, zz_rep x.2 b & b <> 0)
    (fun x => exists a b, fraction_of Z_assoc zz_rep x a b) (QQ cfg).
Proof. exact: (C42_fractions_partial _ _ _ _ _ _ _ _ (ZZ_ok cfg False)). Qed.
Theorem C42_QQ_partial : forall (cfg : Cfg) (n d : Z),
  [/\ d <> 0%Z -> returns (contains (QQ cfg) (n, d)) ((0 <? d) && (Z.gcd n d =? 1))%Z,
      d = 0%Z -> Z.abs n <> 1%Z -> returns (contains (QQ cfg) (n, d)) false &
      d = 0%Z -> Z.abs n = 1%Z -> panics (contains (QQ cfg) (n, d))].
Proof. exact QQ_contains_exactly. Qed.
Print Assumptions C42_QQ_partial.
(** Polynomials over Z/7: trailing zeros and entries out of range are rejected. *)
Example C42_case cfg :
  [/\ returns (contains (PolyRing (QuotientField cfg ZZ 7%Z)) [:: 1; 0; 3]%Z) true,
      returns (contains (PolyRing (QuotientField cfg ZZ 7%Z)) [:: 1; 3; 0]%Z) false,
      returns (contains (PolyRing (QuotientField cfg ZZ 7%Z)) [:: 8; 3]%Z) false,
      returns (contains (QQ cfg) (4, 6)%Z) false &
      returns (contains (QQ cfg) (2, 3)%Z) true].
Proof. by split; run 20%nat. Qed.
Example C42_base cfg : eucl_alg_spec cfg False zz_rep Z_assoc Z_eucl ZZ.
Proof. exact (ZZ_ok cfg False). Qed.

(** ** C43: results are members

    False: over Z/6 a product of two polynomials need not be a member; modulo a unit the
    one is not a member. *)
Theorem C43_refuted : forall cfg : Cfg,
  [/\ returns (contains (PolyRing (Z6 cfg)) [:: 0; 2]%Z) true,
      returns (contains (PolyRing (Z6 cfg)) [:: 0; 3]%Z) true,
      returns (mul (PolyRing (Z6 cfg)) [:: 0; 2]%Z [:: 0; 3]%Z) [:: 0; 0; 0]%Z &
      returns (contains (PolyRing (Z6 cfg)) [:: 0; 0; 0]%Z) false].
Proof. exact poly_mul_Z6. Qed.
Print Assumptions C43_refuted.
Theorem C43_one_refuted : forall cfg : Cfg,
  returns (quotient_ring_new ZZ 1%Z) tt /\
  returns (let! o := one (QuotientRing cfg ZZ 1%Z) in
           contains (QuotientRing cfg ZZ 1%Z) o) false.
Proof. exact quotient_ring_one_not_member. Qed.
Print Assumptions C43_one_refuted.

(** What holds: the structures that meet their contract are closed, so all the towers of
    C24; missing: power and times with isize::MIN, polynomials over rings with zero
    divisors, quotients by units. *)
Theorem C43_groups_partial : forall (cfg : Cfg) (p : Prop) (E : Type) (V : eqType)
    (rep : E -> V -> Prop) (op : V -> V -> V) (e : V) (inv : V -> V) (A : GroupAlg E),
  group_alg_spec cfg p rep op e inv A -> closed_group_alg cfg p (fun x => exists u, rep x u) A.
Proof. exact closed_group_alg_ok. Qed.
Print Assumptions C43_groups_partial.
Example C43_groups_partial_case cfg :
  closed_group_alg cfg False (fun x => exists u, zz_rep x u) (AdditiveGroup cfg (ring_abelian ZZ)).
Proof. exact: (C43_groups_partial _ _ _ _ _ _ _ _ _ (zz_group cfg)). Qed.
Theorem C43_semirings_partial : forall (p : Prop) (E : Type) (V : eqType)
    (rep : E -> V -> Prop) (op : V -> V -> V) (e : V) (plus : V -> V -> V) (zero : V)
    (A : SemiRingAlg E), semiring_alg_spec p rep op e plus zero A ->
  closed_semiring_alg p (fun x => exists u, rep x u) A.
Proof. exact closed_semiring_alg_ok. Qed.
Print Assumptions C43_semirings_partial.
Example C43_semirings_partial_case : closed_semiring_alg False (fun x => exists u, nn_rep x u) NN.
Proof. exact: (C43_semirings_partial _ _ _ _ _ _ _ _ _ (NN_ok False)). Qed.
Theorem C43_abelian_partial : forall (cfg : Cfg) (p : Prop) (E : Type) (V : zmodType)
    (rep : E -> V -> Prop) (A : AbelianAlg E),
  abelian_alg_spec cfg p rep A -> closed_abelian_alg cfg p (fun x => exists u, rep x u) A.
Proof. exact closed_abelian_alg_ok. Qed.
Print Assumptions C43_abelian_partial.
Example C43_abelian_partial_case cfg :
  closed_abelian_alg cfg False (fun x => exists u, zz_rep x u) (ring_abelian ZZ).
Proof. exact: (C43_abelian_partial _ _ _ _ _ _ (zz_abelian cfg)). Qed.
Theorem C43_rings_partial : forall (cfg : Cfg) (p : Prop) (E : Type) (V : zmodType)
    (rep : E -> V -> Prop) (op : V -> V -> V) (e : V) (A : RingAlg E),
  ring_alg_spec cfg p rep op e A -> closed_ring_alg cfg p (fun x => exists u, rep x u) A.
Proof. exact closed_ring_alg_ok. Qed.
Print Assumptions C43_rings_partial.
Example C43_rings_partial_case cfg : closed_ring_alg cfg False (fun x => exists u, zz_rep x u) ZZ.
Proof. exact: (C43_rings_partial _ _ _ _ _ _ _ _ (zz_ring cfg)). Qed.
Theorem C43_domains_partial : forall (cfg : Cfg) (p : Prop) (E : Type) (R : idomainType)
    (rep : E -> R -> Prop) (AS : assoc_struct R) (A : IDomAlg E),
  idom_alg_spec cfg p rep AS A -> closed_idom_alg cfg p (fun x => exists u, rep x u) A.
Proof. exact closed_idom_alg_ok. Qed.
Print Assumptions C43_domains_partial.
Example C43_domains_partial_case cfg : closed_idom_alg cfg False (fun x => exists u, zz_rep x u) ZZ.
Proof. exact: (C43_domains_partial _ _ _ _ _ _ _ (zz_idom cfg)). Qed.
Theorem C43_euclidean_partial : forall (cfg : Cfg) (p : Prop) (E : Type) (R : idomainType)
    (rep : E -> R -> Prop) (AS : assoc_struct R) (S : eucl_struct R) (A : EuclAlg E),
  eucl_alg_spec cfg p rep AS S A -> closed_eucl_alg cfg p (fun x => exists u, rep x u) A.
Proof. exact closed_eucl_alg_ok. Qed.
Print Assumptions C43_euclidean_partial.
(** 8-bit integers: what is returned is in the range. *)
Example C43_euclidean_partial_case cfg :
  closed_eucl_alg cfg True (fun x => exists u, ci_rep 8 x u) (CheckedInts cfg 8).
Proof.
have w2 : (2 <= 8)%Z by [].
exact: (C43_euclidean_partial _ _ _ _ _ _ _ _ (CheckedInts_ok cfg w2)).
Qed.
Theorem C43_fields_partial : forall (cfg : Cfg) (p : Prop) (E : Type) (F : fieldType)
    (rep : E -> F -> Prop) (A : FieldAlg E),
  field_alg_spec cfg p rep A -> closed_field_alg cfg p (fun x => exists u, rep x u) A.
Proof. exact closed_field_alg_ok. Qed.
Print Assumptions C43_fields_partial.
Example C43_fields_partial_case cfg :
  closed_field_alg cfg False (fun x => exists u, three_rep x u) (QuotientField cfg ZZ 3%Z).
Proof. exact: (C43_fields_partial _ _ _ _ _ _ (three_field cfg)). Qed.
Theorem C43_lattices_partial : forall (p : Prop) (E : Type) (V : eqType)
    (rep : E -> V -> Prop) (le : rel V),
  (forall A, lattice_alg_spec p rep le A -> closed_lattice_alg p (fun x => exists u, rep x u) A) /\
  (forall t b A, bounded_alg_spec p rep le t b A ->
     closed_bounded_alg p (fun x => exists u, rep x u) A) /\
  (forall t b A, boolean_alg_spec p rep le t b A ->
     closed_boolean_alg p (fun x => exists u, rep x u) A).
Proof. exact closed_lattices_ok. Qed.
Print Assumptions C43_lattices_partial.
Example C43_lattices_partial_case :
  closed_boolean_alg False (fun x => exists u, bool_rep x u) BB_boolean.
Proof. by have [_ [_ h]] := C43_lattices_partial False _ _ bool_rep implb; exact: h (BB_boolean_ok False). Qed.
Theorem C43_tower_fields_partial : forall (cfg : Cfg) (p : Prop) (E : Type) (F : fieldType)
    (rep : E -> F -> Prop) (A : FieldAlg E), tower_field cfg p rep A ->
  closed_field_alg cfg p (fun x => exists u, rep x u) A.
Proof. exact tower_field_closed. Qed.
Print Assumptions C43_tower_fields_partial.
(** Rational functions over the field with four elements. *)
Example C43_tower_fields_partial_case cfg :
  closed_field_alg cfg False (fun x => exists u, rat4_rep x u) (Rat4 cfg).
Proof. exact: (C43_tower_fields_partial _ _ _ _ _ _ (rat4_tower cfg False)). Qed.
Theorem C43_tower_euclidean_partial : forall (cfg : Cfg) (p : Prop) (E : Type)
    (R : idomainType) (rep : E -> R -> Prop) (AS : assoc_struct R) (S : eucl_struct R)
    (A : EuclAlg E), tower_eucl cfg p rep AS S A ->
  closed_eucl_alg cfg p (fun x => exists u, rep x u) A.
Proof. exact tower_eucl_closed. Qed.
Print Assumptions C43_tower_euclidean_partial.
Example C43_tower_euclidean_partial_case cfg :
  closed_eucl_alg cfg False (fun x => exists u, poly_of rat4_rep x u) (PolyEucl (Rat4 cfg)).
Proof. exact: (C43_tower_euclidean_partial _ _ _ _ _ _ _ _ (TE_poly (rat4_tower cfg False))). Qed.
Theorem C43_tower_domains_partial : forall (cfg : Cfg) (p : Prop) (E : Type)
    (R : idomainType) (rep : E -> R -> Prop) (AS : assoc_struct R) (A : IDomAlg E),
  tower_idom cfg p rep AS A -> closed_idom_alg cfg p (fun x => exists u, rep x u) A.
Proof. exact tower_idom_closed. Qed.
Print Assumptions C43_tower_domains_partial.
Example C43_tower_domains_partial_case cfg :
  closed_idom_alg cfg False (fun x => exists u, poly_of (poly_of zz_rep) x u) (PolyIDom (PolyIDom ZZ)).
Proof. exact: (C43_tower_domains_partial _ _ _ _ _ _ _ (zxy_tower cfg False)). Qed.
Theorem C43_tower_rings_partial : forall (cfg : Cfg) (p : Prop), Z.le 2 (ptr_bits cfg) ->
  forall (E : Type) (V : zmodType) (rep : E -> V -> Prop) (op : V -> V -> V) (e : V)
    (A : RingAlg E), tower_ring cfg p rep op e A ->
  closed_ring_alg cfg p (fun x => exists u, rep x u) A.
Proof. exact tower_ring_closed. Qed.
Print Assumptions C43_tower_rings_partial.
(** A polynomial over the field with four elements; 6/4 is returned reduced. *)
Example C43_case cfg :
  [/\ returns (mul (PolyRing (GF4 cfg)) [:: [:: 0; 1]; [:: 1]]%Z [:: [:: 1; 1]; [:: 1]]%Z)
        [:: [:: 1]; [:: 1]; [:: 1]]%Z,
      returns (contains (PolyRing (GF4 cfg)) [:: [:: 1]; [:: 1]; [:: 1]]%Z) true,
      returns (add (QQ cfg) (5, 4)%Z (1, 4)%Z) (3, 2)%Z &
      returns (contains (QQ cfg) (3, 2)%Z) true].
Proof. by split; run 30%nat. Qed.
