(** * Props_Vec.v -- the properties of VectorAlgebra (C30, C31).

    [vector_of rep v f] (RingSpec.v): the vector [v] has length [n] and lists members
    denoting the values of the function [f] on 0, ..., n - 1. *)

From mathcomp Require Import all_ssreflect all_algebra zify ssrZ.
From Coq Require Import ZArith.
From Verif Require Import Rust Traits MInts MConstr Spec PropSpec RingSpec NumSpec Laws.
From Verif Require Import PCases Wp.
From Verif Require Import PInts POrders PVec PLaws PDistr PMatProps POrdProps Refuted.

Import GRing.Theory.
Local Open Scope ring_scope.

(** ** C30: the direct power of a ring *)

Theorem C30_vector_of : forall (E : Type) (n : nat) (V : eqType) (rep : E -> V -> Prop)
    (v : seq E) (f : {ffun 'I_n -> V}),
  vector_of rep v f <-> size v = n /\ forall (i : 'I_n) d, rep (nth d v i) (f i).
Proof. exact vector_ofE. Qed.
Print Assumptions C30_vector_of.
(** (2, 5) lists the function with f 0 = 2 and f 1 = 5. *)
Example C30_vector_of_case :
  vector_of zz_rep [:: 2; 5]%Z [ffun i : 'I_2 => if i == ord0 then 2%Z else 5%Z].
Proof. by apply/C30_vector_of; split=> // -[[|[|//]] h] d; rewrite /zz_rep ffunE. Qed.
Theorem C30_methods : forall (cfg : Cfg) (p : Prop) (E : Type) (n : nat) (V : zmodType)
    (rep : E -> V -> Prop) (op : V -> V -> V) (e : V) (A : RingAlg E),
  ring_alg_spec cfg p rep op e A ->
  ring_methods p (@vector_of n E V rep) cfg (fun f g => [ffun i => op (f i) (g i)])
    [ffun => e] (VectorRing cfg n A).
Proof. exact vector_methods. Qed.
Print Assumptions C30_methods.
(** This and the next theorems, for vectors of three integers. *)
Example C30_methods_case cfg :
  ring_methods False (@vector_of 3 Z _ zz_rep) cfg (fun f g => [ffun i => f i * g i])
    [ffun => 1] (VectorRing cfg 3 ZZ).
Proof. exact: (C30_methods _ _ _ _ _ _ _ _ _ (zz_ring cfg)). Qed.
(** The contracts of Spec.v, for rings, groups, monoids and abelian groups. *)
Theorem C30_ring : forall (cfg : Cfg) (p : Prop) (E : Type) (n : nat) (V : zmodType)
    (rep : E -> V -> Prop) (op : V -> V -> V) (e : V) (A : RingAlg E),
  ring_alg_spec cfg p rep op e A ->
  ring_alg_spec cfg p (@vector_of n E V rep) (fun f g => [ffun i => op (f i) (g i)])
    [ffun => e] (VectorRing cfg n A).
Proof. exact VectorRing_ok. Qed.
Print Assumptions C30_ring.
Example C30_ring_case cfg :
  ring_alg_spec cfg False (@vector_of 3 Z _ zz_rep) (fun f g => [ffun i => f i * g i])
    [ffun => 1] (VectorRing cfg 3 ZZ).
Proof. exact: (C30_ring _ _ _ _ _ _ _ _ _ (zz_ring cfg)). Qed.
Theorem C30_monoid : forall (p : Prop) (E : Type) (n : nat) (V : eqType)
    (rep : E -> V -> Prop) (op : V -> V -> V) (e : V) (A : MonoidAlg E),
  monoid_alg_spec p rep op e A ->
  monoid_alg_spec p (@vector_of n E V rep) (fun f g => [ffun i => op (f i) (g i)])
    [ffun => e] (vector_monoid_alg n A).
Proof. exact vec_monoid_alg. Qed.
Print Assumptions C30_monoid.
Example C30_monoid_case :
  monoid_alg_spec False (@vector_of 3 Z _ zz_rep) (fun f g => [ffun i => f i * g i])
    [ffun => 1] (vector_monoid_alg 3 ZZ).
Proof. exact: (C30_monoid _ _ _ _ _ _ _ _ (ri_mon_ok (zz_ring debug64))). Qed.
Theorem C30_group : forall (cfg : Cfg) (p : Prop) (E : Type) (n : nat) (V : eqType)
    (rep : E -> V -> Prop) (op : V -> V -> V) (e : V),
  associative op -> left_id e op -> right_id e op ->
  forall (inv : V -> V) (A : GroupAlg E), group_alg_spec cfg p rep op e inv A ->
  group_alg_spec cfg p (@vector_of n E V rep) (fun f g => [ffun i => op (f i) (g i)])
    [ffun => e] (fun f => [ffun i => inv (f i)]) (vector_group cfg n A).
Proof. exact vec_group. Qed.
Print Assumptions C30_group.
(** Pairs of integers, with addition. *)
Example C30_group_case cfg :
  group_alg_spec cfg False (@vector_of 2 Z _ zz_rep) (fun f g => [ffun i => f i + g i])
    [ffun => 0] (fun f => [ffun i => - f i])
    (vector_group cfg 2 (AdditiveGroup cfg (ring_abelian ZZ))).
Proof. by apply: C30_group (zz_group cfg); [exact: addrA|exact: add0r|exact: addr0]. Qed.
Theorem C30_abelian : forall (cfg : Cfg) (p : Prop) (E : Type) (n : nat) (V : zmodType)
    (rep : E -> V -> Prop) (A : AbelianAlg E),
  abelian_alg_spec cfg p rep A ->
  abelian_alg_spec cfg p (@vector_of n E V rep) (vector_abelian_alg cfg n A).
Proof. exact vec_abelian. Qed.
Print Assumptions C30_abelian.
Example C30_abelian_case cfg :
  abelian_alg_spec cfg False (@vector_of 3 Z _ zz_rep)
    (vector_abelian_alg cfg 3 (ring_abelian ZZ)).
Proof. exact: (C30_abelian _ _ _ _ _ _ _ (zz_abelian cfg)). Qed.
(** The laws of a ring, as statements about calls of the methods. *)
Theorem C30_laws : forall (cfg : Cfg) (p : Prop) (E : Type) (n : nat) (V : zmodType)
    (rep : E -> V -> Prop) (op : V -> V -> V) (e : V) (A : RingAlg E),
  ring_alg_spec cfg p rep op e A -> Z.le 2 (ptr_bits cfg) ->
  associative op -> left_id e op -> right_id e op ->
  (forall a b c : V, op a (b + c) = op a b + op a c) ->
  (forall a b c : V, op (a + b) c = op a c + op b c) ->
  ring_alg_laws p (fun x => exists f, @vector_of n E V rep x f) cfg (VectorRing cfg n A).
Proof. exact vector_laws. Qed.
Print Assumptions C30_laws.
Example C30_laws_case :
  ring_alg_laws False (fun x => exists f, @vector_of 3 Z _ zz_rep x f) debug64
    (VectorRing debug64 3 ZZ).
Proof.
apply: C30_laws (zz_ring debug64) _ _ _ _ _ _ => //;
  [exact: mulrA|exact: mul1r|exact: mulr1|exact: mulrDr|exact: mulrDl].
Qed.
Theorem C30_contains : forall (p : Prop) (E : Type) (n : nat) (V : eqType)
    (rep : E -> V -> Prop) (A : Domain E), contains_exact p rep A ->
  contains_exact p (@vector_of n E V rep) (vector_domain n A).
Proof. exact vec_contains_exact. Qed.
Print Assumptions C30_contains.
Example C30_contains_case :
  contains_exact False (@vector_of 2 Z _ zz_rep) (vector_domain 2 ZZ).
Proof. exact: (C30_contains _ _ _ _ _ _ zz_contains). Qed.
(** Vectors of other lengths: [contains] returns false, everything else panics. *)
Theorem C30_lengths : forall (cfg : Cfg) (E : Type) (n : nat) (A : RingAlg E),
  [/\ checks_domain n (VectorRing cfg n A), checks_mult n (VectorRing cfg n A),
      checks_monoid n (VectorRing cfg n A) &
      checks_additive n (VectorRing cfg n A) (VectorRing cfg n A)].
Proof. exact vector_checks. Qed.
Print Assumptions C30_lengths.

(** Vectors of three integers; the vector (1, -1) is a unit of Z^2, (1, 2) is none;
    vectors of length zero; vectors of another length. *)
Example C30_base cfg : ring_alg_spec cfg False zz_rep *%R 1 ZZ.
Proof. exact (id_ring_ok (eu_idom_ok (ZZ_ok cfg False))). Qed.
Example C30_case cfg :
  [/\ returns (mul (VectorRing cfg 3 ZZ) [:: 2; 3; -1]%Z [:: 5; 0; 4]%Z) [:: 10; 0; -4]%Z,
      returns (try_inv (VectorRing cfg 2 ZZ) [:: 1; -1]%Z) (Some [:: 1; -1]%Z),
      returns (try_inv (VectorRing cfg 2 ZZ) [:: 1; 2]%Z) None,
      returns (int (VectorRing cfg 2 ZZ) (-3)) [:: -3; -3]%Z &
      returns (sub (VectorRing cfg 2 ZZ) [:: 1; 2]%Z [:: 0; 5]%Z) [:: 1; -3]%Z] /\
  [/\ returns (is_one (VectorRing cfg 0 ZZ) [::]) true,
      panics (mul (VectorRing cfg 2 ZZ) [:: 1; 2]%Z [:: 1; 2; 3]%Z),
      panics (equals (VectorRing cfg 2 ZZ) [:: 1; 2; 3]%Z [:: 1; 2; 3]%Z) &
      returns (contains (VectorRing cfg 2 ZZ) [:: 1; 2; 3]%Z) false].
Proof. by split; split; run 20%nat. Qed.

(** ** C31: the product of lattices and Boolean algebras *)

Theorem C31_lattice : forall (p : Prop) (E : Type) (n : nat) (V : eqType)
    (rep : E -> V -> Prop) (le : rel V) (A : LatticeAlg E), lattice_alg_spec p rep le A ->
  lattice_alg_spec p (@vector_of n E V rep)
    (fun f g => [forall i, le (f i) (g i)]) (VectorLattice n A).
Proof. exact vector_lattice_contract. Qed.
Print Assumptions C31_lattice.
(** This and the next theorems, for vectors of three bits or two integers. *)
Example C31_lattice_case :
  lattice_alg_spec False (@vector_of 3 bool _ bool_rep)
    (fun f g => [forall i, implb (f i) (g i)]) (VectorLattice 3 BB_boolean).
Proof. exact: (C31_lattice _ _ _ _ _ _ _ (ba_la_ok (BB_boolean_ok False))). Qed.
(** Coordinate by coordinate. *)
Theorem C31_meet_join : forall (p : Prop) (E : Type) (n : nat) (V : eqType)
    (rep : E -> V -> Prop) (le : rel V) (A : LatticeAlg E), lattice_alg_spec p rep le A ->
  forall x f y g, vector_of rep x f -> vector_of rep y g ->
  ensures p (meet (VectorLattice n A) x y) (fun z => exists2 h, @vector_of n E V rep z h &
    forall i, is_glb le (f i) (g i) (h i)) /\
  ensures p (join (VectorLattice n A) x y) (fun z => exists2 h, @vector_of n E V rep z h &
    forall i, is_lub le (f i) (g i) (h i)).
Proof. exact vector_meet_join. Qed.
Print Assumptions C31_meet_join.
Example C31_meet_join_case :
  ensures False (meet (VectorLattice 2 ZZ_lattice) [:: 2; 5]%Z [:: 3; 4]%Z)
    (fun z => exists2 h : {ffun 'I_2 -> Z}, vector_of zz_rep z h &
       forall i : 'I_2, is_glb (V := ssrZ.ZInstances.Z_eqType) Z.leb
         (nth 0%Z [:: 2; 5]%Z i) (nth 0%Z [:: 3; 4]%Z i) (h i)).
Proof.
have h v : size v = 2%N -> vector_of zz_rep v [ffun i : 'I_2 => nth 0%Z v i].
  by move=> vE; apply/C30_vector_of; split=> // i d; rewrite /zz_rep ffunE; apply: set_nth_default; rewrite vE.
have [g _] := C31_meet_join _ _ _ _ _ _ _ (ZZ_lattice_ok False) _ _ _ _
  (h [:: 2; 5]%Z erefl) (h [:: 3; 4]%Z erefl).
apply: ensures_mono g _ => z [f zf fE]; exists f => // i; have := fE i.
by rewrite !ffunE.
Qed.
Theorem C31_bounds : forall (p : Prop) (E : Type) (n : nat) (V : eqType)
    (rep : E -> V -> Prop) (le : rel V) (top bot : V) (A : BoundedOrder E),
  bounded_spec p rep le top bot A ->
  bounded_spec p (@vector_of n E V rep) (fun f g => [forall i, le (f i) (g i)])
    [ffun => top] [ffun => bot] (vector_bounded n A).
Proof. exact vector_bounds. Qed.
Print Assumptions C31_bounds.
Example C31_bounds_case :
  bounded_spec False (@vector_of 3 bool _ bool_rep) (fun f g => [forall i, implb (f i) (g i)])
    [ffun => true] [ffun => false] (vector_bounded 3 BB_boolean).
Proof. exact: (C31_bounds _ _ _ _ _ _ _ _ _ (ba_bo_ok (BB_boolean_ok False))). Qed.
Theorem C31_boolean : forall (p : Prop) (E : Type) (n : nat) (V : eqType)
    (rep : E -> V -> Prop) (le : rel V) (top bot : V) (A : BooleanAlg E),
  boolean_alg_spec p rep le top bot A ->
  boolean_alg_spec p (@vector_of n E V rep) (fun f g => [forall i, le (f i) (g i)])
    [ffun => top] [ffun => bot] (VectorBoolean n A).
Proof. exact vector_boolean_contract. Qed.
Print Assumptions C31_boolean.
Example C31_boolean_case :
  boolean_alg_spec False (@vector_of 3 bool _ bool_rep)
    (fun f g => [forall i, implb (f i) (g i)]) [ffun => true] [ffun => false]
    (VectorBoolean 3 BB_boolean).
Proof. exact: (C31_boolean _ _ _ _ _ _ _ _ _ (BB_boolean_ok False)). Qed.
(** The laws of a lattice, and the distributive ones, as statements about calls. *)
Theorem C31_laws : forall (p : Prop) (E : Type) (n : nat) (V : eqType)
    (rep : E -> V -> Prop) (le : rel V) (A : LatticeAlg E), lattice_alg_spec p rep le A ->
  lattice_alg_laws p (fun x => exists f, @vector_of n E V rep x f) (VectorLattice n A) /\
  (distributive_order le ->
   lattice_distributes p (fun x => exists f, @vector_of n E V rep x f)
     (VectorLattice n A) (VectorLattice n A)).
Proof. exact vector_lattice_laws. Qed.
Print Assumptions C31_laws.
Example C31_laws_case :
  lattice_distributes False (fun x => exists f : {ffun 'I_2 -> Z}, vector_of zz_rep x f)
    (VectorLattice 2 ZZ_lattice) (VectorLattice 2 ZZ_lattice).
Proof. exact: (proj2 (C31_laws _ _ 2 _ _ _ _ (ZZ_lattice_ok False)) Z_distributive). Qed.
(** Bit vectors obey all laws of Boolean algebras. *)
Theorem C31_bits : forall (p : Prop) (n : nat),
  boolean_alg_laws p (fun x : seq bool => size x = n) (VectorBoolean n BB_boolean).
Proof. exact vector_bool_laws. Qed.
Print Assumptions C31_bits.
Theorem C31_lengths : forall (E : Type) (n : nat) (A : LatticeAlg E),
  checks_domain n (VectorLattice n A) /\ checks_lattice n (VectorLattice n A) (VectorLattice n A).
Proof. exact vector_lattice_checks. Qed.
Print Assumptions C31_lengths.
(** The two-element Boolean algebra meets the contract; (0, 1) and (1, 0) are not
    comparable. *)
Example C31_base : boolean_alg_spec False bool_rep implb true false BB_boolean.
Proof. exact (BB_boolean_ok False). Qed.
Example C31_case :
  [/\ returns (leq (VectorBoolean 2 BB_boolean) [:: false; true] [:: true; true]) true,
      returns (comparable (VectorBoolean 2 BB_boolean) [:: false; true] [:: true; false]) false,
      returns (meet (VectorBoolean 3 BB_boolean) [:: true; true; false] [:: false; true; false])
        [:: false; true; false],
      returns (join (VectorBoolean 3 BB_boolean) [:: true; true; false] [:: false; true; false])
        [:: true; true; false] &
      returns (bnot (VectorBoolean 2 BB_boolean) [:: true; false]) [:: false; true]] /\
  [/\ returns (omax (VectorBoolean 2 BB_boolean)) [:: true; true],
      returns (omin (VectorBoolean 2 BB_boolean)) [:: false; false] &
      panics (meet (VectorBoolean 2 BB_boolean) [:: true] [:: true])].
Proof. by split; split; run 20%nat. Qed.
