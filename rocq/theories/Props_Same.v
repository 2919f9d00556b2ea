(** * Props_Same.v -- C95: the contract of a structure fixes what its methods do, whatever
    the stored form of the elements.

    [transported rep1 rep2 phi x y] (SameSpec.v): the value that [y] denotes is [phi] of the
    value that [x] denotes. [..._par ok eq A A]: the calls of [A] do not depend on anything
    but their arguments. [pairs_off mem1 mem2 R]: each member of the first structure has
    exactly one partner, and no two have the same. *)

From mathcomp Require Import all_ssreflect all_algebra zify ssrZ.
From Coq Require Import ZArith Lia Znumtheory.
From Verif Require Import Rust RustFacts Traits MInts MConstr Spec PropSpec RingSpec NumSpec ModSpec.
From Verif Require Import TowerSpec ParSpec SameSpec.
From Verif Require Import PIntsZ PInts POrders PGroups PCases Quotient PQuot PPoly PModular.
From Verif Require Import PTower PTowerEx PFF PPar PPar2 PPar4 PPar5 Refuted.
From Verif Require Import PSame PSame2 PSame3 PSame4 PSame5 PSameEx.

Import GRing.Theory.
Local Open Scope ring_scope.

Theorem C95_monoids : forall (E1 E2 : Type) (V1 V2 : eqType) (rep1 : E1 -> V1 -> Prop)
    (rep2 : E2 -> V2 -> Prop) (phi : V1 -> V2) op1 e1 op2 e2 (A1 : MonoidAlg E1) (A2 : MonoidAlg E2),
  monoid_embedding op1 e1 op2 e2 phi ->
  associative op2 -> left_id e2 op2 -> right_id e2 op2 ->
  monoid_alg_spec False rep1 op1 e1 A1 -> monoid_alg_spec False rep2 op2 e2 A2 ->
  monoid_alg_par eq A1 A1 -> monoid_alg_par eq A2 A2 ->
  monoid_alg_par (transported rep1 rep2 phi) A1 A2.
Proof.
exact (fun E1 E2 V1 V2 rep1 rep2 phi op1 e1 op2 e2 A1 A2 hE =>
  @same_monoids E1 E2 V1 V2 rep1 rep2 phi (em_inj hE) op1 e1 op2 e2 A1 A2 hE).
Qed.
Print Assumptions C95_monoids.
(** Cubes of integers multiply like the integers. *)
Example C95_monoids_case : monoid_alg_par (transported zz_rep zz_rep cube) ZZ ZZ.
Proof.
have hm := ri_mon_ok (zz_ring (mkCfg true true 64)).
have hs := ri_monoid_alg_par (id_ring_alg_par (eu_idom_alg_par (zz_settled (usual_isize (mkCfg true true 64))))).
by apply: (C95_monoids _ _ _ _ _ _ _ _ _ _ _ ZZ ZZ cube_embedding);
  [exact: Z.mul_assoc|exact: Z.mul_1_l|exact: Z.mul_1_r|..].
Qed.

Theorem C95_groups : forall (c : Cfg) (E1 E2 : Type) (V1 V2 : eqType) (rep1 : E1 -> V1 -> Prop)
    (rep2 : E2 -> V2 -> Prop) (phi : V1 -> V2) op1 e1 inv1 op2 e2 inv2
    (A1 : GroupAlg E1) (A2 : GroupAlg E2),
  monoid_embedding op1 e1 op2 e2 phi ->
  associative op2 -> left_id e2 op2 -> right_id e2 op2 ->
  (forall x u, rep1 x u -> phi (inv1 u) = inv2 (phi u)) ->
  group_alg_spec c False rep1 op1 e1 inv1 A1 -> group_alg_spec c False rep2 op2 e2 inv2 A2 ->
  group_alg_par (usual_isize c) eq A1 A1 -> group_alg_par (usual_isize c) eq A2 A2 ->
  group_alg_par (usual_isize c) (transported rep1 rep2 phi) A1 A2.
Proof.
exact (fun c E1 E2 V1 V2 rep1 rep2 phi op1 e1 inv1 op2 e2 inv2 A1 A2 hE =>
  @same_groups c E1 E2 V1 V2 rep1 rep2 phi (em_inj hE) op1 e1 inv1 op2 e2 inv2 A1 A2 hE).
Qed.
Print Assumptions C95_groups.
(** Negation maps the additive group of the integers to itself. *)
Example C95_groups_case c : group_alg_par (usual_isize c) (transported zz_rep zz_rep Z.opp)
  (AdditiveGroup c (ring_abelian ZZ)) (AdditiveGroup c (ring_abelian ZZ)).
Proof.
have s : group_alg_par (usual_isize c) eq (AdditiveGroup c (ring_abelian ZZ)) (AdditiveGroup c (ring_abelian ZZ)).
  by apply: par_additive_group; case: (id_ring_alg_par (eu_idom_alg_par (zz_settled (usual_isize c)))) => -[d _ _] ? ? _; split.
by apply: (C95_groups c _ _ _ _ _ _ _ _ _ _ _ _ _ _ _ opp_embedding _ _ _ _ (zz_group c) (zz_group c)) => //;
  [exact: Z.add_assoc|exact: Z.add_0_r].
Qed.

Theorem C95_abelian : forall (c : Cfg) (E1 E2 : Type) (V1 V2 : zmodType) (rep1 : E1 -> V1 -> Prop)
    (rep2 : E2 -> V2 -> Prop) (phi : {additive V1 -> V2}) (A1 : AbelianAlg E1) (A2 : AbelianAlg E2),
  injective phi ->
  abelian_alg_spec c False rep1 A1 -> abelian_alg_spec c False rep2 A2 ->
  abelian_alg_par (usual_isize c) eq A1 A1 -> abelian_alg_par (usual_isize c) eq A2 A2 ->
  abelian_alg_par (usual_isize c) (transported rep1 rep2 phi) A1 A2.
Proof. exact same_abelians. Qed.
Print Assumptions C95_abelian.
(** Doubling. *)
Example C95_abelian_case c : abelian_alg_par (usual_isize c) (transported zz_rep zz_rep twice)
  (ring_abelian ZZ) (ring_abelian ZZ).
Proof.
have s : abelian_alg_par (usual_isize c) eq (ring_abelian ZZ) (ring_abelian ZZ).
  by case: (id_ring_alg_par (eu_idom_alg_par (zz_settled (usual_isize c)))) => -[d _ _] ? ? _; split.
by apply: (C95_abelian c _ _ _ _ _ _ twice_additive _ _ twice_inj (zz_abelian c) (zz_abelian c)).
Qed.

Theorem C95_rings : forall (c : Cfg) (E1 E2 : Type) (V1 V2 : ringType) (rep1 : E1 -> V1 -> Prop)
    (rep2 : E2 -> V2 -> Prop) (phi : {rmorphism V1 -> V2}) (A1 : RingAlg E1) (A2 : RingAlg E2),
  monoid_embedding *%R 1 *%R 1 phi ->
  ring_alg_spec c False rep1 *%R 1 A1 -> ring_alg_spec c False rep2 *%R 1 A2 ->
  ring_alg_par (usual_isize c) eq A1 A1 -> ring_alg_par (usual_isize c) eq A2 A2 ->
  ring_alg_par (usual_isize c) (transported rep1 rep2 phi) A1 A2.
Proof. exact same_rings. Qed.
Print Assumptions C95_rings.
(** Squaring maps the field with 4 elements to itself. *)
Example C95_rings_case c :
  ring_alg_par (usual_isize c) (transported gf4_rep gf4_rep gf4_square) (F4 c) (F4 c).
Proof.
have h := id_ring_ok (eu_idom_ok (fi_eucl_ok (finite_field_contract (gf4_tower c)))).
have s := id_ring_alg_par (eu_idom_alg_par (fi_eucl_alg_par (tower_settled (gf4_tower c)))).
by apply: C95_rings => //; exact: field_embedding.
Qed.

(** A homomorphism of fields needs no further condition. *)
Theorem C95_fields : forall (c : Cfg) (E1 E2 : Type) (F1 F2 : fieldType) (rep1 : E1 -> F1 -> Prop)
    (rep2 : E2 -> F2 -> Prop) (phi : {rmorphism F1 -> F2}) (A1 : RingAlg E1) (I1 : Field E1)
    (A2 : RingAlg E2) (I2 : Field E2),
  field_alg_spec c False rep1 (field_alg A1 I1) -> field_alg_spec c False rep2 (field_alg A2 I2) ->
  field_alg_par (usual_isize c) eq (field_alg A1 I1) (field_alg A1 I1) ->
  field_alg_par (usual_isize c) eq (field_alg A2 I2) (field_alg A2 I2) ->
  field_alg_par (usual_isize c) (transported rep1 rep2 phi) (field_alg A1 I1) (field_alg A2 I2).
Proof. exact same_fields. Qed.
Print Assumptions C95_fields.
Example C95_fields_case c :
  field_alg_par (usual_isize c) (transported gf4_rep gf4_rep gf4_square) (F4 c) (F4 c).
Proof.
have h := finite_field_contract (gf4_tower c); have s := tower_settled (gf4_tower c).
exact: (C95_fields c _ _ _ _ _ _ gf4_square _ _ _ _ h h s s).
Qed.

Theorem C95_lattices : forall (E1 E2 : Type) (V1 V2 : eqType) (rep1 : E1 -> V1 -> Prop)
    (rep2 : E2 -> V2 -> Prop) (le1 : rel V1) (le2 : rel V2) (phi : V1 -> V2),
  bijective phi -> (forall u v, le2 (phi u) (phi v) = le1 u v) ->
  (forall x u, rep1 x u -> exists y, rep2 y (phi u)) ->
  forall (A1 : LatticeAlg E1) (A2 : LatticeAlg E2),
  lattice_alg_spec False rep1 le1 A1 -> lattice_alg_spec False rep2 le2 A2 ->
  lattice_alg_par eq A1 A1 -> lattice_alg_par eq A2 A2 ->
  lattice_alg_par (transported rep1 rep2 phi) A1 A2.
Proof. exact same_lattices. Qed.
Print Assumptions C95_lattices.
(** Adding 1 keeps the order of the integers. *)
Example C95_lattices_case : lattice_alg_par (transported zz_rep zz_rep (Z.add 1)) ZZ_lattice ZZ_lattice.
Proof.
apply: (C95_lattices _ _ _ _ _ _ Z.leb Z.leb _ _ _ _ ZZ_lattice ZZ_lattice) => //.
- by exists (Z.add (-1)%Z) => x; rewrite Z.add_assoc.
- by move=> u v; apply/idP/idP => /Z.leb_le h; apply/Z.leb_le; lia.
- by move=> x u _; exists (1 + u)%Z.
- exact: ZZ_lattice_ok.
- exact: ZZ_lattice_ok.
- exact: zz_lattice_settled.
- exact: zz_lattice_settled.
Qed.

(** Associated moduli give the same quotient, from any two implementations of the base. *)
Theorem C95_QuotientRing : forall (c : Cfg) (E1 E2 : Type) (R : idomainType) (rep1 : E1 -> R -> Prop)
    (rep2 : E2 -> R -> Prop) (AS1 AS2 : assoc_struct R) (S1 S2 : eucl_struct R)
    (A1 : EuclAlg E1) (A2 : EuclAlg E2),
  eucl_alg_spec c False rep1 AS1 S1 A1 -> eucl_alg_spec c False rep2 AS2 S2 A2 ->
  eucl_alg_par (usual_isize c) eq A1 A1 -> eucl_alg_par (usual_isize c) eq A2 A2 ->
  forall (m1 m2 : R) (x1 : E1) (x2 : E2),
  dvds m2 m1 -> dvds m1 m2 -> rep1 x1 m1 -> rep2 x2 m2 -> m1 != 0 -> m1 \isn't a GRing.unit ->
  ring_alg_par (usual_isize c) (same_class S1 S2 rep1 rep2 m1 m2)
    (QuotientRing c A1 x1) (QuotientRing c A2 x2).
Proof. exact same_quotient_rings. Qed.
Print Assumptions C95_QuotientRing.
Example C95_QuotientRing_case c : ring_alg_par (usual_isize c)
  (same_class Z_eucl Z_eucl zz_rep zz_rep 12%Z (-12)%Z) (QuotientRing c ZZ 12%Z) (QuotientRing c ZZ (-12)%Z).
Proof.
apply: (C95_QuotientRing c _ _ _ _ _ _ _ _ _ _ _ (ZZ_ok c False) (ZZ_ok c False) (zz_settled (usual_isize c)) (zz_settled (usual_isize c))) => //.
- by exists (-1)%Z.
- by exists (-1)%Z.
Qed.

Theorem C95_QuotientField : forall (c : Cfg) (E1 E2 : Type) (R : idomainType) (rep1 : E1 -> R -> Prop)
    (rep2 : E2 -> R -> Prop) (AS1 AS2 : assoc_struct R) (S1 S2 : eucl_struct R)
    (A1 : EuclAlg E1) (A2 : EuclAlg E2),
  eucl_alg_spec c False rep1 AS1 S1 A1 -> eucl_alg_spec c False rep2 AS2 S2 A2 ->
  eucl_alg_par (usual_isize c) eq A1 A1 -> eucl_alg_par (usual_isize c) eq A2 A2 ->
  forall (m1 m2 : R) (x1 : E1) (x2 : E2),
  dvds m2 m1 -> dvds m1 m2 -> rep1 x1 m1 -> rep2 x2 m2 -> irreducible_elt m1 ->
  field_alg_par (usual_isize c) (same_class S1 S2 rep1 rep2 m1 m2)
    (QuotientField c A1 x1) (QuotientField c A2 x2).
Proof. exact same_quotient_fields. Qed.
Print Assumptions C95_QuotientField.
Example C95_QuotientField_case c : field_alg_par (usual_isize c)
  (same_class Z_eucl Z_eucl zz_rep zz_rep 3%Z (-3)%Z) (QuotientField c ZZ 3%Z) (QuotientField c ZZ (-3)%Z).
Proof.
apply: (C95_QuotientField c _ _ _ _ _ _ _ _ _ _ _ (ZZ_ok c False) (ZZ_ok c False) (zz_settled (usual_isize c)) (zz_settled (usual_isize c))) => //.
- by exists (-1)%Z.
- by exists (-1)%Z.
- exact: prime_irreducible prime_3.
Qed.

(** One finite field acts inside another exactly when the sizes allow it. *)
Theorem C95_finite_fields : forall (c : Cfg) (E1 E2 : Type) (F1 F2 : fieldType)
    (rep1 : E1 -> F1 -> Prop) (rep2 : E2 -> F2 -> Prop) (A1 : FieldAlg E1) (A2 : FieldAlg E2)
    (k1 k2 : nat),
  finite_field c rep1 A1 k1 -> finite_field c rep2 A2 k2 ->
  (exists R : E1 -> E2 -> Prop,
     pairs_off (fun x => exists u, rep1 x u) (fun y => exists v, rep2 y v) R /\
     field_alg_par (usual_isize c) R A1 A2) <-> exists j, k2 = expn k1 j.
Proof.
exact (fun c E1 E2 F1 F2 rep1 rep2 A1 A2 k1 k2 h1 h2 => conj
  (fun h => let: ex_intro R (conj hp hR) := h in sizes h1 h2 hp hR)
  (fun h => let: ex_intro j kk := h in
    let: ex_intro R (And3 hp hR _) := towers_embed h1 h2 kk in ex_intro _ R (conj hp hR))).
Qed.
Print Assumptions C95_finite_fields.
(** 4 elements in 16, not 4 in 9. *)
Example C95_finite_fields_case c :
  (exists R : seq bool -> seq (seq bool) -> Prop,
     pairs_off (fun x => exists u, gf4_rep x u) (fun y => exists v, gf16_rep y v) R /\
     field_alg_par (usual_isize c) R (F4 c) (F16 c)) /\
  ~ (exists R : seq bool -> seq Z -> Prop,
     pairs_off (fun x => exists u, gf4_rep x u) (fun y => exists v, gf9_rep y v) R /\
     field_alg_par (usual_isize c) R (F4 c) (F9 c)).
Proof.
split; first by apply/(C95_finite_fields _ _ _ _ _ _ _ _ _ _ _ (gf4_tower c) (gf16_tower c)); exists 2%nat.
move/(C95_finite_fields _ _ _ _ _ _ _ _ _ _ _ (gf4_tower c) (gf9_tower c)) => [[|j] h]; first by [].
by have := congr1 odd h; rewrite expnS oddM.
Qed.

(** Finite fields of one size are interchangeable. *)
Theorem C95_isomorphic : forall (c : Cfg) (E1 E2 : Type) (F1 F2 : fieldType)
    (rep1 : E1 -> F1 -> Prop) (rep2 : E2 -> F2 -> Prop) (A1 : FieldAlg E1) (A2 : FieldAlg E2)
    (k : nat),
  finite_field c rep1 A1 k -> finite_field c rep2 A2 k ->
  exists R : E1 -> E2 -> Prop,
  [/\ pairs_off (fun x => exists u, rep1 x u) (fun y => exists v, rep2 y v) R,
      exhausts (fun y => exists v, rep2 y v) R &
      field_alg_par (usual_isize c) R A1 A2].
Proof.
exact (fun c E1 E2 F1 F2 rep1 rep2 A1 A2 k h1 h2 =>
  let: ex_intro R (And3 hp hR he) := towers_embed h1 h2 (esym (expn1 k)) in
  ex_intro _ R (And3 hp (he erefl) hR)).
Qed.
Print Assumptions C95_isomorphic.
(** Modulo x^2 + 1 and modulo x^2 + x + 2 over the field with 3 elements. *)
Example C95_isomorphic_case c : exists R : seq Z -> seq Z -> Prop,
  [/\ pairs_off (fun x => exists u, gf9_rep x u) (fun y => exists v, gf9_rep' y v) R,
      exhausts (fun y => exists v, gf9_rep' y v) R & field_alg_par (usual_isize c) R (F9 c) (F9' c)].
Proof. exact: C95_isomorphic (gf9_tower c) (gf9_tower' c). Qed.

(** The non-zero elements of a finite field multiply as residues modulo k - 1 add. *)
Theorem C95_cyclic : forall (c : Cfg) (E : Type) (F : fieldType) (rep : E -> F -> Prop)
    (A : FieldAlg E) (k : nat),
  finite_field c rep A k -> (2 < k)%nat ->
  exists R : Z -> E -> Prop,
  [/\ pairs_off (residue_z (Z.of_nat k.-1)) (fun y => exists2 v, rep y v & v != 0) R,
      exhausts (fun y => exists2 v, rep y v & v != 0) R &
      group_alg_par (usual_isize c) R
        (AdditiveGroup c (ring_abelian (QuotientRing c ZZ (Z.of_nat k.-1)))) (MultiplicativeGroup c A)].
Proof. exact cyclic_group. Qed.
Print Assumptions C95_cyclic.
Example C95_cyclic_case c : exists R : Z -> seq (seq bool) -> Prop,
  [/\ pairs_off (residue_z 15%Z) (fun y => exists2 v, gf16_rep y v & v != 0) R,
      exhausts (fun y => exists2 v, gf16_rep y v & v != 0) R &
      group_alg_par (usual_isize c) R
        (AdditiveGroup c (ring_abelian (QuotientRing c ZZ 15%Z))) (MultiplicativeGroup c (F16 c))].
Proof. exact: (C95_cyclic c _ _ _ _ _ (gf16_tower c)). Qed.
