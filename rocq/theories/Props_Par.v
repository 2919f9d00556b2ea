(** * Props_Par.v -- C71, C72, C73: the constructions use their base through its methods only.

    [alike R m1 m2] (ParSpec.v): the two calls return values related by [R], or both panic,
    or both run forever. [..._par ok R A B]: every method of [A] does like that of [B] on
    arguments related by [R] and on the isize numbers that satisfy [ok]. [pair_par R] and
    [vec_par R]: the parts are related. *)

From mathcomp Require Import all_ssreflect all_algebra zify ssrZ.
From Coq Require Import ZArith Znumtheory.
From Flocq Require Import Core BinarySingleNaN.
From Verif Require Import Rust Traits MInts MConstr MFloats NumSpec ModSpec ParSpec PPar PPar2.
From Verif Require Import PModProps.
From Verif Require Import PPar3 PPar4 PPar5 Refuted.

(** ** C71 *)

Theorem C71_alike : forall (A B : Type) (R : A -> B -> Prop) (m1 : M A) (m2 : M B),
  alike R m1 m2 ->
  [/\ (forall v, returns m1 v -> exists2 w, returns m2 w & R v w),
      (forall w, returns m2 w -> exists2 v, returns m1 v & R v w),
      (panics m1 <-> panics m2) & (diverges m1 <-> diverges m2)].
Proof. exact alike_calls. Qed.
Print Assumptions C71_alike.
(** Bits and residues: 1 + 1 = 0, and the inverse of 0 panics. *)
Example C71_alike_case c :
  alike bit_residue (add BB true true) (add (GF2 c) 1%Z 1%Z) /\
  alike bit_residue (finv BB false) (finv (GF2 c) 0%Z).
Proof. by have h := bits_gf2 c; split; [apply: (add_par h)|apply: (finv_par h)]. Qed.
Theorem C71_QuotientRing : forall (c : Cfg) (ok : Z -> Prop) (E1 E2 : Type) (R : E1 -> E2 -> Prop)
    (A1 : EuclAlg E1) (A2 : EuclAlg E2) (m1 : E1) (m2 : E2),
  eucl_alg_par ok R A1 A2 -> R m1 m2 ->
  ring_alg_par ok R (QuotientRing c A1 m1) (QuotientRing c A2 m2).
Proof. exact par_quotient_ring. Qed.
Print Assumptions C71_QuotientRing.
Example C71_QuotientRing_case c ok : ring_alg_par ok eq (QuotientRing c ZZ 12%Z) (QuotientRing c ZZ 12%Z).
Proof. by apply: C71_QuotientRing => //; exact: zz_settled. Qed.
Theorem C71_QuotientField : forall (c : Cfg) (ok : Z -> Prop) (E1 E2 : Type) (R : E1 -> E2 -> Prop)
    (A1 : EuclAlg E1) (A2 : EuclAlg E2) (m1 : E1) (m2 : E2),
  eucl_alg_par ok R A1 A2 -> R m1 m2 ->
  field_alg_par ok R (QuotientField c A1 m1) (QuotientField c A2 m2).
Proof. exact par_quotient_field. Qed.
Print Assumptions C71_QuotientField.
(** The polynomials modulo x^2 + x + 1. *)
Example C71_QuotientField_case c :
  field_alg_par (usual_isize c) (vec_par bit_residue)
    (QuotientField c (PolyEucl BB) [:: true; true; true])
    (QuotientField c (PolyEucl (GF2 c)) [:: 1; 1; 1]%Z).
Proof. by apply: C71_QuotientField; [exact: par_poly_eucl (bits_gf2 c)|]. Qed.
Theorem C71_ReducedFractions : forall (c : Cfg) (ok : Z -> Prop) (E1 E2 : Type) (R : E1 -> E2 -> Prop)
    (A1 : EuclAlg E1) (A2 : EuclAlg E2),
  eucl_alg_par ok R A1 A2 ->
  field_alg_par ok (pair_par R) (ReducedFractions c A1) (ReducedFractions c A2).
Proof. exact par_fractions. Qed.
Print Assumptions C71_ReducedFractions.
Example C71_ReducedFractions_case c :
  field_alg_par (usual_isize c) (pair_par (vec_par bit_residue))
    (ReducedFractions c (PolyEucl BB)) (ReducedFractions c (PolyEucl (GF2 c))).
Proof. by apply: C71_ReducedFractions; exact: par_poly_eucl (bits_gf2 c). Qed.
Theorem C71_DivisibilityOrder : forall (ok : Z -> Prop) (E1 E2 : Type) (R : E1 -> E2 -> Prop)
    (A1 : IDomAlg E1) (A2 : IDomAlg E2),
  idom_alg_par ok R A1 A2 ->
  bounded_alg_par R (DivisibilityOrder A1) (DivisibilityOrder A2).
Proof. exact par_divorder. Qed.
Print Assumptions C71_DivisibilityOrder.
Example C71_DivisibilityOrder_case c :
  bounded_alg_par (vec_par bit_residue) (DivisibilityOrder (PolyEucl BB))
    (DivisibilityOrder (PolyEucl (GF2 c))).
Proof.
by apply: (C71_DivisibilityOrder (usual_isize c)); exact: eu_idom_alg_par (par_poly_eucl (bits_gf2 c)).
Qed.
Theorem C71_DivisibilityLattice : forall (ok : Z -> Prop) (E1 E2 : Type) (R : E1 -> E2 -> Prop)
    (A1 : EuclAlg E1) (A2 : EuclAlg E2),
  eucl_alg_par ok R A1 A2 ->
  lattice_alg_par R (DivisibilityLattice A1) (DivisibilityLattice A2).
Proof. exact par_divlattice. Qed.
Print Assumptions C71_DivisibilityLattice.
Example C71_DivisibilityLattice_case c :
  lattice_alg_par (vec_par bit_residue) (DivisibilityLattice (PolyEucl BB))
    (DivisibilityLattice (PolyEucl (GF2 c))).
Proof. by apply: (C71_DivisibilityLattice (usual_isize c)); exact: par_poly_eucl (bits_gf2 c). Qed.
Theorem C71_AdditiveGroup : forall (c : Cfg) (ok : Z -> Prop) (E1 E2 : Type) (R : E1 -> E2 -> Prop)
    (A1 : AbelianAlg E1) (A2 : AbelianAlg E2),
  abelian_alg_par ok R A1 A2 ->
  group_alg_par ok R (AdditiveGroup c A1) (AdditiveGroup c A2).
Proof. exact par_additive_group. Qed.
Print Assumptions C71_AdditiveGroup.
Example C71_AdditiveGroup_case c :
  group_alg_par (usual_isize c) bit_residue (AdditiveGroup c (ring_abelian BB))
    (AdditiveGroup c (ring_abelian (GF2 c))).
Proof.
have [hM hC hG _] := id_ring_alg_par (eu_idom_alg_par (fi_eucl_alg_par (bits_gf2 c))).
by apply: C71_AdditiveGroup; split=> //; exact: mo_domain_par hM.
Qed.
Theorem C71_MultiplicativeGroup : forall (c : Cfg) (ok : Z -> Prop) (E1 E2 : Type) (R : E1 -> E2 -> Prop)
    (A1 : MonoidAlg E1) (A2 : MonoidAlg E2),
  monoid_alg_par R A1 A2 ->
  group_alg_par ok R (MultiplicativeGroup c A1) (MultiplicativeGroup c A2).
Proof. exact par_multiplicative. Qed.
Print Assumptions C71_MultiplicativeGroup.
Example C71_MultiplicativeGroup_case c :
  group_alg_par (usual_isize c) bit_residue (MultiplicativeGroup c (ri_mon BB))
    (MultiplicativeGroup c (ri_mon (GF2 c))).
Proof. by apply: C71_MultiplicativeGroup; case: (id_ring_alg_par (eu_idom_alg_par (fi_eucl_alg_par (bits_gf2 c)))). Qed.
Theorem C71_VectorRing : forall (c : Cfg) (ok : Z -> Prop) (E1 E2 : Type) (R : E1 -> E2 -> Prop) (n : nat)
    (A1 : RingAlg E1) (A2 : RingAlg E2),
  ring_alg_par ok R A1 A2 ->
  ring_alg_par ok (vec_par R) (VectorRing c n A1) (VectorRing c n A2).
Proof. exact par_vector_ring. Qed.
Print Assumptions C71_VectorRing.
Example C71_VectorRing_case c :
  ring_alg_par (usual_isize c) (vec_par bit_residue) (VectorRing c 3 BB) (VectorRing c 3 (GF2 c)).
Proof. by apply: C71_VectorRing; exact: id_ring_alg_par (eu_idom_alg_par (fi_eucl_alg_par (bits_gf2 c))). Qed.
Theorem C71_VectorGroup : forall (c : Cfg) (ok : Z -> Prop) (E1 E2 : Type) (R : E1 -> E2 -> Prop) (n : nat)
    (A1 : GroupAlg E1) (A2 : GroupAlg E2),
  group_alg_par ok R A1 A2 ->
  group_alg_par ok (vec_par R) (vector_group c n A1) (vector_group c n A2).
Proof. exact par_vector_group. Qed.
Print Assumptions C71_VectorGroup.
Example C71_VectorGroup_case c :
  group_alg_par (usual_isize c) (vec_par bit_residue)
    (vector_group c 3 (MultiplicativeGroup c (ri_mon BB)))
    (vector_group c 3 (MultiplicativeGroup c (ri_mon (GF2 c)))).
Proof. by apply: C71_VectorGroup; exact: C71_MultiplicativeGroup_case. Qed.
Theorem C71_VectorLattice : forall (E1 E2 : Type) (R : E1 -> E2 -> Prop) (n : nat)
    (A1 : LatticeAlg E1) (A2 : LatticeAlg E2),
  lattice_alg_par R A1 A2 ->
  lattice_alg_par (vec_par R) (VectorLattice n A1) (VectorLattice n A2).
Proof. exact par_vector_lattice. Qed.
Print Assumptions C71_VectorLattice.
Example C71_VectorLattice_case c :
  lattice_alg_par (vec_par (vec_par bit_residue)) (VectorLattice 3 (DivisibilityLattice (PolyEucl BB)))
    (VectorLattice 3 (DivisibilityLattice (PolyEucl (GF2 c)))).
Proof. by apply: C71_VectorLattice; exact: C71_DivisibilityLattice_case. Qed.
Theorem C71_VectorBoolean : forall (E1 E2 : Type) (R : E1 -> E2 -> Prop) (n : nat)
    (A1 : BooleanAlg E1) (A2 : BooleanAlg E2),
  boolean_alg_par R A1 A2 ->
  boolean_alg_par (vec_par R) (VectorBoolean n A1) (VectorBoolean n A2).
Proof. exact par_vector_boolean. Qed.
Print Assumptions C71_VectorBoolean.
Example C71_VectorBoolean_case :
  boolean_alg_par (vec_par eq) (VectorBoolean 3 BB_boolean) (VectorBoolean 3 BB_boolean).
Proof.
apply: C71_VectorBoolean; split; first split; first split.
all: by split; repeat intro; subst; apply: par_const.
Qed.
Theorem C71_PolyRing : forall (ok : Z -> Prop) (E1 E2 : Type) (R : E1 -> E2 -> Prop)
    (A1 : RingAlg E1) (A2 : RingAlg E2),
  ring_alg_par ok R A1 A2 ->
  ring_alg_par ok (vec_par R) (PolyRing A1) (PolyRing A2).
Proof. exact par_poly_ring. Qed.
Print Assumptions C71_PolyRing.
Example C71_PolyRing_case c :
  ring_alg_par (usual_isize c) (vec_par bit_residue) (PolyRing BB) (PolyRing (GF2 c)).
Proof. by apply: C71_PolyRing; exact: id_ring_alg_par (eu_idom_alg_par (fi_eucl_alg_par (bits_gf2 c))). Qed.
Theorem C71_PolyIDom : forall (ok : Z -> Prop) (E1 E2 : Type) (R : E1 -> E2 -> Prop)
    (A1 : IDomAlg E1) (A2 : IDomAlg E2),
  idom_alg_par ok R A1 A2 ->
  idom_alg_par ok (vec_par R) (PolyIDom A1) (PolyIDom A2).
Proof. exact par_poly_idom. Qed.
Print Assumptions C71_PolyIDom.
Example C71_PolyIDom_case c :
  idom_alg_par (usual_isize c) (vec_par bit_residue) (PolyIDom BB) (PolyIDom (GF2 c)).
Proof. by apply: C71_PolyIDom; exact: eu_idom_alg_par (fi_eucl_alg_par (bits_gf2 c)). Qed.
Theorem C71_PolyEucl : forall (ok : Z -> Prop) (E1 E2 : Type) (R : E1 -> E2 -> Prop)
    (A1 : FieldAlg E1) (A2 : FieldAlg E2),
  field_alg_par ok R A1 A2 ->
  eucl_alg_par ok (vec_par R) (PolyEucl A1) (PolyEucl A2).
Proof. exact par_poly_eucl. Qed.
Print Assumptions C71_PolyEucl.
Example C71_PolyEucl_case c :
  eucl_alg_par (usual_isize c) (vec_par bit_residue) (PolyEucl BB) (PolyEucl (GF2 c)).
Proof. by apply: C71_PolyEucl; exact: bits_gf2. Qed.
Theorem C71_MatrixRing : forall (c : Cfg) (ok : Z -> Prop) (E1 E2 : Type) (R : E1 -> E2 -> Prop)
    (A1 : FieldAlg E1) (A2 : FieldAlg E2) (n : nat),
  field_alg_par ok R A1 A2 -> ok 1%Z ->
  ring_alg_par ok (vec_par R) (MatrixRing c A1 n) (MatrixRing c A2 n).
Proof. exact par_matrix_ring. Qed.
Print Assumptions C71_MatrixRing.
Example C71_MatrixRing_case :
  ring_alg_par (usual_isize debug64) (vec_par bit_residue) (MatrixRing debug64 BB 3)
    (MatrixRing debug64 (GF2 debug64) 3).
Proof. by apply: C71_MatrixRing; [exact: bits_gf2|split; vm_compute]. Qed.
Theorem C71_determinant : forall (ok : Z -> Prop) (E1 E2 : Type) (R : E1 -> E2 -> Prop)
    (A1 : FieldAlg E1) (A2 : FieldAlg E2) (n : nat),
  field_alg_par ok R A1 A2 ->
  forall v v', vec_par R v v' -> alike R (determinant A1 n v) (determinant A2 n v').
Proof. exact par_determinant. Qed.
Print Assumptions C71_determinant.
(** Below the bits and the residues modulo 2 are related, see C73. *)
Example C71_case :
  field_alg_par (usual_isize debug64) bit_residue BB (GF2 debug64) /\
  [/\ returns (mul (QuotientField debug64 (PolyEucl BB) [:: true; true; true])
                [:: false; true] [:: true; true]) [:: true],
      returns (mul (QuotientField debug64 (PolyEucl (GF2 debug64)) [:: 1; 1; 1]%Z)
                [:: 0; 1]%Z [:: 1; 1]%Z) [:: 1]%Z,
      vec_par bit_residue [:: true] [:: 1]%Z,
      panics (finv (QuotientField debug64 (PolyEucl BB) [:: true; true; true]) [::]) &
      panics (finv (QuotientField debug64 (PolyEucl (GF2 debug64)) [:: 1; 1; 1]%Z) [::])].
Proof. by split; [exact: bits_gf2|split; [run 20%nat|run 20%nat|split|run 20%nat|run 20%nat]]. Qed.

(** ** C72: equal floats are interchangeable *)

(** The relation is [equals] on the members. *)
Theorem C72_equals : forall (prec emax : Z) (x y : binary_float prec emax),
  is_finite x -> (Beqb x y <-> same_float x y).
Proof. exact same_equals. Qed.
Print Assumptions C72_equals.
Example C72_equals_case :
  is_finite (B754_zero true : f64) /\ same_float (B754_zero true : f64) (B754_zero false).
Proof. by split=> //; right; exists true, false. Qed.
Theorem C72_field : forall (c : Cfg) (prec emax : Z) (ok : Z -> Prop) (hp : Prec_gt_0 prec)
    (he : Prec_lt_emax prec emax),
  field_alg_par ok (same_float (emax := emax)) (ApproxFloats c hp he) (ApproxFloats c hp he).
Proof. exact floats_field_par. Qed.
Print Assumptions C72_field.
(** Whatever min and max return for 0.0 and -0.0. *)
Theorem C72_lattice : forall (prec emax : Z)
    (tie1 tie2 : binary_float prec emax -> binary_float prec emax -> bool),
  lattice_alg_par (same_float (emax := emax)) (ApproxFloats_lattice tie1)
    (ApproxFloats_lattice tie2).
Proof. exact floats_lattice_par. Qed.
Print Assumptions C72_lattice.
Theorem C72_polynomials : forall (c : Cfg) (prec emax : Z) (ok : Z -> Prop) (hp : Prec_gt_0 prec)
    (he : Prec_lt_emax prec emax),
  eucl_alg_par ok (vec_par (same_float (emax := emax))) (PolyEucl (ApproxFloats c hp he))
    (PolyEucl (ApproxFloats c hp he)).
Proof. exact (fun c prec emax ok hp he => par_poly_eucl (floats_field_par c ok hp he)). Qed.
Print Assumptions C72_polynomials.
Theorem C72_matrices : forall (c : Cfg) (prec emax : Z) (ok : Z -> Prop) (hp : Prec_gt_0 prec)
    (he : Prec_lt_emax prec emax) (n : nat), ok 1%Z ->
  ring_alg_par ok (vec_par (same_float (emax := emax))) (MatrixRing c (ApproxFloats c hp he) n)
    (MatrixRing c (ApproxFloats c hp he) n).
Proof.
exact (fun c prec emax ok hp he n ok1 => par_matrix_ring c n (floats_field_par c ok hp he) ok1).
Qed.
Print Assumptions C72_matrices.
(** The two products are different floats. *)
Example C72_case : let z := B754_zero : bool -> f64 in
  [/\ same_float (z false) (z true), z false <> z true,
      returns (mul (F64 debug64) (z false) (float_of_isize prec64 emax64 3)) (z false),
      returns (mul (F64 debug64) (z true) (float_of_isize prec64 emax64 3)) (z true) &
      panics (finv (F64 debug64) (z false)) /\ panics (finv (F64 debug64) (z true))].
Proof.
by cbv zeta; split; [right; exists false, true| |run 20%nat|run 20%nat|split; run 20%nat].
Qed.

(** ** C73: implementations of the same residues are interchangeable *)

Theorem C73_residues : forall (c : Cfg) (k : Z), Z.le 2 k -> forall A1 A2 : RingAlg Z,
  residue_ring c False k A1 -> residue_ring c False k A2 ->
  ring_alg_par (usual_isize c) eq A1 A1 -> ring_alg_par (usual_isize c) eq A2 A2 ->
  ring_alg_par (usual_isize c) (same_residue k) A1 A2.
Proof. exact residue_rings. Qed.
Print Assumptions C73_residues.
Example C73_residues_case c :
  ring_alg_par (usual_isize c) (same_residue 12) (QuotientRing c ZZ 12%Z) (QuotientRing c ZZ (-12)%Z).
Proof.
apply: C73_residues => //; try exact: (par_quotient_ring _ (zz_settled _)).
  exact: (zz_quotient c (m := 12)).
exact: (zz_quotient c (m := -12)).
Qed.
Theorem C73_signs : forall (c : Cfg) (m : Z), Z.le 2 (Z.abs m) ->
  ring_alg_par (usual_isize c) (same_residue (Z.abs m)) (QuotientRing c ZZ m)
    (QuotientRing c ZZ (- m)).
Proof. exact residues_signs. Qed.
Print Assumptions C73_signs.
Example C73_signs_case c :
  ring_alg_par (usual_isize c) (same_residue 12) (QuotientRing c ZZ 12%Z) (QuotientRing c ZZ (-12)%Z).
Proof. by apply: (C73_signs c 12). Qed.
Theorem C73_machine : forall (c : Cfg) (w m : Z), Z.le 4 w -> fits w m -> Z.le 2 (Z.abs m) ->
  Z.lt ((Z.abs m - 1) * (Z.abs m - 1)) (2 ^ (w - 1)) ->
  ring_alg_par (usual_isize c) (same_residue (Z.abs m)) (QuotientRing c ZZ m)
    (QuotientRing c (CheckedInts c w) m).
Proof. exact residues_machine. Qed.
Print Assumptions C73_machine.
Example C73_machine_case c :
  ring_alg_par (usual_isize c) (same_residue 12) (QuotientRing c ZZ 12%Z)
    (QuotientRing c (CheckedInts c 8) 12%Z).
Proof. by apply: (C73_machine c 8 12). Qed.
Theorem C73_field : forall (c : Cfg) (w q : Z), Z.le 4 w -> prime q ->
  Z.lt ((q - 1) * (q - 1)) (2 ^ (w - 1)) ->
  field_alg_par (usual_isize c) (same_residue q) (QuotientField c ZZ q)
    (QuotientField c (CheckedInts c w) q).
Proof. exact prime_fields. Qed.
Print Assumptions C73_field.
Example C73_case : [/\ Z.le 4 8, prime 3, Z.lt ((3 - 1) * (3 - 1)) (2 ^ (8 - 1)) &
  [/\ returns (fdiv (QuotientField debug64 ZZ 3%Z) 1%Z 2%Z) 2%Z,
      returns (fdiv (QuotientField debug64 (CheckedInts debug64 8) 3%Z) 1%Z 2%Z) 2%Z,
      returns (ztimes (QuotientRing debug64 ZZ 12%Z) (-5) 7%Z) 1%Z &
      returns (ztimes (QuotientRing debug64 ZZ (-12)%Z) (-5) 7%Z) 1%Z]].
Proof. by split; [|exact: prime_3| |split; run 20%nat]. Qed.
(** BB and GF2. *)
Theorem C73_bits : forall c : Cfg,
  field_alg_par (usual_isize c) bit_residue BB (GF2 c) /\
  field_alg_par (usual_isize c) bit_residue BB (QuotientField c ZZ 2%Z).
Proof. exact (fun c => conj (bits_gf2 c) (bits_zz c)). Qed.
Print Assumptions C73_bits.
(** So the matrices of bits and of residues, and the fields with 2^n elements. *)
Theorem C73_bit_matrices : forall (c : Cfg) (n : nat), usual_isize c 1%Z ->
  ring_alg_par (usual_isize c) (vec_par bit_residue) (MatrixRing c BB n) (MatrixRing c (GF2 c) n).
Proof. exact (fun c n ok1 => par_matrix_ring c n (bits_gf2 c) ok1). Qed.
Print Assumptions C73_bit_matrices.
Example C73_bit_matrices_case :
  ring_alg_par (usual_isize debug64) (vec_par bit_residue) (MatrixRing debug64 BB 2)
    (MatrixRing debug64 (GF2 debug64) 2).
Proof. by apply: C73_bit_matrices; split; vm_compute. Qed.
Theorem C73_bit_fields : forall (c : Cfg) (m1 : seq bool) (m2 : seq Z),
  vec_par bit_residue m1 m2 ->
  field_alg_par (usual_isize c) (vec_par bit_residue) (QuotientField c (PolyEucl BB) m1)
    (QuotientField c (PolyEucl (GF2 c)) m2).
Proof. exact (fun c m1 m2 h => par_quotient_field c (par_poly_eucl (bits_gf2 c)) h). Qed.
Print Assumptions C73_bit_fields.
Example C73_bit_case :
  [/\ usual_isize debug64 1%Z, vec_par bit_residue [:: true; true; true] [:: 1; 1; 1]%Z,
      returns (try_inv (MatrixRing debug64 BB 2) [:: true; true; false; true])
        (Some [:: true; true; false; true]) &
      returns (try_inv (MatrixRing debug64 (GF2 debug64) 2) [:: 1; 1; 0; 1]%Z)
        (Some [:: 1; 1; 0; 1]%Z)].
Proof. by split; [split; vm_compute| |run 20%nat|run 20%nat]. Qed.
