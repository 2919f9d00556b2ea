(** * Props_Halt.v -- no call runs forever (C62).

    [halts Q m m]: the call [m] returns a value satisfying [Q] or panics. [prof_... ty A]
    (ProfSpec.v): [A c] is a structure built by the constructors of the crate with any
    parameters, compiled with profile [c], and [ty] says which values its element type
    has. [..._rel (@halts) every_num ty A A]: every method of [A] halts, for all arguments
    of the type, members or not, and all isize numbers, and returns values of the type. *)

From mathcomp Require Import all_ssreflect all_algebra zify ssrZ.
From Coq Require Import ZArith.
From Verif Require Import Rust Traits MInts MConstr MFloats ProfSpec HaltSpec.
From Verif Require Import ProfSpec.
From Verif Require Import PHalt3 PHaltF Refuted.

Theorem C62_euclidean : forall (c : Cfg) (E : Type) (ty : E -> Prop) (A : Cfg -> EuclAlg E),
  prof_eucl ty A ->
  [/\ eucl_alg_rel (@halts) every_num ty (A c) (A c),
      lattice_alg_rel (@halts) ty (DivisibilityLattice (A c)) (DivisibilityLattice (A c)) &
      forall m, ty m ->
      [/\ halts (fun _ => True) (quotient_ring_new (A c) m) (quotient_ring_new (A c) m),
          halts (fun _ => True) (quotient_field_new (A c) m) (quotient_field_new (A c) m) &
          halts (fun _ => True) (fractions_new (A c)) (fractions_new (A c))]].
Proof. exact halt_eucl_stmt. Qed.
Print Assumptions C62_euclidean.
(** Polynomials modulo 6, which is no prime. *)
Example C62_euclidean_case c :
  eucl_alg_rel (@halts) every_num (in_vec (fun _ => True))
    (PolyEucl (QuotientField c ZZ 6%Z)) (PolyEucl (QuotientField c ZZ 6%Z)).
Proof.
by have [] := C62_euclidean c _ _ (fun c => PolyEucl (QuotientField c ZZ 6%Z))
  (prof_eucl_poly (prof_QuotientField (m := 6%Z) prof_ZZ I)).
Qed.
Theorem C62_integral : forall (c : Cfg) (E : Type) (ty : E -> Prop) (A : Cfg -> IDomAlg E),
  prof_idom ty A ->
  idom_alg_rel (@halts) every_num ty (A c) (A c) /\
  bounded_alg_rel (@halts) ty (DivisibilityOrder (A c)) (DivisibilityOrder (A c)).
Proof. exact halt_idom_stmt. Qed.
Print Assumptions C62_integral.
Example C62_integral_case c :
  idom_alg_rel (@halts) every_num (in_vec (fun x => is_true (in_i 8 x)))
    (PolyIDom (CheckedInts c 8)) (PolyIDom (CheckedInts c 8)).
Proof.
have w2 : (2 <= 8)%Z by [].
by have [] := C62_integral c _ _ (fun c => PolyIDom (CheckedInts c 8))
  (prof_idom_poly (prof_idom_eucl (prof_CheckedInts w2))).
Qed.
Theorem C62_field : forall (c : Cfg) (E : Type) (ty : E -> Prop) (A : Cfg -> FieldAlg E),
  prof_field ty A ->
  field_alg_rel (@halts) every_num ty (A c) (A c) /\
  forall n v, in_vec ty v -> halts ty (determinant (A c) n v) (determinant (A c) n v).
Proof. exact halt_field_stmt. Qed.
Print Assumptions C62_field.
(** Fractions of 8-bit numbers, zero denominators included. *)
Example C62_field_case c :
  field_alg_rel (@halts) every_num (in_pair (fun x => is_true (in_i 8 x)))
    (ReducedFractions c (CheckedInts c 8)) (ReducedFractions c (CheckedInts c 8)) /\
  panics (contains (ReducedFractions debug64 (I8 debug64)) (1, 0)%Z).
Proof.
split; last run 20%nat.
have w2 : (2 <= 8)%Z by [].
by have [] := C62_field c _ _ _ (prof_ReducedFractions (prof_CheckedInts w2)).
Qed.
Theorem C62_ring : forall (c : Cfg) (mat : bool) (E : Type) (ty : E -> Prop)
    (A : Cfg -> RingAlg E), prof_ring mat ty A ->
  ring_alg_rel (@halts) every_num ty (A c) (A c).
Proof. exact halt_ring_all. Qed.
Print Assumptions C62_ring.
(** Matrices modulo 6. *)
Example C62_ring_case c :
  ring_alg_rel (@halts) every_num (in_vec (fun _ => True))
    (MatrixRing c (QuotientField c ZZ 6%Z) 2) (MatrixRing c (QuotientField c ZZ 6%Z) 2).
Proof.
exact: (C62_ring c true _ _ _
  (prof_MatrixRing 2 isT (prof_QuotientField (m := 6%Z) prof_ZZ I))).
Qed.
Theorem C62_group : forall (c : Cfg) (mat : bool) (E : Type) (ty : E -> Prop)
    (A : Cfg -> GroupAlg E), prof_group mat ty A ->
  group_alg_rel (@halts) every_num ty (A c) (A c).
Proof. exact halt_group_all. Qed.
Print Assumptions C62_group.
Example C62_group_case c :
  group_alg_rel (@halts) every_num (fun v => size v = 3%nat) (Permutations c 3) (Permutations c 3).
Proof. exact: (C62_group c true _ _ _ (prof_Permutations true 3)). Qed.
Theorem C62_naturals : semiring_alg_rel (@halts) (fun _ => True) NN NN.
Proof. exact halt_NN. Qed.
Print Assumptions C62_naturals.
Theorem C62_checked_uints : forall w : Z, Z.le 1 w ->
  semiring_alg_rel (@halts) (fun x => is_true (in_u w x)) (CheckedUints w) (CheckedUints w).
Proof. exact halt_CheckedUints. Qed.
Print Assumptions C62_checked_uints.
Example C62_checked_uints_case :
  semiring_alg_rel (@halts) (fun x => is_true (in_u 8 x)) (CheckedUints 8) (CheckedUints 8).
Proof. exact: C62_checked_uints. Qed.
Theorem C62_lattices :
  [/\ lattice_alg_rel (@halts) (fun _ => True) ZZ_lattice ZZ_lattice,
      lattice_alg_rel (@halts) (fun _ => True) NN_lattice NN_lattice,
      lattice_alg_rel (@halts) (fun _ => True) CheckedInts_lattice CheckedInts_lattice,
      lattice_alg_rel (@halts) (fun _ => True) CheckedUints_lattice CheckedUints_lattice &
      boolean_alg_rel (@halts) (fun _ => True) BB_boolean BB_boolean].
Proof. exact halt_lattices. Qed.
Print Assumptions C62_lattices.

(** A modulus that is not prime: the ring is not a field and the division of polynomials
    over it has no meaning. Some calls return, others panic. *)
Example C62_case : prof_eucl (in_vec (fun _ => True))
  (fun c => PolyEucl (QuotientField c ZZ 6%Z)) /\
  returns (extended_gcd (PolyEucl (QuotientField debug64 ZZ 6%Z)) [:: 1; 2; 3]%Z [:: 2; 5]%Z)
    ([:: 5%Z], [:: 1%Z], [:: 2; 3]%Z) /\
  panics (extended_gcd (PolyEucl (QuotientField debug64 ZZ 6%Z)) [:: 1; 2; 3]%Z [:: 2; 3]%Z).
Proof. split; [by do 3!constructor|split; run 20%nat]. Qed.

(** ** Floats, with NaN and the infinities *)
Theorem C62_floats : forall cfg,
  [/\ field_alg_rel (@halts) every_num (fun _ => True) (F32 cfg) (F32 cfg),
      sane_constants (F32 cfg),
      field_alg_rel (@halts) every_num (fun _ => True) (F64 cfg) (F64 cfg) &
      sane_constants (F64 cfg)].
Proof. exact halt_f32_f64. Qed.
Print Assumptions C62_floats.
Theorem C62_float_lattice : forall tie tie',
  lattice_alg_rel (@halts) (fun _ => True) (F32_lattice tie) (F32_lattice tie) /\
  lattice_alg_rel (@halts) (fun _ => True) (F64_lattice tie') (F64_lattice tie').
Proof. exact halt_f32_f64_lattice. Qed.
Print Assumptions C62_float_lattice.

(** ** Any base

    [A] is any implementation of the trait whose own calls halt, whether or not it obeys
    the laws; [sane_constants] says that its zero is zero and that its constants are equal
    to themselves. Then the calls on the structures built over it halt. *)
Theorem C62_over_euclidean : forall (c : Cfg) (E : Type) (Q : E -> Prop) (A : EuclAlg E) (m : E),
  eucl_alg_rel (@halts) every_num Q A A -> sane_constants A -> Q m ->
  [/\ ring_alg_rel (@halts) every_num Q (QuotientRing c A m) (QuotientRing c A m),
      field_alg_rel (@halts) every_num Q (QuotientField c A m) (QuotientField c A m),
      field_alg_rel (@halts) every_num (in_pair Q) (ReducedFractions c A) (ReducedFractions c A),
      lattice_alg_rel (@halts) Q (DivisibilityLattice A) (DivisibilityLattice A) &
      sane_constants (QuotientField c A m) /\ sane_constants (ReducedFractions c A)].
Proof. exact halt_any_eucl. Qed.
Print Assumptions C62_over_euclidean.
(** The next theorems are about any base, here the floats of the theorem above. *)
Example C62_over_euclidean_case c :
  field_alg_rel (@halts) every_num (in_pair (fun _ => True)) (ReducedFractions c (F64 c))
    (ReducedFractions c (F64 c)).
Proof.
have [_ _ h1 h2] := C62_floats c.
by have [] := C62_over_euclidean c _ _ (F64 c) (BinarySingleNaN.B754_zero false) h1 h2.
Qed.
Theorem C62_over_field : forall (c : Cfg) (E : Type) (Q : E -> Prop) (A : FieldAlg E) (n : nat),
  field_alg_rel (@halts) every_num Q A A -> sane_constants A ->
  [/\ eucl_alg_rel (@halts) every_num (in_vec Q) (PolyEucl A) (PolyEucl A) /\
        sane_constants (PolyEucl A),
      ring_alg_rel (@halts) every_num (in_vec Q) (MatrixRing c A n) (MatrixRing c A n) &
      forall v, in_vec Q v -> halts Q (determinant A n v) (determinant A n v)].
Proof. exact halt_any_field. Qed.
Print Assumptions C62_over_field.
Example C62_over_field_case c :
  ring_alg_rel (@halts) every_num (in_vec (fun _ => True)) (MatrixRing c (F64 c) 3)
    (MatrixRing c (F64 c) 3).
Proof.
by have [_ _ h1 h2] := C62_floats c; have [] := C62_over_field c _ _ (F64 c) 3 h1 h2.
Qed.
Theorem C62_over_integral : forall (E : Type) (Q : E -> Prop) (A : IDomAlg E),
  idom_alg_rel (@halts) every_num Q A A ->
  idom_alg_rel (@halts) every_num (in_vec Q) (PolyIDom A) (PolyIDom A) /\
  bounded_alg_rel (@halts) Q (DivisibilityOrder A) (DivisibilityOrder A).
Proof. exact halt_any_idom. Qed.
Print Assumptions C62_over_integral.
Example C62_over_integral_case c :
  idom_alg_rel (@halts) every_num (in_vec (fun _ => True)) (PolyIDom (F64 c)) (PolyIDom (F64 c)).
Proof.
by have [_ _ h1 _] := C62_floats c; have [] := C62_over_integral _ _ (F64 c) h1.
Qed.
Theorem C62_over_ring : forall (c : Cfg) (E : Type) (Q : E -> Prop) (A : RingAlg E) (n : nat),
  ring_alg_rel (@halts) every_num Q A A ->
  [/\ ring_alg_rel (@halts) every_num (in_vec Q) (PolyRing A) (PolyRing A),
      ring_alg_rel (@halts) every_num (in_vec Q) (VectorRing c n A) (VectorRing c n A),
      group_alg_rel (@halts) every_num Q (AdditiveGroup c A) (AdditiveGroup c A) &
      group_alg_rel (@halts) every_num Q (MultiplicativeGroup c A) (MultiplicativeGroup c A)].
Proof. exact halt_any_ring. Qed.
Print Assumptions C62_over_ring.
Example C62_over_ring_case c :
  ring_alg_rel (@halts) every_num (in_vec (fun _ => True)) (VectorRing c 3 (F64 c))
    (VectorRing c 3 (F64 c)).
Proof.
by have [_ _ h1 _] := C62_floats c; have [] := C62_over_ring c _ _ (F64 c) 3 h1.
Qed.
Theorem C62_over_lattice : forall (E : Type) (Q : E -> Prop) (A : LatticeAlg E) (n : nat),
  lattice_alg_rel (@halts) Q A A ->
  lattice_alg_rel (@halts) (in_vec Q) (VectorLattice n A) (VectorLattice n A).
Proof. exact halt_any_lattice. Qed.
Print Assumptions C62_over_lattice.
Example C62_over_lattice_case tie :
  lattice_alg_rel (@halts) (in_vec (fun _ => True)) (VectorLattice 3 (F64_lattice tie))
    (VectorLattice 3 (F64_lattice tie)).
Proof. by apply: C62_over_lattice; have [] := C62_float_lattice (fun _ _ => true) tie. Qed.
Theorem C62_over_boolean : forall (E : Type) (Q : E -> Prop) (A : BooleanAlg E) (n : nat),
  boolean_alg_rel (@halts) Q A A ->
  boolean_alg_rel (@halts) (in_vec Q) (VectorBoolean n A) (VectorBoolean n A).
Proof. exact halt_any_boolean. Qed.
Print Assumptions C62_over_boolean.
Example C62_over_boolean_case :
  boolean_alg_rel (@halts) (in_vec (fun _ => True)) (VectorBoolean 3 BB_boolean)
    (VectorBoolean 3 BB_boolean).
Proof. by apply: C62_over_boolean; have [] := C62_lattices. Qed.

(** The condition [sane_constants] is needed: over a base that says that nothing is zero,
    [extended_gcd] runs forever. *)
Theorem C62_sane_needed :
  ring_alg_rel (@halts) every_num (fun _ => True) nothing_zero nothing_zero /\
  field_rel (@halts) every_num (fun _ => True) nothing_zero_field nothing_zero_field /\
  diverges (extended_gcd nothing_zero_field true true).
Proof. exact nothing_zero_all. Qed.
Print Assumptions C62_sane_needed.
Example C62_over_case : sane_constants (PolyEucl (F64 debug64)).
Proof.
by have [_ _ h1 h2] := C62_floats debug64; have [[_ h] _ _] := C62_over_field debug64 _ _ _ 2 h1 h2.
Qed.
