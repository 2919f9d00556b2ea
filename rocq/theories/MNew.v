(** * MNew.v -- the structs of the crate, their constructors and accessors.

    In MConstr.v the parameters of a structure (its base, modulo, length, size) are arguments of
    the methods. Here they are the fields of a struct, which [new] fills in and the accessors read;
    [..._methods] are the methods of MConstr.v for the fields of a struct.

    Source: mmaroti/abstalg-rs. Simplifications: the base is the record of its methods; [&A]
    is [A]; a length or size of type usize is a [nat]. *)

From Coq Require Import ZArith.
From mathcomp Require Import all_ssreflect.
From Verif Require Import Rust Traits MConstr MIndex.

Set Implicit Arguments.
Unset Strict Implicit.
Unset Printing Implicit Defensive.

(* vector_algebra.rs:9-15 *)
Record VectorAlgebraStruct (A : Type) := mkVectorAlgebra { va_base : A; va_len : nat }.
(* vector_algebra.rs:23-25 *)
Definition va_new (A : Type) (base : A) (len : nat) : M (VectorAlgebraStruct A) :=
  ret (mkVectorAlgebra base len).

(* matrix_ring.rs:9-15 *)
Record MatrixRingStruct (A : Type) := mkMatrixRing { mr_valg : VectorAlgebraStruct A; mr_size_field : nat }.
(* matrix_ring.rs:23-26: size.checked_mul(size).unwrap() *)
Definition mr_new (cfg : Cfg) (A : Type) (base : A) (size : nat) : M (MatrixRingStruct A) :=
  let! len := unwrap (let z := (Z.of_nat size * Z.of_nat size)%Z in
                      if is_usize cfg z then Some (Z.to_nat z) else None) in
  let! valg := va_new base len in
  ret (mkMatrixRing valg size).
(* matrix_ring.rs:29-31 *)
Definition mr_base (A : Type) (s : MatrixRingStruct A) : A := va_base (mr_valg s).
(* matrix_ring.rs:35-37 *)
Definition mr_size (A : Type) (s : MatrixRingStruct A) : nat := mr_size_field s.
(* matrix_ring.rs:41-43 *)
Definition mr_len (cfg : Cfg) (A : Type) (s : MatrixRingStruct A) : M nat :=
  umul cfg (mr_size_field s) (mr_size_field s).

(* polynomial_algebra.rs:13-18, 25-32 *)
Record PolynomialAlgebraStruct (A : Type) := mkPolynomialAlgebra { pa_base : A }.
Definition pa_new (A : Type) (base : A) : M (PolynomialAlgebraStruct A) := ret (mkPolynomialAlgebra base).

(* quotient_ring.rs:8-14, 22-35 *)
Record QuotientRingStruct (E : Type) := mkQuotientRing { qr_base : EuclAlg E; qr_modulo : E }.
Definition qr_new (E : Type) (base : EuclAlg E) (modulo : E) : M (QuotientRingStruct E) :=
  let! b := contains base modulo in
  do! assert b in
  ret (mkQuotientRing base modulo).

(* quotient_field.rs:21-27, 38-53 *)
Record QuotientFieldStruct (E : Type) := mkQuotientField { qf_base : EuclAlg E; qf_modulo : E }.
Definition qf_new (E : Type) (base : EuclAlg E) (modulo : E) : M (QuotientFieldStruct E) :=
  let! b := contains base modulo in
  do! assert b in
  let! o := one base in
  let! r := rem base o o in
  let! z := is_zero base r in
  do! assert z in
  ret (mkQuotientField base modulo).

(* reduced_fractions.rs:15-20, 28-36 *)
Record ReducedFractionsStruct (E : Type) := mkReducedFractions { rf_base : EuclAlg E }.
Definition rf_new (E : Type) (base : EuclAlg E) : M (ReducedFractionsStruct E) :=
  let! o := one base in
  let! b := is_zero base o in
  do! assert (~~ b) in
  ret (mkReducedFractions base).

(* divisibility_order.rs:12-17, 21-28 *)
Record DivisibilityOrderStruct (A : Type) := mkDivisibilityOrder { do_base : A }.
Definition do_new (A : Type) (base : A) : M (DivisibilityOrderStruct A) := ret (mkDivisibilityOrder base).

(* additive_group.rs:8-13, 20-27; multiplicative_group.rs:9-14, 21-28 *)
Record AdditiveGroupStruct (E : Type) := mkAdditiveGroup { ag_base : AbelianAlg E }.
Definition ag_new (E : Type) (base : AbelianAlg E) : M (AdditiveGroupStruct E) := ret (mkAdditiveGroup base).
Record MultiplicativeGroupStruct (E : Type) := mkMultiplicativeGroup { mg_base : MonoidAlg E }.
Definition mg_new (E : Type) (base : MonoidAlg E) : M (MultiplicativeGroupStruct E) :=
  ret (mkMultiplicativeGroup base).

(* permutations.rs:7-9, 14-20; [self.size as usize] is the length used by the methods *)
Record PermutationsStruct := mkPermutations { pm_size : nat }.
Definition pm_new (size : nat) : M PermutationsStruct := ret (mkPermutations size).

(** ** The methods called on a struct *)
Section Methods.
Variables (cfg : Cfg) (E : Type).

Definition va_methods (s : VectorAlgebraStruct (RingAlg E)) : RingAlg (seq E) :=
  VectorRing cfg (va_len s) (va_base s).
(* the length of the vectors is that of [valg], the number of rows and columns is [size] *)
Definition mr_methods (s : MatrixRingStruct (FieldAlg E)) : RingAlg (seq E) :=
  MatrixRing cfg (mr_base s) (mr_size s).
Definition pa_methods (s : PolynomialAlgebraStruct (RingAlg E)) : RingAlg (seq E) := PolyRing (pa_base s).
Definition pa_domain_methods (s : PolynomialAlgebraStruct (IDomAlg E)) : IDomAlg (seq E) := PolyIDom (pa_base s).
Definition pa_euclidean_methods (s : PolynomialAlgebraStruct (FieldAlg E)) : EuclAlg (seq E) := PolyEucl (pa_base s).
Definition qr_methods (s : QuotientRingStruct E) : RingAlg E := QuotientRing cfg (qr_base s) (qr_modulo s).
Definition qf_methods (s : QuotientFieldStruct E) : FieldAlg E := QuotientField cfg (qf_base s) (qf_modulo s).
Definition rf_methods (s : ReducedFractionsStruct E) : FieldAlg (E * E) := ReducedFractions cfg (rf_base s).
Definition do_methods (s : DivisibilityOrderStruct (EuclAlg E)) : LatticeAlg E := DivisibilityLattice (do_base s).
Definition ag_methods (s : AdditiveGroupStruct E) : GroupAlg E := AdditiveGroup cfg (ag_base s).
Definition mg_methods (s : MultiplicativeGroupStruct E) : GroupAlg E := MultiplicativeGroup cfg (mg_base s).
End Methods.
Definition pm_methods (cfg : Cfg) (s : PermutationsStruct) : GroupAlg (seq nat) := Permutations cfg (pm_size s).
