(** * Props_ProfF.v -- C44 over floats.

    [on_... real ty A] (FloatProfSpec.v): [A B c] is a structure on top of the field [B],
    compiled with profile [c]. The arguments are any values of the Rust type, NaN and the
    infinities included. *)

From mathcomp Require Import all_ssreflect all_algebra zify ssrZ.
From Coq Require Import ZArith SpecFloat.
From Flocq Require Import Core BinarySingleNaN.
From Verif Require Import Rust Traits MInts MConstr MFloats ProfSpec FloatProfSpec FloatAlgSpec.
From Verif Require Import FloatSpec PFloat3 PProfF PFloatAlg Refuted.

Theorem C44_float_euclidean : forall (c1 c2 : Cfg) (prec emax : Z) (hp : Prec_gt_0 prec)
    (he : Prec_lt_emax prec emax), same_machine c1 c2 ->
  forall (E : Type) (ty : E -> Prop) (A : FieldAlg _ -> Cfg -> EuclAlg E),
  on_eucl (floats prec emax) ty A ->
  let A1 := A (ApproxFloats c1 hp he) c1 in let A2 := A (ApproxFloats c2 hp he) c2 in
  eucl_alg_rel (@agree) (not_min c1) ty A1 A2 /\
  lattice_alg_rel (@agree) ty (DivisibilityLattice A1) (DivisibilityLattice A2).
Proof. exact float_agree_eucl. Qed.
Print Assumptions C44_float_euclidean.
(** A debug and a release build; the floats of 64 bits. *)
Example C44_float_euclidean_case :
  eucl_alg_rel (@agree) (not_min debug64) (in_vec (floats 53 1024))
    (PolyEucl (F64 debug64))
    (PolyEucl (F64 release64)).
Proof.
exact: (proj1 (C44_float_euclidean debug64 release64 53 1024 prec64 emax64 erefl _ _
  (fun B c => PolyEucl B)
  (on_eucl_poly (on_reals (floats 53 1024))))).
Qed.
Theorem C44_float_field : forall (c1 c2 : Cfg) (prec emax : Z) (hp : Prec_gt_0 prec)
    (he : Prec_lt_emax prec emax), same_machine c1 c2 ->
  forall (E : Type) (ty : E -> Prop) (A : FieldAlg _ -> Cfg -> FieldAlg E),
  on_field (floats prec emax) ty A ->
  let A1 := A (ApproxFloats c1 hp he) c1 in let A2 := A (ApproxFloats c2 hp he) c2 in
  field_alg_rel (@agree) (not_min c1) ty A1 A2 /\
  forall n v, in_vec ty v -> agree ty (determinant A1 n v) (determinant A2 n v).
Proof. exact float_agree_field. Qed.
Print Assumptions C44_float_field.
Example C44_float_field_case :
  field_alg_rel (@agree) (not_min debug64) (in_pair (floats 53 1024))
    (ReducedFractions debug64 (F64 debug64))
    (ReducedFractions release64 (F64 release64)).
Proof.
exact: (proj1 (C44_float_field debug64 release64 53 1024 prec64 emax64 erefl _ _
  (fun B c => ReducedFractions c B)
  (on_ReducedFractions (on_eucl_field (on_reals (floats 53 1024)))))).
Qed.
Theorem C44_float_integral : forall (c1 c2 : Cfg) (prec emax : Z) (hp : Prec_gt_0 prec)
    (he : Prec_lt_emax prec emax), same_machine c1 c2 ->
  forall (E : Type) (ty : E -> Prop) (A : FieldAlg _ -> Cfg -> IDomAlg E),
  on_idom (floats prec emax) ty A ->
  let A1 := A (ApproxFloats c1 hp he) c1 in let A2 := A (ApproxFloats c2 hp he) c2 in
  idom_alg_rel (@agree) (not_min c1) ty A1 A2 /\
  bounded_alg_rel (@agree) ty (DivisibilityOrder A1) (DivisibilityOrder A2).
Proof. exact float_agree_idom. Qed.
Print Assumptions C44_float_integral.
Example C44_float_integral_case :
  idom_alg_rel (@agree) (not_min debug64) (in_vec (floats 53 1024))
    (PolyIDom (F64 debug64))
    (PolyIDom (F64 release64)).
Proof.
exact: (proj1 (C44_float_integral debug64 release64 53 1024 prec64 emax64 erefl _ _
  (fun B c => PolyIDom B)
  (on_idom_poly (on_idom_eucl (on_eucl_field (on_reals (floats 53 1024))))))).
Qed.
(** Without matrices inside, see C44_float_matrix. *)
Theorem C44_float_ring : forall (c1 c2 : Cfg) (prec emax : Z) (hp : Prec_gt_0 prec)
    (he : Prec_lt_emax prec emax), same_machine c1 c2 -> Z.le 2 (ptr_bits c1) ->
  forall (E : Type) (ty : E -> Prop) (A : FieldAlg _ -> Cfg -> RingAlg E),
  on_ring (floats prec emax) false ty A ->
  ring_alg_rel (@agree) (not_min c1) ty (A (ApproxFloats c1 hp he) c1)
    (A (ApproxFloats c2 hp he) c2).
Proof. exact float_agree_ring. Qed.
Print Assumptions C44_float_ring.
Example C44_float_ring_case :
  ring_alg_rel (@agree) (not_min debug64) (in_vec (floats 53 1024))
    (VectorRing debug64 3 (F64 debug64))
    (VectorRing release64 3 (F64 release64)).
Proof.
have w2 : Z.le 2 (ptr_bits debug64) by [].
exact: (C44_float_ring debug64 release64 53 1024 prec64 emax64 erefl w2 _ _
  (fun B c => VectorRing c 3 B)
  (on_VectorRing 3 (on_ring_idom false (on_idom_eucl (on_eucl_field (on_reals (floats 53 1024))))))).
Qed.
Theorem C44_float_group : forall (c1 c2 : Cfg) (prec emax : Z) (hp : Prec_gt_0 prec)
    (he : Prec_lt_emax prec emax), same_machine c1 c2 -> Z.le 2 (ptr_bits c1) ->
  forall (E : Type) (ty : E -> Prop) (A : FieldAlg _ -> Cfg -> GroupAlg E),
  on_group (floats prec emax) false ty A ->
  group_alg_rel (@agree) (not_min c1) ty (A (ApproxFloats c1 hp he) c1)
    (A (ApproxFloats c2 hp he) c2).
Proof. exact float_agree_group. Qed.
Print Assumptions C44_float_group.
Example C44_float_group_case :
  group_alg_rel (@agree) (not_min debug64) (floats 53 1024)
    (AdditiveGroup debug64 (ring_abelian (F64 debug64)))
    (AdditiveGroup release64 (ring_abelian (F64 release64))).
Proof.
have w2 : Z.le 2 (ptr_bits debug64) by [].
exact: (C44_float_group debug64 release64 53 1024 prec64 emax64 erefl w2 _ _
  (fun B c => AdditiveGroup c (ring_abelian B))
  (on_AdditiveGroup (on_ring_idom false (on_idom_eucl (on_eucl_field (on_reals (floats 53 1024))))))).
Qed.

(** What a build with more checks returns is returned by a build with fewer checks; here
    matrices can be anywhere and all isize numbers are allowed. *)
Theorem C44_float_fewer_checks_euclidean : forall (c1 c2 : Cfg) (prec emax : Z)
    (hp : Prec_gt_0 prec) (he : Prec_lt_emax prec emax), stricter c1 c2 ->
  forall (E : Type) (ty : E -> Prop) (A : FieldAlg _ -> Cfg -> EuclAlg E),
  on_eucl (floats prec emax) ty A ->
  let A1 := A (ApproxFloats c1 hp he) c1 in let A2 := A (ApproxFloats c2 hp he) c2 in
  eucl_alg_rel (@follows) (fun _ => True) ty A1 A2 /\
  lattice_alg_rel (@follows) ty (DivisibilityLattice A1) (DivisibilityLattice A2).
Proof. exact float_follows_eucl. Qed.
Print Assumptions C44_float_fewer_checks_euclidean.
Example C44_float_fewer_checks_euclidean_case :
  eucl_alg_rel (@follows) (fun _ => True) (in_vec (floats 53 1024))
    (PolyEucl (F64 debug64))
    (PolyEucl (F64 release64)).
Proof.
have st : stricter debug64 release64 by [].
exact: (proj1 (C44_float_fewer_checks_euclidean debug64 release64 53 1024 prec64 emax64 st _ _
  (fun B c => PolyEucl B)
  (on_eucl_poly (on_reals (floats 53 1024))))).
Qed.
Theorem C44_float_fewer_checks_field : forall (c1 c2 : Cfg) (prec emax : Z)
    (hp : Prec_gt_0 prec) (he : Prec_lt_emax prec emax), stricter c1 c2 ->
  forall (E : Type) (ty : E -> Prop) (A : FieldAlg _ -> Cfg -> FieldAlg E),
  on_field (floats prec emax) ty A ->
  field_alg_rel (@follows) (fun _ => True) ty (A (ApproxFloats c1 hp he) c1)
    (A (ApproxFloats c2 hp he) c2).
Proof. exact float_follows_field. Qed.
Print Assumptions C44_float_fewer_checks_field.
Example C44_float_fewer_checks_field_case :
  field_alg_rel (@follows) (fun _ => True) (in_pair (floats 53 1024))
    (ReducedFractions debug64 (F64 debug64))
    (ReducedFractions release64 (F64 release64)).
Proof.
have st : stricter debug64 release64 by [].
exact: (C44_float_fewer_checks_field debug64 release64 53 1024 prec64 emax64 st _ _
  (fun B c => ReducedFractions c B)
  (on_ReducedFractions (on_eucl_field (on_reals (floats 53 1024))))).
Qed.
Theorem C44_float_fewer_checks_ring : forall (c1 c2 : Cfg) (prec emax : Z)
    (hp : Prec_gt_0 prec) (he : Prec_lt_emax prec emax), stricter c1 c2 ->
  forall (E : Type) (ty : E -> Prop) (A : FieldAlg _ -> Cfg -> RingAlg E),
  on_ring (floats prec emax) true ty A ->
  ring_alg_rel (@follows) (fun _ => True) ty (A (ApproxFloats c1 hp he) c1)
    (A (ApproxFloats c2 hp he) c2).
Proof. exact float_follows_ring. Qed.
Print Assumptions C44_float_fewer_checks_ring.
Example C44_float_fewer_checks_ring_case :
  ring_alg_rel (@follows) (fun _ => True) (in_vec (floats 53 1024))
    (MatrixRing debug64 (F64 debug64) 3)
    (MatrixRing release64 (F64 release64) 3).
Proof.
have st : stricter debug64 release64 by [].
exact: (C44_float_fewer_checks_ring debug64 release64 53 1024 prec64 emax64 st _ _
  (fun B c => MatrixRing c B 3)
  (on_MatrixRing 3 (isT : true) (on_reals (floats 53 1024)))).
Qed.
Theorem C44_float_fewer_checks_group : forall (c1 c2 : Cfg) (prec emax : Z)
    (hp : Prec_gt_0 prec) (he : Prec_lt_emax prec emax), stricter c1 c2 ->
  forall (E : Type) (ty : E -> Prop) (A : FieldAlg _ -> Cfg -> GroupAlg E),
  on_group (floats prec emax) true ty A ->
  group_alg_rel (@follows) (fun _ => True) ty (A (ApproxFloats c1 hp he) c1)
    (A (ApproxFloats c2 hp he) c2).
Proof. exact float_follows_group. Qed.
Print Assumptions C44_float_fewer_checks_group.
Example C44_float_fewer_checks_group_case :
  group_alg_rel (@follows) (fun _ => True) (in_vec (floats 53 1024))
    (MultiplicativeGroup debug64 (MatrixRing debug64 (F64 debug64) 3))
    (MultiplicativeGroup release64 (MatrixRing release64 (F64 release64) 3)).
Proof.
have st : stricter debug64 release64 by [].
exact: (C44_float_fewer_checks_group debug64 release64 53 1024 prec64 emax64 st _ _
  (fun B c => MultiplicativeGroup c (MatrixRing c B 3))
  (on_MultiplicativeGroup (on_MatrixRing 3 (isT : true) (on_reals (floats 53 1024))))).
Qed.
(** For matrices the profiles can differ: [try_inv] checks its result in debug builds, and
    because of rounding the check can fail, as for the matrix (49). *)
Theorem C44_float_matrix :
  shows_some (try_inv (MatrixRing release64 (F64 release64) 1) [:: f64_num 49 0])
    [:: S754_finite false 5882252574524729 (-58)] /\
  panics (try_inv (MatrixRing debug64 (F64 debug64) 1) [:: f64_num 49 0]).
Proof. exact (let: And3 _ h1 h2 := float_inverse in conj h1 h2). Qed.
Print Assumptions C44_float_matrix.
(** Fractions of polynomials over f64, and invertible matrices over them. *)
Example C44_float_case :
  on_field (floats 53 1024) (in_pair (in_vec (floats 53 1024)))
    (fun B c => ReducedFractions c (PolyEucl B)) /\
  on_group (floats 53 1024) true (in_vec (in_pair (in_vec (floats 53 1024))))
    (fun B c => MultiplicativeGroup c (MatrixRing c (ReducedFractions c (PolyEucl B)) 3)).
Proof.
have h : on_field (floats 53 1024) (in_pair (in_vec (floats 53 1024)))
    (fun B c => ReducedFractions c (PolyEucl B)).
  by apply: on_ReducedFractions; apply: on_eucl_poly; exact: on_reals.
by split=> //; exact: (on_MultiplicativeGroup (on_MatrixRing 3 (isT : true) h)).
Qed.
