(** * Props_Width.v -- C89: the width of isize and usize does not change results.

    [c1] and [c2] are two targets: isize and usize may have different widths, overflow
    checks and debug assertions may differ. [prof_...], [on_...], [..._rel agree] are as in
    Props_Profile.v and Props_ProfF.v. *)

From mathcomp Require Import all_ssreflect all_algebra zify ssrZ.
From Coq Require Import ZArith SpecFloat.
From Flocq Require Import Core BinarySingleNaN.
From Verif Require Import Rust Traits MInts MConstr MFloats Spec RingSpec CallSpec ProfSpec FloatProfSpec WidthSpec.
From Verif Require Import PInts POrders PProf3 PProf4 PWidth Refuted.

Import GRing.Theory.
Local Open Scope ring_scope.
(** A microcontroller with 16 bits, a machine with 32 bits and one with 64. *)
Local Notation debug16 := (mkCfg true true 16).
Local Notation release32 := (mkCfg false false 32).

Theorem C89_field : forall (c1 c2 : Cfg) (E : Type) (ty : E -> Prop) (A : Cfg -> FieldAlg E),
  prof_field ty A -> field_alg_rel (@agree) (on_both c1 c2) ty (A c1) (A c2).
Proof. exact width_field. Qed.
Print Assumptions C89_field.
Example C89_field_case :
  field_alg_rel (@agree) (on_both release32 debug64) (in_pair (fun x => is_true (in_i 8 x)))
    (ReducedFractions release32 (I8 release32)) (ReducedFractions debug64 (I8 debug64)).
Proof.
have w2 : (2 <= 8)%Z by [].
exact: (C89_field release32 debug64 _ _ _ (prof_ReducedFractions (prof_CheckedInts w2))).
Qed.
Theorem C89_euclidean : forall (c1 c2 : Cfg) (E : Type) (ty : E -> Prop) (A : Cfg -> EuclAlg E),
  prof_eucl ty A ->
  eucl_alg_rel (@agree) (on_both c1 c2) ty (A c1) (A c2) /\
  lattice_alg_rel (@agree) ty (DivisibilityLattice (A c1)) (DivisibilityLattice (A c2)).
Proof. exact width_eucl. Qed.
Print Assumptions C89_euclidean.
Example C89_euclidean_case :
  eucl_alg_rel (@agree) (on_both debug16 release64) (in_vec (fun _ => True))
    (PolyEucl (QuotientField debug16 ZZ 5%Z)) (PolyEucl (QuotientField release64 ZZ 5%Z)).
Proof.
by have [] := C89_euclidean debug16 release64 _ _ _
  (prof_eucl_poly (prof_QuotientField (m := 5%Z) prof_ZZ I)).
Qed.
Theorem C89_integral : forall (c1 c2 : Cfg) (E : Type) (ty : E -> Prop) (A : Cfg -> IDomAlg E),
  prof_idom ty A ->
  idom_alg_rel (@agree) (on_both c1 c2) ty (A c1) (A c2) /\
  bounded_alg_rel (@agree) ty (DivisibilityOrder (A c1)) (DivisibilityOrder (A c2)).
Proof. exact width_idom. Qed.
Print Assumptions C89_integral.
Example C89_integral_case :
  idom_alg_rel (@agree) (on_both release32 debug64) (in_vec (fun x => is_true (in_i 8 x)))
    (PolyIDom (I8 release32)) (PolyIDom (I8 debug64)).
Proof.
have w2 : (2 <= 8)%Z by [].
by have [] := C89_integral release32 debug64 _ _ _
  (prof_idom_poly (prof_idom_eucl (prof_CheckedInts w2))).
Qed.
(** Rings and groups without matrices inside. *)
Theorem C89_ring : forall (c1 c2 : Cfg), Z.le 2 (ptr_bits c1) -> Z.le 2 (ptr_bits c2) ->
  forall (E : Type) (ty : E -> Prop) (A : Cfg -> RingAlg E),
  prof_ring false ty A -> ring_alg_rel (@agree) (on_both c1 c2) ty (A c1) (A c2).
Proof. exact width_ring. Qed.
Print Assumptions C89_ring.
Example C89_ring_case :
  ring_alg_rel (@agree) (on_both release32 debug64) (in_vec (fun _ => True))
    (VectorRing release32 3 (QuotientRing release32 ZZ 6%Z))
    (VectorRing debug64 3 (QuotientRing debug64 ZZ 6%Z)).
Proof.
by apply: (C89_ring release32 debug64 _ _ _ _ (fun c => VectorRing c 3 (QuotientRing c ZZ 6%Z))) => //;
  exact: prof_VectorRing (prof_QuotientRing (m := 6%Z) _ prof_ZZ I).
Qed.
Theorem C89_group : forall (c1 c2 : Cfg), Z.le 2 (ptr_bits c1) -> Z.le 2 (ptr_bits c2) ->
  forall (E : Type) (ty : E -> Prop) (A : Cfg -> GroupAlg E),
  prof_group false ty A -> group_alg_rel (@agree) (on_both c1 c2) ty (A c1) (A c2).
Proof. exact width_group. Qed.
Print Assumptions C89_group.
Example C89_group_case :
  group_alg_rel (@agree) (on_both release32 debug64) (fun v => size v = 3%nat)
    (Permutations release32 3) (Permutations debug64 3).
Proof.
by apply: (C89_group release32 debug64 _ _ _ _ (fun c => Permutations c 3)) => //;
  exact: prof_Permutations.
Qed.
(** Matrices *)
Theorem C89_matrix : forall (c1 c2 : Cfg), Z.le 2 (ptr_bits c1) -> Z.le 2 (ptr_bits c2) ->
  forall (E : Type) (ty : E -> Prop) (n : nat) (A : Cfg -> FieldAlg E), prof_field ty A ->
  let R1 := MatrixRing c1 (A c1) n in let R2 := MatrixRing c2 (A c2) n in
  [/\ domain_rel (@agree) (in_vec ty) R1 R2, semigroup_rel (@agree) (in_vec ty) R1 R2,
      cmonoid_rel (@agree) (in_vec ty) R1 R2,
      abelian_rel (@agree) (on_both c1 c2) (in_vec ty) R1 R2 &
      unitary_rel (@agree) (on_both c1 c2) (in_vec ty) R1 R2] /\
  [/\ agree (in_vec ty) (one R1) (one R2),
      rel1b (@agree) (in_vec ty) (is_one R1) (is_one R2),
      rel1b (@agree) (in_vec ty) (invertible R1) (invertible R2) &
      forall v, in_vec ty v -> agree ty (determinant (A c1) n v) (determinant (A c2) n v)].
Proof. exact width_matrix. Qed.
Print Assumptions C89_matrix.
Example C89_matrix_case :
  semigroup_rel (@agree) (in_vec (fun _ => True)) (MatrixRing release32 (QuotientField release32 ZZ 5%Z) 2)
    (MatrixRing debug64 (QuotientField debug64 ZZ 5%Z) 2).
Proof.
by have [||[]] := C89_matrix release32 debug64 _ _ _ _ 2 _ (prof_QuotientField (m := 5%Z) prof_ZZ I).
Qed.
Theorem C89_matrix_try_inv : forall (c1 c2 : Cfg), Z.le 2 (ptr_bits c1) -> Z.le 2 (ptr_bits c2) ->
  forall (p : Prop) (E : Type) (ty : E -> Prop) (n : nat) (A : Cfg -> FieldAlg E)
    (F : fieldType) (rep : E -> F -> Prop),
  prof_field ty A -> (forall x a, rep x a -> ty x) ->
  field_alg_spec c1 p rep (A c1) -> field_alg_spec c2 p rep (A c2) ->
  forall (x : seq E) (N : 'M[F]_n), matrix_of rep x N ->
  same_call (try_inv (MatrixRing c1 (A c1) n) x) (try_inv (MatrixRing c2 (A c2) n) x).
Proof. exact width_matrix_try_inv. Qed.
Print Assumptions C89_matrix_try_inv.
Example C89_matrix_try_inv_case (x : seq bool) (N : 'M_2) : matrix_of bb_rep x N ->
  same_call (try_inv (MatrixRing release32 BB 2) x) (try_inv (MatrixRing debug64 BB 2) x).
Proof.
by apply: (C89_matrix_try_inv release32 debug64 _ _ False bool _ 2 (fun _ => BB) _ bb_rep prof_BB)
  => //; exact: BB_ok.
Qed.
(** A matrix of [n] rows can be used if [n * n] is a usize. *)
Theorem C89_new : forall (c : Cfg) (n : nat),
  if (Z.of_nat n * Z.of_nat n <? 2 ^ ptr_bits c)%Z then returns (matrix_new c n) tt
  else panics (matrix_new c n).
Proof. exact width_new. Qed.
Print Assumptions C89_new.
Example C89_new_case : panics (matrix_new debug16 256) /\ returns (matrix_new debug64 256) tt.
Proof. by split; [exact: (C89_new debug16 256)|exact: (C89_new debug64 256)]. Qed.

(** ** Floats *)
Theorem C89_float_euclidean : forall (c1 c2 : Cfg) (prec emax : Z) (hp : Prec_gt_0 prec)
    (he : Prec_lt_emax prec emax) (E : Type) (ty : E -> Prop) (A : FieldAlg _ -> Cfg -> EuclAlg E),
  on_eucl (fun _ : binary_float prec emax => True) ty A ->
  let A1 := A (ApproxFloats c1 hp he) c1 in let A2 := A (ApproxFloats c2 hp he) c2 in
  eucl_alg_rel (@agree) (on_both c1 c2) ty A1 A2 /\
  lattice_alg_rel (@agree) ty (DivisibilityLattice A1) (DivisibilityLattice A2).
Proof. exact width_float_eucl. Qed.
Print Assumptions C89_float_euclidean.
Example C89_float_euclidean_case :
  eucl_alg_rel (@agree) (on_both release32 debug64) (in_vec (fun _ => True))
    (PolyEucl (F64 release32)) (PolyEucl (F64 debug64)).
Proof.
exact: (proj1 (C89_float_euclidean release32 debug64 53 1024 prec64 emax64 _ _
  (fun B c => PolyEucl B) (on_eucl_poly (on_reals (fun _ => True))))).
Qed.
Theorem C89_float_field : forall (c1 c2 : Cfg) (prec emax : Z) (hp : Prec_gt_0 prec)
    (he : Prec_lt_emax prec emax) (E : Type) (ty : E -> Prop) (A : FieldAlg _ -> Cfg -> FieldAlg E),
  on_field (fun _ : binary_float prec emax => True) ty A ->
  let A1 := A (ApproxFloats c1 hp he) c1 in let A2 := A (ApproxFloats c2 hp he) c2 in
  field_alg_rel (@agree) (on_both c1 c2) ty A1 A2 /\
  forall n v, in_vec ty v -> agree ty (determinant A1 n v) (determinant A2 n v).
Proof. exact width_float_field. Qed.
Print Assumptions C89_float_field.
Example C89_float_field_case :
  field_alg_rel (@agree) (on_both release32 debug64) (in_pair (fun _ => True))
    (ReducedFractions release32 (F64 release32)) (ReducedFractions debug64 (F64 debug64)).
Proof.
exact: (proj1 (C89_float_field release32 debug64 53 1024 prec64 emax64 _ _
  (fun B c => ReducedFractions c B)
  (on_ReducedFractions (on_eucl_field (on_reals (fun _ => True)))))).
Qed.
Theorem C89_float_integral : forall (c1 c2 : Cfg) (prec emax : Z) (hp : Prec_gt_0 prec)
    (he : Prec_lt_emax prec emax) (E : Type) (ty : E -> Prop) (A : FieldAlg _ -> Cfg -> IDomAlg E),
  on_idom (fun _ : binary_float prec emax => True) ty A ->
  let A1 := A (ApproxFloats c1 hp he) c1 in let A2 := A (ApproxFloats c2 hp he) c2 in
  idom_alg_rel (@agree) (on_both c1 c2) ty A1 A2 /\
  bounded_alg_rel (@agree) ty (DivisibilityOrder A1) (DivisibilityOrder A2).
Proof. exact width_float_idom. Qed.
Print Assumptions C89_float_integral.
Example C89_float_integral_case :
  idom_alg_rel (@agree) (on_both release32 debug64) (in_vec (fun _ => True))
    (PolyIDom (F64 release32)) (PolyIDom (F64 debug64)).
Proof.
exact: (proj1 (C89_float_integral release32 debug64 53 1024 prec64 emax64 _ _
  (fun B c => PolyIDom B)
  (on_idom_poly (on_idom_eucl (on_eucl_field (on_reals (fun _ => True))))))).
Qed.
Theorem C89_float_ring : forall (c1 c2 : Cfg) (prec emax : Z) (hp : Prec_gt_0 prec)
    (he : Prec_lt_emax prec emax), Z.le 2 (ptr_bits c1) -> Z.le 2 (ptr_bits c2) ->
  forall (E : Type) (ty : E -> Prop) (A : FieldAlg _ -> Cfg -> RingAlg E),
  on_ring (fun _ : binary_float prec emax => True) false ty A ->
  ring_alg_rel (@agree) (on_both c1 c2) ty (A (ApproxFloats c1 hp he) c1) (A (ApproxFloats c2 hp he) c2).
Proof. exact width_float_ring. Qed.
Print Assumptions C89_float_ring.
Example C89_float_ring_case :
  ring_alg_rel (@agree) (on_both release32 debug64) (in_vec (fun _ => True))
    (VectorRing release32 3 (F64 release32)) (VectorRing debug64 3 (F64 debug64)).
Proof.
have w1 : Z.le 2 (ptr_bits release32) by [].
have w2 : Z.le 2 (ptr_bits debug64) by [].
exact: (C89_float_ring release32 debug64 53 1024 prec64 emax64 w1 w2 _ _
  (fun B c => VectorRing c 3 B)
  (on_VectorRing 3 (on_ring_idom false (on_idom_eucl (on_eucl_field (on_reals (fun _ => True))))))).
Qed.
Theorem C89_float_group : forall (c1 c2 : Cfg) (prec emax : Z) (hp : Prec_gt_0 prec)
    (he : Prec_lt_emax prec emax), Z.le 2 (ptr_bits c1) -> Z.le 2 (ptr_bits c2) ->
  forall (E : Type) (ty : E -> Prop) (A : FieldAlg _ -> Cfg -> GroupAlg E),
  on_group (fun _ : binary_float prec emax => True) false ty A ->
  group_alg_rel (@agree) (on_both c1 c2) ty (A (ApproxFloats c1 hp he) c1) (A (ApproxFloats c2 hp he) c2).
Proof. exact width_float_group. Qed.
Print Assumptions C89_float_group.
Example C89_float_group_case :
  group_alg_rel (@agree) (on_both release32 debug64) (fun _ => True)
    (AdditiveGroup release32 (ring_abelian (F64 release32)))
    (AdditiveGroup debug64 (ring_abelian (F64 debug64))).
Proof.
have w1 : Z.le 2 (ptr_bits release32) by [].
have w2 : Z.le 2 (ptr_bits debug64) by [].
exact: (C89_float_group release32 debug64 53 1024 prec64 emax64 w1 w2 _ _
  (fun B c => AdditiveGroup c (ring_abelian B))
  (on_AdditiveGroup (on_ring_idom false (on_idom_eucl (on_eucl_field (on_reals (fun _ => True))))))).
Qed.

(** ** What a checked build for the narrower target returns, the wider one returns: for all
    its isize numbers, the least one included, and with matrices anywhere. *)
Theorem C89_narrower_field : forall (c1 c2 : Cfg), narrower c1 c2 ->
  forall (E : Type) (ty : E -> Prop) (A : Cfg -> FieldAlg E), prof_field ty A ->
  field_alg_rel (@follows) (isize c1) ty (A c1) (A c2).
Proof. exact narrow_field. Qed.
Print Assumptions C89_narrower_field.
Example C89_narrower_field_case :
  field_alg_rel (@follows) (isize debug16) (in_pair (fun x => is_true (in_i 8 x)))
    (ReducedFractions debug16 (I8 debug16))
    (ReducedFractions release64 (I8 release64)).
Proof.
have st : narrower debug16 release64 by [].
have w1 : Z.le 2 (ptr_bits debug16) by [].
have w2 : (2 <= 8)%Z by [].
exact: (C89_narrower_field debug16 release64 st _ _ _ (prof_ReducedFractions (prof_CheckedInts w2))).
Qed.
Theorem C89_narrower_euclidean : forall (c1 c2 : Cfg), narrower c1 c2 ->
  forall (E : Type) (ty : E -> Prop) (A : Cfg -> EuclAlg E), prof_eucl ty A ->
  eucl_alg_rel (@follows) (isize c1) ty (A c1) (A c2).
Proof. exact narrow_eucl. Qed.
Print Assumptions C89_narrower_euclidean.
Example C89_narrower_euclidean_case :
  eucl_alg_rel (@follows) (isize debug16) (in_vec (fun _ => True))
    (PolyEucl (QuotientField debug16 ZZ 5%Z))
    (PolyEucl (QuotientField release64 ZZ 5%Z)).
Proof.
have st : narrower debug16 release64 by [].
have w1 : Z.le 2 (ptr_bits debug16) by [].
have w2 : (2 <= 8)%Z by [].
exact: (C89_narrower_euclidean debug16 release64 st _ _ _ (prof_eucl_poly (prof_QuotientField (m := 5%Z) prof_ZZ I))).
Qed.
Theorem C89_narrower_integral : forall (c1 c2 : Cfg), narrower c1 c2 ->
  forall (E : Type) (ty : E -> Prop) (A : Cfg -> IDomAlg E), prof_idom ty A ->
  idom_alg_rel (@follows) (isize c1) ty (A c1) (A c2).
Proof. exact narrow_idom. Qed.
Print Assumptions C89_narrower_integral.
Example C89_narrower_integral_case :
  idom_alg_rel (@follows) (isize debug16) (in_vec (fun x => is_true (in_i 8 x)))
    (PolyIDom (I8 debug16))
    (PolyIDom (I8 release64)).
Proof.
have st : narrower debug16 release64 by [].
have w1 : Z.le 2 (ptr_bits debug16) by [].
have w2 : (2 <= 8)%Z by [].
exact: (C89_narrower_integral debug16 release64 st _ _ _ (prof_idom_poly (prof_idom_eucl (prof_CheckedInts w2)))).
Qed.
Theorem C89_narrower_ring : forall (c1 c2 : Cfg), narrower c1 c2 -> Z.le 2 (ptr_bits c1) ->
  forall (E : Type) (ty : E -> Prop) (A : Cfg -> RingAlg E), prof_ring true ty A ->
  ring_alg_rel (@follows) (isize c1) ty (A c1) (A c2).
Proof. exact narrow_ring. Qed.
Print Assumptions C89_narrower_ring.
Example C89_narrower_ring_case :
  ring_alg_rel (@follows) (isize debug16) (in_vec (fun _ => True))
    (MatrixRing debug16 (QuotientField debug16 ZZ 5%Z) 2)
    (MatrixRing release64 (QuotientField release64 ZZ 5%Z) 2).
Proof.
have st : narrower debug16 release64 by [].
have w1 : Z.le 2 (ptr_bits debug16) by [].
have w2 : (2 <= 8)%Z by [].
exact: (C89_narrower_ring debug16 release64 st w1 _ _ _ (prof_MatrixRing 2 (isT : true) (prof_QuotientField (m := 5%Z) prof_ZZ I))).
Qed.
Theorem C89_narrower_group : forall (c1 c2 : Cfg), narrower c1 c2 -> Z.le 2 (ptr_bits c1) ->
  forall (E : Type) (ty : E -> Prop) (A : Cfg -> GroupAlg E), prof_group true ty A ->
  group_alg_rel (@follows) (isize c1) ty (A c1) (A c2).
Proof. exact narrow_group. Qed.
Print Assumptions C89_narrower_group.
Example C89_narrower_group_case :
  group_alg_rel (@follows) (isize debug16) (fun v => size v = 3%nat)
    (Permutations debug16 3)
    (Permutations release64 3).
Proof.
have st : narrower debug16 release64 by [].
have w1 : Z.le 2 (ptr_bits debug16) by [].
have w2 : (2 <= 8)%Z by [].
exact: (C89_narrower_group debug16 release64 st w1 _ _ _ (prof_Permutations _ 3)).
Qed.

(** The least isize of the narrower target is where the targets do differ in release
    builds: with 32 bits its multiple is zero, with 64 bits it is right. *)
Theorem C89_least_isize :
  [/\ returns (ztimes (QuotientRing release32 ZZ 5%Z) (imin 32) 1%Z) 0%Z,
      returns (ztimes (QuotientRing release64 ZZ 5%Z) (imin 32) 1%Z) 2%Z &
      (imin 32 mod 5)%Z = 2%Z].
Proof. split; [run 40%nat|run 40%nat|reflexivity]. Qed.
Print Assumptions C89_least_isize.
