(** * Props_Profile.v -- the build profile does not change results (C44).

    [c1] and [c2] are two profiles for the same machine: overflow checks and debug
    assertions may differ. [prof_... ty A] (ProfSpec.v): [A c] is a structure built by the
    constructors of the crate, compiled with profile [c], and [ty] says which values its
    element type has. [..._rel agree ok ty A1 A2]: every method of [A1] and [A2], called
    with the same arguments of the type (members or not) and an isize number in [ok],
    has the same outcome: both return the same value, both panic or both run forever. *)

From mathcomp Require Import all_ssreflect all_algebra zify ssrZ.
From Coq Require Import ZArith.
From Verif Require Import Rust Traits MInts MConstr Spec RingSpec CallSpec ProfSpec.
From Verif Require Import PInts POrders PProf3 PProf4 Refuted.

Import GRing.Theory.
Local Open Scope ring_scope.

Theorem C44_field : forall (c1 c2 : Cfg) (E : Type) (ty : E -> Prop) (A : Cfg -> FieldAlg E),
  same_machine c1 c2 -> prof_field ty A ->
  field_alg_rel (@agree) (not_min c1) ty (A c1) (A c2).
Proof. exact agree_field. Qed.
Print Assumptions C44_field.
(** A debug and a release build, fractions of 8-bit numbers. *)
Example C44_field_case :
  field_alg_rel (@agree) (not_min debug64) (in_pair (fun x => is_true (in_i 8 x)))
    (ReducedFractions debug64 (I8 debug64)) (ReducedFractions release64 (I8 release64)).
Proof.
have w2 : (2 <= 8)%Z by [].
exact: (C44_field debug64 release64 _ _ _ erefl (prof_ReducedFractions (prof_CheckedInts w2))).
Qed.
Theorem C44_euclidean : forall (c1 c2 : Cfg) (E : Type) (ty : E -> Prop)
    (A : Cfg -> EuclAlg E), same_machine c1 c2 -> prof_eucl ty A ->
  eucl_alg_rel (@agree) (not_min c1) ty (A c1) (A c2) /\
  lattice_alg_rel (@agree) ty (DivisibilityLattice (A c1)) (DivisibilityLattice (A c2)).
Proof. exact agree_eucl. Qed.
Print Assumptions C44_euclidean.
(** Polynomials modulo 5. *)
Example C44_euclidean_case :
  eucl_alg_rel (@agree) (not_min debug64) (in_vec (fun _ => True))
    (PolyEucl (QuotientField debug64 ZZ 5%Z)) (PolyEucl (QuotientField release64 ZZ 5%Z)).
Proof.
by have [] := C44_euclidean debug64 release64 _ _ _ erefl
  (prof_eucl_poly (prof_QuotientField (m := 5%Z) prof_ZZ I)).
Qed.
Theorem C44_integral : forall (c1 c2 : Cfg) (E : Type) (ty : E -> Prop)
    (A : Cfg -> IDomAlg E), same_machine c1 c2 -> prof_idom ty A ->
  idom_alg_rel (@agree) (not_min c1) ty (A c1) (A c2) /\
  bounded_alg_rel (@agree) ty (DivisibilityOrder (A c1)) (DivisibilityOrder (A c2)).
Proof. exact agree_idom. Qed.
Print Assumptions C44_integral.
Example C44_integral_case :
  idom_alg_rel (@agree) (not_min debug64) (in_vec (fun x => is_true (in_i 8 x)))
    (PolyIDom (I8 debug64)) (PolyIDom (I8 release64)).
Proof.
have w2 : (2 <= 8)%Z by [].
by have [] := C44_integral debug64 release64 _ _ _ erefl
  (prof_idom_poly (prof_idom_eucl (prof_CheckedInts w2))).
Qed.
(** Rings and groups without matrices inside. *)
Theorem C44_ring : forall (c1 c2 : Cfg) (E : Type) (ty : E -> Prop) (A : Cfg -> RingAlg E),
  same_machine c1 c2 -> Z.le 2 (ptr_bits c1) -> prof_ring false ty A ->
  ring_alg_rel (@agree) (not_min c1) ty (A c1) (A c2).
Proof. exact agree_ring. Qed.
Print Assumptions C44_ring.
Example C44_ring_case :
  ring_alg_rel (@agree) (not_min debug64) (in_vec (fun _ => True))
    (VectorRing debug64 3 (QuotientRing debug64 ZZ 6%Z))
    (VectorRing release64 3 (QuotientRing release64 ZZ 6%Z)).
Proof.
by apply: (C44_ring debug64 release64 _ _ (fun c => VectorRing c 3 (QuotientRing c ZZ 6%Z))) => //;
  exact: prof_VectorRing (prof_QuotientRing (m := 6%Z) _ prof_ZZ I).
Qed.
Theorem C44_group : forall (c1 c2 : Cfg) (E : Type) (ty : E -> Prop) (A : Cfg -> GroupAlg E),
  same_machine c1 c2 -> Z.le 2 (ptr_bits c1) -> prof_group false ty A ->
  group_alg_rel (@agree) (not_min c1) ty (A c1) (A c2).
Proof. exact agree_group. Qed.
Print Assumptions C44_group.
Example C44_group_case :
  group_alg_rel (@agree) (not_min debug64) (fun v => size v = 3%nat)
    (Permutations debug64 3) (Permutations release64 3).
Proof.
by apply: (C44_group debug64 release64 _ _ (fun c => Permutations c 3)) => //;
  exact: prof_Permutations.
Qed.
(** Matrices: all methods but [try_inv]; for [try_inv], which makes a debug assertion, on
    the matrices over a field. *)
Theorem C44_matrix : forall (c1 c2 : Cfg) (E : Type) (ty : E -> Prop) (n : nat)
    (A : Cfg -> FieldAlg E),
  same_machine c1 c2 -> Z.le 2 (ptr_bits c1) -> prof_field ty A ->
  let R1 := MatrixRing c1 (A c1) n in let R2 := MatrixRing c2 (A c2) n in
  [/\ domain_rel (@agree) (in_vec ty) R1 R2, semigroup_rel (@agree) (in_vec ty) R1 R2,
      cmonoid_rel (@agree) (in_vec ty) R1 R2,
      abelian_rel (@agree) (not_min c1) (in_vec ty) R1 R2 &
      unitary_rel (@agree) (not_min c1) (in_vec ty) R1 R2] /\
  [/\ agree (in_vec ty) (one R1) (one R2),
      rel1b (@agree) (in_vec ty) (is_one R1) (is_one R2),
      rel1b (@agree) (in_vec ty) (invertible R1) (invertible R2) &
      forall v, in_vec ty v -> agree ty (determinant (A c1) n v) (determinant (A c2) n v)].
Proof. exact agree_matrix. Qed.
Print Assumptions C44_matrix.
Example C44_matrix_case :
  semigroup_rel (@agree) (in_vec (fun _ => True)) (MatrixRing debug64 (QuotientField debug64 ZZ 5%Z) 2)
    (MatrixRing release64 (QuotientField release64 ZZ 5%Z) 2).
Proof.
by have [|[]] := C44_matrix debug64 release64 _ _ 2 _ erefl _
  (prof_QuotientField (m := 5%Z) prof_ZZ I).
Qed.
Theorem C44_matrix_try_inv : forall (c1 c2 : Cfg) (p : Prop) (E : Type) (ty : E -> Prop)
    (n : nat) (A : Cfg -> FieldAlg E) (F : fieldType) (rep : E -> F -> Prop),
  same_machine c1 c2 -> Z.le 2 (ptr_bits c1) -> prof_field ty A ->
  (forall x a, rep x a -> ty x) ->
  field_alg_spec c1 p rep (A c1) -> field_alg_spec c2 p rep (A c2) ->
  forall (x : seq E) (N : 'M[F]_n), matrix_of rep x N ->
  same_call (try_inv (MatrixRing c1 (A c1) n) x) (try_inv (MatrixRing c2 (A c2) n) x).
Proof. exact agree_matrix_try_inv. Qed.
Print Assumptions C44_matrix_try_inv.
Example C44_matrix_try_inv_case (x : seq bool) (N : 'M_2) : matrix_of bb_rep x N ->
  same_call (try_inv (MatrixRing debug64 BB 2) x) (try_inv (MatrixRing release64 BB 2) x).
Proof.
by apply: (C44_matrix_try_inv debug64 release64 False bool _ 2 (fun _ => BB) _ bb_rep _ _ prof_BB)
  => //; exact: BB_ok.
Qed.

(** For all isize numbers, the least one included, a build with fewer checks returns
    whatever a build with more checks returns; here matrices can be anywhere. *)
Theorem C44_fewer_checks_field : forall (c1 c2 : Cfg) (E : Type) (ty : E -> Prop)
    (A : Cfg -> FieldAlg E), stricter c1 c2 -> prof_field ty A ->
  field_alg_rel (@follows) (fun _ => True) ty (A c1) (A c2).
Proof. exact follows_field. Qed.
Print Assumptions C44_fewer_checks_field.
Example C44_fewer_checks_field_case :
  field_alg_rel (@follows) (fun _ => True) (in_pair (fun x => is_true (in_i 8 x)))
    (ReducedFractions debug64 (I8 debug64)) (ReducedFractions release64 (I8 release64)).
Proof.
have w2 : (2 <= 8)%Z by [].
by apply: (C44_fewer_checks_field debug64 release64 _ _ _ _ (prof_ReducedFractions (prof_CheckedInts w2))).
Qed.
Theorem C44_fewer_checks_euclidean : forall (c1 c2 : Cfg) (E : Type) (ty : E -> Prop)
    (A : Cfg -> EuclAlg E), stricter c1 c2 -> prof_eucl ty A ->
  eucl_alg_rel (@follows) (fun _ => True) ty (A c1) (A c2) /\
  lattice_alg_rel (@follows) ty (DivisibilityLattice (A c1)) (DivisibilityLattice (A c2)).
Proof. exact follows_eucl. Qed.
Print Assumptions C44_fewer_checks_euclidean.
Example C44_fewer_checks_euclidean_case :
  eucl_alg_rel (@follows) (fun _ => True) (in_vec (fun _ => True))
    (PolyEucl (QuotientField debug64 ZZ 5%Z)) (PolyEucl (QuotientField release64 ZZ 5%Z)).
Proof.
by have [|] := C44_fewer_checks_euclidean debug64 release64 _ _ _ _
  (prof_eucl_poly (prof_QuotientField (m := 5%Z) prof_ZZ I)).
Qed.
Theorem C44_fewer_checks_integral : forall (c1 c2 : Cfg) (E : Type) (ty : E -> Prop)
    (A : Cfg -> IDomAlg E), stricter c1 c2 -> prof_idom ty A ->
  idom_alg_rel (@follows) (fun _ => True) ty (A c1) (A c2) /\
  bounded_alg_rel (@follows) ty (DivisibilityOrder (A c1)) (DivisibilityOrder (A c2)).
Proof. exact follows_idom. Qed.
Print Assumptions C44_fewer_checks_integral.
Example C44_fewer_checks_integral_case :
  idom_alg_rel (@follows) (fun _ => True) (in_vec (fun x => is_true (in_i 8 x)))
    (PolyIDom (I8 debug64)) (PolyIDom (I8 release64)).
Proof.
have w2 : (2 <= 8)%Z by [].
by have [|] := C44_fewer_checks_integral debug64 release64 _ _ _ _
  (prof_idom_poly (prof_idom_eucl (prof_CheckedInts w2))).
Qed.
Theorem C44_fewer_checks_ring : forall (c1 c2 : Cfg) (E : Type) (ty : E -> Prop)
    (A : Cfg -> RingAlg E), stricter c1 c2 -> prof_ring true ty A ->
  ring_alg_rel (@follows) (fun _ => True) ty (A c1) (A c2).
Proof. exact follows_ring. Qed.
Print Assumptions C44_fewer_checks_ring.
Example C44_fewer_checks_ring_case :
  ring_alg_rel (@follows) (fun _ => True) (in_vec (fun _ => True))
    (MatrixRing debug64 (QuotientField debug64 ZZ 5%Z) 2)
    (MatrixRing release64 (QuotientField release64 ZZ 5%Z) 2).
Proof.
by apply: (C44_fewer_checks_ring debug64 release64 _ _ _ _
  (prof_MatrixRing 2 (isT : true) (prof_QuotientField (m := 5%Z) prof_ZZ I))).
Qed.
Theorem C44_fewer_checks_group : forall (c1 c2 : Cfg) (E : Type) (ty : E -> Prop)
    (A : Cfg -> GroupAlg E), stricter c1 c2 -> prof_group true ty A ->
  group_alg_rel (@follows) (fun _ => True) ty (A c1) (A c2).
Proof. exact follows_group. Qed.
Print Assumptions C44_fewer_checks_group.
Example C44_fewer_checks_group_case :
  group_alg_rel (@follows) (fun _ => True) (fun v => size v = 3%nat)
    (Permutations debug64 3) (Permutations release64 3).
Proof. by apply: (C44_fewer_checks_group debug64 release64 _ _ _ _ (prof_Permutations _ 3)). Qed.

(** At the least isize the builds do differ: the checked one panics, the other returns a
    wrong value. *)
Theorem C44_least_isize :
  [/\ panics (fpower (QQ debug64) (imin 64) (1, 2)%Z),
      returns (fpower (QQ release64) (imin 64) (1, 2)%Z) (1, 1)%Z,
      panics (ztimes (QuotientRing debug64 ZZ 5%Z) (imin 64) 1%Z) &
      returns (ztimes (QuotientRing release64 ZZ 5%Z) (imin 64) 1%Z) 0%Z /\
      (imin 64 mod 5)%Z = 2%Z].
Proof.
exact (And4 QQ_power_min_debug QQ_power_min_release mod5_times_min_debug
  mod5_times_min_release).
Qed.
Print Assumptions C44_least_isize.

(** The hypotheses are met: by the usual two profiles, and for instance by polynomials over
    the fractions of 8-bit integers and by invertible matrices over the residues modulo 5. *)
Example C44_profiles : same_machine debug64 release64 /\ stricter debug64 release64.
Proof. by split. Qed.
Example C44_poly : prof_eucl (in_vec (in_pair (in_i 8)))
  (fun c => PolyEucl (ReducedFractions c (CheckedInts c 8))).
Proof.
by apply: prof_eucl_poly; apply: prof_ReducedFractions; apply: prof_CheckedInts.
Qed.
Example C44_units : prof_group true (in_vec (fun _ : Z => True))
  (fun c => MultiplicativeGroup c (MatrixRing c (QuotientField c ZZ 5%Z) 2)).
Proof.
apply: prof_MultiplicativeGroup; apply: prof_MatrixRing => //.
exact: prof_QuotientField prof_ZZ I.
Qed.
Example C44_BB (x : seq bool) (N : 'M_2) : matrix_of bb_rep x N ->
  same_call (try_inv (MatrixRing debug64 BB 2) x) (try_inv (MatrixRing release64 BB 2) x).
Proof.
apply: (C44_matrix_try_inv debug64 release64 False bool _ 2 (fun _ => BB) _ bb_rep _ _ prof_BB)
  => //; exact: BB_ok.
Qed.
Example C44_case :
  let A c := ReducedFractions c (CheckedInts c 8) in
  let v := [:: (0, 1); (2, 1); (1, 1); (1, 1)]%Z in
  let w := [:: (-1, 2); (1, 1); (1, 2); (0, 1)]%Z in
  [/\ returns (try_inv (MatrixRing debug64 (A debug64) 2) v) (Some w),
      returns (try_inv (MatrixRing release64 (A release64) 2) v) (Some w),
      panics (mul (A debug64) (100, 1) (3, 1))%Z & panics (mul (A release64) (100, 1) (3, 1))%Z].
Proof. by split; run 30%nat. Qed.
