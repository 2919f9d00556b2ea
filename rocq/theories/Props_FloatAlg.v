(** * Props_FloatAlg.v -- vectors, polynomials and matrices over floats (C63). *)

From Coq Require Import ZArith Reals SpecFloat.
From mathcomp Require Import all_ssreflect.
From Flocq Require Import Core BinarySingleNaN.
From Verif Require Import Rust Traits MConstr MFloats FloatSpec ProfSpec FloatProfSpec HaltSpec FloatAlgSpec.
From Verif Require Import PFloat3 PFloatAlg PFloatAlg2 Refuted.

(** ** C63: vectors, polynomials and matrices over floats keep finite entries *)
Theorem C63_finite : forall (cfg : Cfg) (prec emax : Z)
    (hp : Prec_gt_0 prec) (he : Prec_lt_emax prec emax) (n : nat),
  let A := ApproxFloats cfg hp he in
  let fin := @finite prec emax in
  [/\ ring_alg_rel halts small_num (in_vec fin) (VectorRing cfg n A) (VectorRing cfg n A),
      eucl_alg_rel halts small_num (in_vec fin) (PolyEucl A) (PolyEucl A),
      ring_alg_rel halts small_num (in_vec fin) (MatrixRing cfg A n) (MatrixRing cfg A n) &
      forall v, in_vec fin v -> halts fin (determinant A n v) (determinant A n v)].
Proof. exact finite_towers. Qed.
Print Assumptions C63_finite.
(** 5/4 + 3/4 is 2, and (1 + 2x)(3 + 4x) = 3 + 10x + 8x^2. *)
Example C63_finite_case :
  shows_all (add (VectorRing debug64 2 (F64 debug64)) [:: f64_num 5 (-2); f64_num 1 0]
               [:: f64_num 3 (-2); f64_num 1 0])
    [:: S754_finite false (2 ^ 52) (-51); S754_finite false (2 ^ 52) (-51)] /\
  shows_all (mul (PolyEucl (F64 debug64)) [:: f64_num 1 0; f64_num 2 0] [:: f64_num 3 0; f64_num 4 0])
    [:: S754_finite false (3 * 2 ^ 51) (-51); S754_finite false (5 * 2 ^ 50) (-49);
        S754_finite false (2 ^ 52) (-49)].
Proof. by split; show_all 10%nat. Qed.

(** Powers and repeated additions, for any number *)
Theorem C63_powers : forall (cfg : Cfg) (prec emax : Z)
    (hp : Prec_gt_0 prec) (he : Prec_lt_emax prec emax) (n : nat),
  let A := ApproxFloats cfg hp he in
  let fin := @finite prec emax in
  let V := VectorRing cfg n A in
  let P : RingAlg (seq (binary_float prec emax)) := PolyEucl A in
  let T := MatrixRing cfg A n in
  [/\ forall k, rel1 halts fin (fpower A k) (fpower A k),
      group_alg_rel halts every_num (in_vec fin) (MultiplicativeGroup cfg V)
        (MultiplicativeGroup cfg V) /\
      group_alg_rel halts every_num (in_vec fin) (AdditiveGroup cfg V) (AdditiveGroup cfg V),
      group_alg_rel halts every_num (in_vec fin) (MultiplicativeGroup cfg P)
        (MultiplicativeGroup cfg P) /\
      group_alg_rel halts every_num (in_vec fin) (AdditiveGroup cfg P) (AdditiveGroup cfg P) &
      group_alg_rel halts every_num (in_vec fin) (MultiplicativeGroup cfg T)
        (MultiplicativeGroup cfg T) /\
      group_alg_rel halts every_num (in_vec fin) (AdditiveGroup cfg T) (AdditiveGroup cfg T)].
Proof. exact finite_powers. Qed.
Print Assumptions C63_powers.

(** The third power of a matrix with ones above the diagonal; the entry 10^300 is too
    large to be squared. *)
Example C63_powers_case :
  shows_all (gpower (MultiplicativeGroup debug64 (MatrixRing debug64 (F64 debug64) 2)) 3
               [:: f64_num 1 0; f64_num 1 0; f64_num 0 0; f64_num 1 0])
    [:: S754_finite false (2 ^ 52) (-52); S754_finite false (3 * 2 ^ 51) (-51);
        S754_zero false; S754_finite false (2 ^ 52) (-52)] /\
  panics (gpower (MultiplicativeGroup debug64 (MatrixRing debug64 (F64 debug64) 1)) 2
            [:: f64_num (10 ^ 300) 0]).
Proof. by split; [show_all 10%nat|run 10%nat]. Qed.

Theorem C63_lattice : forall (prec emax : Z)
    (tie : binary_float prec emax -> binary_float prec emax -> bool) (n : nat),
  let fin := @finite prec emax in
  let L := VectorLattice n (ApproxFloats_lattice tie) in
  lattice_alg_rel halts (in_vec fin) L L.
Proof. exact finite_vector_lattice. Qed.
Print Assumptions C63_lattice.
Example C63_lattice_case :
  shows_all (meet (VectorLattice 2 (F64_lattice (fun _ _ => true))) [:: f64_num 1 0; f64_num 4 0]
               [:: f64_num 2 0; f64_num 1 0])
    [:: S754_finite false (2 ^ 52) (-52); S754_finite false (2 ^ 52) (-52)].
Proof. show_all 10%nat. Qed.

(** The isize multiples of vectors and matrices are finite too, or panic; those of
    polynomials may be infinite. *)
Theorem C63_times : forall (cfg : Cfg) (prec emax : Z)
    (hp : Prec_gt_0 prec) (he : Prec_lt_emax prec emax) (n : nat) (k : Z),
  let A := ApproxFloats cfg hp he in
  let fin := @finite prec emax in
  rel1 halts (in_vec fin) (ztimes (VectorRing cfg n A) k) (ztimes (VectorRing cfg n A) k) /\
  rel1 halts (in_vec fin) (ztimes (MatrixRing cfg A n) k) (ztimes (MatrixRing cfg A n) k).
Proof. exact finite_times. Qed.
Print Assumptions C63_times.
Theorem C63_times_infinite :
  shows_all (ztimes (PolyEucl (F64 debug64)) 2 [:: f64_max]) [:: S754_infinity false].
Proof. show_all 10%nat. Qed.
Print Assumptions C63_times_infinite.
Example C63_times_case :
  panics (ztimes (VectorRing debug64 1 (F64 debug64)) 2 [:: f64_max]) /\
  shows_all (ztimes (MatrixRing debug64 (F64 debug64) 1) (-3) [:: f64_num 1 0])
    [:: S754_finite true (3 * 2 ^ 51) (-51)].
Proof. by split; [run 10%nat|show_all 10%nat]. Qed.

(** *** What finite entries do not give *)
(** Two equal rows: the determinant is not zero, the matrix is invertible, and the release
    build returns an inverse of it, while the debug build panics. *)
Theorem C63_singular :
  let m := [:: f64_num 49 0; f64_num 1 0; f64_num 49 0; f64_num 1 0] in
  [/\ shows (determinant (F64 debug64) 2 m) (S754_finite false 6896136929411072 (-100)),
      returns (invertible (MatrixRing debug64 (F64 debug64) 2) m) true,
      shows_some (try_inv (MatrixRing release64 (F64 release64) 2) m)
        [:: S754_finite false 5882252574524729 (-5); S754_finite true 5882252574524729 (-5);
            S754_finite true 9007199254740991 0; S754_finite false 4503599627370496 1] &
      panics (try_inv (MatrixRing debug64 (F64 debug64) 2) m)].
Proof. exact float_singular. Qed.
Print Assumptions C63_singular.

(** The matrix (49) is inverted by the release build, while the debug build panics. *)
Theorem C63_inverse :
  [/\ returns (invertible (MatrixRing debug64 (F64 debug64) 1) [:: f64_num 49 0]) true,
      shows_some (try_inv (MatrixRing release64 (F64 release64) 1) [:: f64_num 49 0])
        [:: S754_finite false 5882252574524729 (-58)] &
      panics (try_inv (MatrixRing debug64 (F64 debug64) 1) [:: f64_num 49 0])].
Proof. exact float_inverse. Qed.
Print Assumptions C63_inverse.

(** The square of the member 2^-1000 is no member, multiplication does not commute, the
    remainder of x + 1 by 49 x + 49 is not zero, and the two are relative primes. *)
Theorem C63_polynomials :
  let P := PolyEucl (F64 debug64) in
  let fl n := f64_num n 0 in
  [/\ let p := [:: f64_num 1 (-1000)] in
      [/\ returns (contains P p) true, shows_all (mul P p p) [:: S754_zero false] &
          returns (let! q := mul P p p in contains P q) false],
      let p := [:: fl 1%Z; fl 1%Z; fl 1%Z] in
      let q := [:: fl 1%Z; f64_num 1 (-53); f64_num 1 (-53)] in
      returns (let! s := mul P p q in let! t := mul P q p in equals P s t) false,
      shows_all (rem P [:: fl 1%Z; fl 1%Z] [:: fl 49%Z; fl 49%Z])
        [:: S754_finite false (2 ^ 52) (-105)] &
      returns (relative_primes P [:: fl 1%Z; fl 1%Z] [:: fl 49%Z; fl 49%Z]) true].
Proof. exact float_polynomials. Qed.
Print Assumptions C63_polynomials.

(** ** Everything that can be built on top of floats

    [on_... fin ty A] (FloatProfSpec.v): [A B c] is built on top of the field [B]; [ty] says
    that all floats in an element are finite. *)
Theorem C63_tower_euclidean : forall (c : Cfg) (prec emax : Z) (hp : Prec_gt_0 prec)
    (he : Prec_lt_emax prec emax) (E : Type) (ty : E -> Prop) A,
  on_eucl (@finite prec emax) ty A -> let S := A (ApproxFloats c hp he) c in
  [/\ eucl_alg_rel halts small_num ty S S,
      bounded_alg_rel halts ty (DivisibilityOrder S) (DivisibilityOrder S) &
      lattice_alg_rel halts ty (DivisibilityLattice S) (DivisibilityLattice S)].
Proof. exact finite_eucl_stmt. Qed.
Print Assumptions C63_tower_euclidean.
(** Polynomials over the rational functions *)
Example C63_tower_euclidean_case c : let S := PolyEucl (ReducedFractions c (PolyEucl (F64 c))) in
  eucl_alg_rel halts small_num (in_vec (in_pair (in_vec (@finite 53 1024)))) S S.
Proof.
have [] // := C63_tower_euclidean c 53 1024 prec64 emax64 _
  (in_vec (in_pair (in_vec (@finite 53 1024)))) (fun B c => PolyEucl (ReducedFractions c (PolyEucl B))).
by apply: on_eucl_poly; apply: (on_ReducedFractions (A := fun B _ => PolyEucl B)); apply: on_eucl_poly; exact: on_reals.
Qed.
Theorem C63_tower_field : forall (c : Cfg) (prec emax : Z) (hp : Prec_gt_0 prec)
    (he : Prec_lt_emax prec emax) (E : Type) (ty : E -> Prop) A,
  on_field (@finite prec emax) ty A -> let S := A (ApproxFloats c hp he) c in
  field_alg_rel halts small_num ty S S /\
  forall n v, in_vec ty v -> halts ty (determinant S n v) (determinant S n v).
Proof. exact finite_field_stmt. Qed.
Print Assumptions C63_tower_field.
(** The complex numbers: (1 + 2i)(3 + 4i) = -5 + 10i, and the inverse of 2i is -i/2. *)
Example C63_tower_field_case c :
  let m := [:: f64_num 1 0; f64_num 0 0; f64_num 1 0] in let S := QuotientField c (PolyEucl (F64 c)) m in
  (field_alg_rel halts small_num (in_vec (@finite 53 1024)) S S) /\
  shows_all (mul S [:: f64_num 1 0; f64_num 2 0] [:: f64_num 3 0; f64_num 4 0])
    [:: S754_finite true (5 * 2 ^ 50) (-50); S754_finite false (5 * 2 ^ 50) (-49)] /\
  shows_all (finv S [:: f64_num 0 0; f64_num 2 0])
    [:: S754_zero false; S754_finite true (2 ^ 52) (-53)].
Proof.
move=> m S; split; last by case: c @m @S => -[] -[] ? m S; split; show_all 20%nat.
by have [] // := C63_tower_field c 53 1024 prec64 emax64 _ (in_vec (@finite 53 1024))
  (fun B c => QuotientField c (PolyEucl B) m);
  apply: (on_QuotientField (A := fun B _ => PolyEucl B)) => //; apply: on_eucl_poly; exact: on_reals.
Qed.
Theorem C63_tower_domain : forall (c : Cfg) (prec emax : Z) (hp : Prec_gt_0 prec)
    (he : Prec_lt_emax prec emax) (E : Type) (ty : E -> Prop) A,
  on_idom (@finite prec emax) ty A -> let S := A (ApproxFloats c hp he) c in
  idom_alg_rel halts small_num ty S S.
Proof. exact finite_idom_all. Qed.
Print Assumptions C63_tower_domain.
(** Polynomials in two variables *)
Example C63_tower_domain_case c : let S := PolyIDom (PolyEucl (F64 c)) in
  idom_alg_rel halts small_num (in_vec (in_vec (@finite 53 1024))) S S.
Proof.
apply: (C63_tower_domain c 53 1024 prec64 emax64 _ _ (fun B c => PolyIDom (PolyEucl B))).
by apply: (on_idom_poly (A := fun B _ => PolyEucl B)); apply: (on_idom_eucl (A := fun B _ => PolyEucl B));
  apply: on_eucl_poly; exact: on_reals.
Qed.
Theorem C63_tower_ring : forall (c : Cfg) (prec emax : Z) (hp : Prec_gt_0 prec)
    (he : Prec_lt_emax prec emax) (mat : bool) (E : Type) (ty : E -> Prop) A,
  on_ring (@finite prec emax) mat ty A -> let S := A (ApproxFloats c hp he) c in
  ring_alg_rel halts small_num ty S S.
Proof. exact finite_ring_all. Qed.
Print Assumptions C63_tower_ring.
(** Vectors of matrices *)
Example C63_tower_ring_case c : let S := VectorRing c 3 (MatrixRing c (F64 c) 2) in
  ring_alg_rel halts small_num (in_vec (in_vec (@finite 53 1024))) S S.
Proof.
apply: (C63_tower_ring c 53 1024 prec64 emax64 true _ _ (fun B c => VectorRing c 3 (MatrixRing c B 2))).
by apply: (on_VectorRing 3 (A := fun B c => MatrixRing c B 2)); apply: (on_MatrixRing 2 (A := fun B _ => B)) => //;
  exact: on_reals.
Qed.
(** Powers, for any number *)
Theorem C63_tower_group : forall (c : Cfg) (prec emax : Z) (hp : Prec_gt_0 prec)
    (he : Prec_lt_emax prec emax) (mat : bool) (E : Type) (ty : E -> Prop) A,
  on_group (@finite prec emax) mat ty A -> let S := A (ApproxFloats c hp he) c in
  group_alg_rel halts every_num ty S S.
Proof. exact finite_group_all. Qed.
Print Assumptions C63_tower_group.
Example C63_tower_group_case c : let S := MultiplicativeGroup c (MatrixRing c (F64 c) 2) in
  group_alg_rel halts every_num (in_vec (@finite 53 1024)) S S.
Proof.
apply: (C63_tower_group c 53 1024 prec64 emax64 true _ _
  (fun B c => MultiplicativeGroup c (MatrixRing c B 2))).
by apply: (on_MultiplicativeGroup (A := fun B c => MatrixRing c B 2));
  apply: (on_MatrixRing 2 (A := fun B _ => B)) => //; exact: on_reals.
Qed.
