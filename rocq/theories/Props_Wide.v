(** * Props_Wide.v -- small integers can be replaced by wider ones (C64).

    [over_... int ty A] (WideSpec.v): [A I c] is a structure built by the constructors of
    the crate on top of the integers [I], compiled with profile [c], and [ty] says which
    values its element type has when the integers have the values [int].
    [..._rel follows ok ty A1 A2]: whatever a method of [A1] returns, for arguments of the
    type (members or not), the same method of [A2] returns as well, and it is of the type. *)

From mathcomp Require Import all_ssreflect all_algebra zify ssrZ.
From Coq Require Import ZArith.
From Verif Require Import Rust Traits MInts MConstr ProfSpec WideSpec.
From Verif Require Import PWide Refuted.

(** The examples: 8-bit integers in a debug build, 16-bit ones in a release build. *)
Lemma wider : [/\ stricter debug64 release64, (2 <= 8)%Z & at_least release64 8 (I16 release64)].
Proof. by split=> //; left; exists 16%Z. Qed.
Theorem C64_euclidean : forall (c1 c2 : Cfg) (w : Z) (J : EuclAlg Z),
  stricter c1 c2 -> (2 <= w)%Z -> at_least c2 w J ->
  forall (E : Type) (ty : E -> Prop) (A : EuclAlg Z -> Cfg -> EuclAlg E),
  over_eucl (bits w) ty A ->
  eucl_alg_rel (@follows) all_nums ty (A (CheckedInts c1 w) c1) (A J c2) /\
  lattice_alg_rel (@follows) ty (DivisibilityLattice (A (CheckedInts c1 w) c1))
    (DivisibilityLattice (A J c2)).
Proof. exact wide_eucl. Qed.
Print Assumptions C64_euclidean.
Example C64_euclidean_case :
  eucl_alg_rel (@follows) all_nums (in_vec (in_pair (bits 8)))
    (PolyEucl (ReducedFractions debug64 (I8 debug64)))
    (PolyEucl (ReducedFractions release64 (I16 release64))).
Proof.
have [h1 h2 h3] := wider.
by have [] := C64_euclidean _ _ _ _ h1 h2 h3 _ _ _
  (over_eucl_poly (over_ReducedFractions (over_ints (bits 8)))).
Qed.
Theorem C64_field : forall (c1 c2 : Cfg) (w : Z) (J : EuclAlg Z),
  stricter c1 c2 -> (2 <= w)%Z -> at_least c2 w J ->
  forall (E : Type) (ty : E -> Prop) (A : EuclAlg Z -> Cfg -> FieldAlg E),
  over_field (bits w) ty A ->
  field_alg_rel (@follows) all_nums ty (A (CheckedInts c1 w) c1) (A J c2) /\
  forall n v, in_vec ty v ->
  follows ty (determinant (A (CheckedInts c1 w) c1) n v) (determinant (A J c2) n v).
Proof. exact wide_field. Qed.
Print Assumptions C64_field.
Example C64_field_case :
  field_alg_rel (@follows) all_nums (bits 8)
    (QuotientField debug64 (I8 debug64) 5%Z) (QuotientField release64 (I16 release64) 5%Z).
Proof.
have [h1 h2 h3] := wider; have m5 : bits 8 5%Z by [].
by have [] := C64_field _ _ _ _ h1 h2 h3 _ _ _ (over_QuotientField (over_ints (bits 8)) m5).
Qed.
Theorem C64_integral : forall (c1 c2 : Cfg) (w : Z) (J : EuclAlg Z),
  stricter c1 c2 -> (2 <= w)%Z -> at_least c2 w J ->
  forall (E : Type) (ty : E -> Prop) (A : EuclAlg Z -> Cfg -> IDomAlg E),
  over_idom (bits w) ty A ->
  idom_alg_rel (@follows) all_nums ty (A (CheckedInts c1 w) c1) (A J c2) /\
  bounded_alg_rel (@follows) ty (DivisibilityOrder (A (CheckedInts c1 w) c1))
    (DivisibilityOrder (A J c2)).
Proof. exact wide_idom. Qed.
Print Assumptions C64_integral.
Example C64_integral_case :
  idom_alg_rel (@follows) all_nums (in_vec (bits 8)) (PolyIDom (I8 debug64)) (PolyIDom (I16 release64)).
Proof.
have [h1 h2 h3] := wider.
by have [] := C64_integral _ _ _ _ h1 h2 h3 _ _ _
  (over_idom_poly (over_idom_eucl (over_ints (bits 8)))).
Qed.
Theorem C64_ring : forall (c1 c2 : Cfg) (w : Z) (J : EuclAlg Z),
  stricter c1 c2 -> (2 <= w)%Z -> at_least c2 w J ->
  forall (E : Type) (ty : E -> Prop) (A : EuclAlg Z -> Cfg -> RingAlg E),
  over_ring (bits w) ty A ->
  ring_alg_rel (@follows) all_nums ty (A (CheckedInts c1 w) c1) (A J c2).
Proof. exact wide_ring. Qed.
Print Assumptions C64_ring.
Example C64_ring_case :
  ring_alg_rel (@follows) all_nums (in_vec (in_pair (bits 8)))
    (MatrixRing debug64 (ReducedFractions debug64 (I8 debug64)) 2)
    (MatrixRing release64 (ReducedFractions release64 (I16 release64)) 2).
Proof.
have [h1 h2 h3] := wider.
exact: (C64_ring _ _ _ _ h1 h2 h3 _ _ _
  (over_MatrixRing 2 (over_ReducedFractions (over_ints (bits 8))))).
Qed.
Theorem C64_group : forall (c1 c2 : Cfg) (w : Z) (J : EuclAlg Z),
  stricter c1 c2 -> (2 <= w)%Z -> at_least c2 w J ->
  forall (E : Type) (ty : E -> Prop) (A : EuclAlg Z -> Cfg -> GroupAlg E),
  over_group (bits w) ty A ->
  group_alg_rel (@follows) all_nums ty (A (CheckedInts c1 w) c1) (A J c2).
Proof. exact wide_group. Qed.
Print Assumptions C64_group.
Example C64_group_case :
  group_alg_rel (@follows) all_nums (bits 8) (AdditiveGroup debug64 (ring_abelian (I8 debug64)))
    (AdditiveGroup release64 (ring_abelian (I16 release64))).
Proof.
have [h1 h2 h3] := wider.
exact: (C64_group _ _ _ _ h1 h2 h3 _ _ _
  (over_AdditiveGroup (over_ring_idom (over_idom_eucl (over_ints (bits 8)))))).
Qed.
Theorem C64_unsigned : forall w w' : Z, (1 <= w)%Z -> (w <= w')%Z ->
  semiring_alg_rel (@follows) (fun x => is_true (in_u w x)) (CheckedUints w) (CheckedUints w').
Proof. exact wide_uints. Qed.
Print Assumptions C64_unsigned.

(** The hypotheses are met by polynomials over the fractions of 8-bit integers, and by the
    invertible matrices over them. *)
Example C64_widths c : at_least c 8 (CheckedInts c 16) /\ at_least c 8 ZZ.
Proof. by split; [left; exists 16%Z|right]. Qed.
Example C64_poly : over_eucl (bits 8) (in_vec (in_pair (bits 8)))
  (fun I c => PolyEucl (ReducedFractions c I)).
Proof. by apply: over_eucl_poly; apply: (@over_ReducedFractions (bits 8) Z _ (fun I _ => I)); exact: over_ints. Qed.
Example C64_units : over_group (bits 8) (in_vec (in_pair (bits 8)))
  (fun I c => MultiplicativeGroup c (MatrixRing c (ReducedFractions c I) 2)).
Proof.
apply: (@over_MultiplicativeGroup _ _ _ (fun I c => MatrixRing c (ReducedFractions c I) 2)).
apply: (@over_MatrixRing _ _ _ 2%nat (fun I c => ReducedFractions c I)).
by apply: (@over_ReducedFractions (bits 8) Z _ (fun I _ => I)); exact: over_ints.
Qed.
(** 60 + 60 fits into 8 bits; 100 + 100 fits into 16 bits. The least 8-bit number has no
    8-bit negative. *)
Example C64_case :
  [/\ returns (add (ReducedFractions debug64 (I8 debug64)) (60, 7) (60, 7)) (120, 7),
      returns (add (ReducedFractions debug64 ZZ) (60, 7) (60, 7)) (120, 7),
      panics (add (ReducedFractions debug64 (I8 debug64)) (100, 7) (100, 7)) &
      returns (add (ReducedFractions debug64 (I16 debug64)) (100, 7) (100, 7)) (200, 7)]%Z /\
  (panics (neg (I8 debug64) (-128)) /\ returns (neg (I16 debug64) (-128)) 128)%Z.
Proof. by split; [split|split]; run 20%nat. Qed.
