(** * Props_Place.v -- C80: in-place methods that panic.

    MPlace.v transcribes the in-place methods (mul_assign, square, add_assign, double,
    neg_assign, sub_assign) with the contents of the place they write to; PlaceSpec.v says what
    is claimed about it: [tracks] (the same results and panics as in the other files),
    [untouched] (after a panic the place is as before), [partly] (vectors: the entries before
    the one that panicked are changed), [keeps mem] (members stay members, whether the call
    returns or panics). *)

From Coq Require Import ZArith Reals SpecFloat.
From mathcomp Require Import all_ssreflect all_algebra.
From Coq Require Import ZArith.
From Flocq Require Import Core BinarySingleNaN.
From Verif Require Import Rust Traits MInts MConstr MFloats MPlace MemberSpec ParSpec Spec RingSpec
  PlaceSpec.
From Verif Require Import PPlace PPlaceF PPlace2 Quotient PFloat3 PMember PPar2 PPar3 PPar4 PCases Refuted.

(** ** C80 *)
(** Everywhere but in vectors, matrices and permutations a call that panics has not written. *)
Theorem C80_quotients : forall (cfg : Cfg) (E : Type) (A : EuclAlg E) (m : E),
  (tracks (QuotientRing cfg A m) (default_places (QuotientRing cfg A m)) /\
   untouched (default_places (QuotientRing cfg A m))) /\
  (tracks (QuotientField cfg A m) (default_places (QuotientField cfg A m)) /\
   untouched (default_places (QuotientField cfg A m))).
Proof.
exact (fun cfg E A m => conj (default_ok (proj1 (quotient_default cfg A m)))
         (default_ok (proj2 (quotient_default cfg A m)))).
Qed.
Print Assumptions C80_quotients.
Theorem C80_fractions : forall (cfg : Cfg) (E : Type) (A : EuclAlg E),
  tracks (ReducedFractions cfg A) (default_places (ReducedFractions cfg A)) /\
  untouched (default_places (ReducedFractions cfg A)).
Proof. exact (fun cfg E A => default_ok (fractions_default cfg A)). Qed.
Print Assumptions C80_fractions.
Theorem C80_polynomials : forall (E : Type) (A : RingAlg E),
  tracks (PolyRing A) (default_places (PolyRing A)) /\ untouched (default_places (PolyRing A)).
Proof. exact (fun E A => default_ok (poly_default A)). Qed.
Print Assumptions C80_polynomials.
Theorem C80_machine_integers : forall (cfg : Cfg) (w : Z),
  tracks (CheckedInts cfg w) (default_places (CheckedInts cfg w)) /\
  untouched (default_places (CheckedInts cfg w)) /\
  [/\ tracks_mul (CheckedUints w) (default_place_mul (mul (CheckedUints w))),
      untouched_mul (default_place_mul (mul (CheckedUints w))),
      tracks_add (CheckedUints w) (default_place_add (add (CheckedUints w))) &
      untouched_add (default_place_add (add (CheckedUints w)))].
Proof.
exact (fun cfg w => let: conj t u := default_ok (checked_default cfg w) in
         conj t (conj u (uints_places_ok w))).
Qed.
Print Assumptions C80_machine_integers.
(** Numbers of arbitrary size and bits. *)
Theorem C80_numbers :
  [/\ tracks ZZ integers_places /\ untouched integers_places,
      [/\ tracks_mul NN naturals_place_mul, untouched_mul naturals_place_mul,
          tracks_add NN naturals_place_add & untouched_add naturals_place_add] &
      tracks BB two_places /\ forall x y k z,
        [/\ p_mul_assign two_places x y k <> Broken z, p_square two_places x k <> Broken z,
            p_add_assign two_places x y k <> Broken z, p_double two_places x k <> Broken z &
            p_neg_assign two_places x k <> Broken z /\ p_sub_assign two_places x y k <> Broken z]].
Proof. exact (And3 integers_places_ok naturals_places_ok two_places_ok). Qed.
Print Assumptions C80_numbers.
Theorem C80_floats : forall (cfg : Cfg) (prec emax : Z) (hp : Prec_gt_0 prec)
    (he : Prec_lt_emax prec emax),
  [/\ tracks (ApproxFloats cfg hp he) (default_places (ApproxFloats cfg hp he)),
      untouched (default_places (ApproxFloats cfg hp he)) &
      keeps (fun x => is_finite x = true) (default_places (ApproxFloats cfg hp he))].
Proof.
exact (fun cfg prec emax hp he => let: conj t u := floats_places_ok cfg hp he in
         And3 t u (floats_keeps cfg hp he)).
Qed.
Print Assumptions C80_floats.
(** 100 + 100 does not fit into 8 bits, 2 * f64::MAX is not finite: the places keep 100 and
    f64::MAX. The inverse of 0 in a quotient panics, too. *)
Example C80_untouched_case :
  [/\ p_add_assign (default_places (CheckedInts debug64 8)) 100%Z 100%Z 5%nat = Broken 100%Z,
      p_neg_assign (default_places (CheckedInts debug64 8)) (-128)%Z 5%nat = Broken (-128)%Z,
      p_add_assign (default_places (CheckedInts debug64 8)) 100%Z 27%Z 5%nat = Held 127%Z,
      p_mul_assign (default_places (QuotientRing debug64 (CheckedInts debug64 8) 100%Z)) 12%Z 11%Z
        20%nat = Broken 12%Z &
      p_mul_assign (default_places (ReducedFractions debug64 (CheckedInts debug64 8)))
        (100, 1)%Z (100, 1)%Z 20%nat = Broken (100, 1)%Z] /\
  (is_broken (p_double (default_places (F64 debug64)) f64_max 5%nat) /\ is_finite f64_max = true).
Proof. by split; [split|split]; vm_compute. Qed.

(** Vectors: a panic leaves the entries before the panicking one changed. *)
Theorem C80_vectors : forall (cfg : Cfg) (E : Type) (n : nat) (A : RingAlg E) (P : PlaceRing E),
  tracks A P ->
  [/\ tracks (VectorRing cfg n A) (vector_places n P),
      [/\ partly_mul n P (vector_places n P), partly_add n P (vector_places n P) &
          partly_neg n P (vector_places n P)] &
      forall mem, keeps mem P -> keeps (vector_member n mem) (vector_places n P)].
Proof. exact (fun cfg E n A P => @vector_ok E n cfg A P). Qed.
Print Assumptions C80_vectors.
(** The second entry overflows: the first one is already changed, the third one is not. *)
Example C80_vectors_case :
  tracks (CheckedInts debug64 8) (default_places (CheckedInts debug64 8)) /\
  p_add_assign (vector_places 3 (default_places (CheckedInts debug64 8)))
    [:: 100; 100; 1]%Z [:: 1; 100; 1]%Z 5%nat = Broken [:: 101; 100; 1]%Z.
Proof. by split; [exact: (proj1 (C80_machine_integers debug64 8))|vm_compute]. Qed.
Theorem C80_group_vectors : forall (cfg : Cfg) (E : Type) (n : nat) (G : GroupAlg E)
    (P : PlaceMul E), tracks_mul G P ->
  [/\ tracks_mul (vector_group cfg n G) (vector_place_mul n P),
      partly_mul n P (vector_place_mul n P) &
      forall mem, keeps_mul mem P -> keeps_mul (vector_member n mem) (vector_place_mul n P)].
Proof. exact (fun _ E n G P => @vector_mul_ok E n G P). Qed.
Print Assumptions C80_group_vectors.
Example C80_group_vectors_case :
  tracks_mul (Permutations debug64 2) (perm_places debug64 2) /\
  p_mul_assign (vector_place_mul 2 (perm_places debug64 2))
    [:: [:: 1; 0]; [:: 0; 1]]%nat [:: [:: 1; 0]; [:: 1; 0]]%nat 5%nat =
    Held [:: [:: 0; 1]; [:: 1; 0]]%nat.
Proof. by split; [exact: perm_places_tracks|vm_compute]. Qed.
(** Matrices: the sums as for vectors, the products are computed first. *)
Theorem C80_matrices : forall (cfg : Cfg) (E : Type) (A : FieldAlg E) (n : nat) (P : PlaceRing E),
  tracks A P ->
  [/\ tracks (MatrixRing cfg A n) (matrix_places A n P), untouched_mul (matrix_places A n P),
      partly_add (n * n) P (matrix_places A n P) & partly_neg (n * n) P (matrix_places A n P)].
Proof. exact matrix_places_ok. Qed.
Print Assumptions C80_matrices.
Example C80_matrices_case :
  tracks (F64 debug64) (default_places (F64 debug64)) /\
  is_broken (p_add_assign (matrix_places (F64 debug64) 1 (default_places (F64 debug64)))
    [:: f64_max] [:: f64_max] 5%nat).
Proof.
by split; [exact: (proj1 (default_ok (floats_default debug64 _ _)))|vm_compute].
Qed.
Theorem C80_permutations : forall (cfg : Cfg) (n : nat),
  tracks_mul (Permutations cfg n) (perm_places cfg n) /\
  forall v u k w, p_mul_assign (perm_places cfg n) v u k = Broken w ->
    w = v \/ exists i : nat, [/\ (i < size v)%nat, (size u <= nth 0%nat v i)%nat,
      forall j, (j < i)%nat -> (nth 0%nat v j < size u)%nat &
      w = (map (nth 0%nat u) (take i v) ++ drop i v)%list].
Proof. exact (fun cfg n => conj (perm_places_tracks cfg n) (@perm_places_partly cfg n)). Qed.
Print Assumptions C80_permutations.
(** Vectors that are no permutations: the product is abandoned in the middle. *)
Example C80_permutations_case :
  p_mul_assign (perm_places debug64 3) [:: 1; 5; 0]%nat [:: 2; 0; 1]%nat 5%nat =
    Broken [:: 0; 5; 0]%nat.
Proof. by vm_compute. Qed.
Theorem C80_groups : forall (cfg : Cfg) (E : Type),
  (forall (A : AbelianAlg E) (P : PlaceAdd E), tracks_add A P ->
   tracks_mul (AdditiveGroup cfg A) (additive_places P) /\
   (untouched_add P -> untouched_mul (additive_places P)) /\
   (forall mem, keeps_add mem P -> keeps_mul mem (additive_places P))) /\
  (forall (A : MonoidAlg E) (P : PlaceMul E), tracks_mul A P ->
   tracks_mul (MultiplicativeGroup cfg A) (multiplicative_places P) /\
   (untouched_mul P -> untouched_mul (multiplicative_places P)) /\
   (forall mem, keeps_mul mem P -> keeps_mul mem (multiplicative_places P))).
Proof.
exact (fun cfg E => conj (@additive_places_ok cfg E) (@multiplicative_places_ok cfg E)).
Qed.
Print Assumptions C80_groups.
Example C80_groups_case :
  tracks_add (CheckedInts debug64 8) (default_places (CheckedInts debug64 8)) /\
  p_square (additive_places (default_places (CheckedInts debug64 8))) 100%Z 5%nat = Broken 100%Z.
Proof. by split; [have [[]] := C80_machine_integers debug64 8|vm_compute]. Qed.

(** Members: in every ring whose methods return members and behave in the same way for all
    larger bounds ([ring_alg_par _ eq], see C71). *)
Theorem C80_members : forall (cfg : Cfg) (E : Type) (ok : Z -> Prop) (p : Prop) (mem : E -> Prop)
    (A : RingAlg E) (P : PlaceRing E),
  ring_alg_par ok eq A A -> closed_ring_alg cfg p mem A -> tracks A P -> untouched P ->
  keeps mem P.
Proof. exact (fun cfg E ok p mem A P => @keeps_ok E cfg ok p mem A P). Qed.
Print Assumptions C80_members.
(** The residues modulo 3. *)
Example C80_members_case cfg :
  keeps (fun x => exists u, three_rep x u) (default_places (QuotientField cfg ZZ 3%Z)).
Proof.
have [t u] := default_ok (proj2 (quotient_default cfg ZZ 3%Z)).
apply: (C80_members cfg _ (fun _ => True)) t u.
  exact: (par_quotient_field cfg (@zz_settled (fun _ => True)) (erefl 3%Z)).
exact: closed_ring_alg_ok (three_ring cfg).
Qed.
Theorem C80_matrix_members : forall (cfg : Cfg) (p : Prop) (E : Type) (F : fieldType)
    (rep : E -> F -> Prop) (A : FieldAlg E) (n : nat),
  field_alg_spec cfg p rep A -> (2 <= ptr_bits cfg)%Z ->
  forall (ok : Z -> Prop) (P : PlaceRing E), ok 1%Z -> field_alg_par ok eq A A ->
  tracks A P -> keeps (fun x => exists u, rep x u) P ->
  keeps (fun v => exists N : 'M[F]_n, matrix_of rep v N) (matrix_places A n P).
Proof. exact matrix_keeps_of. Qed.
Print Assumptions C80_matrix_members.
Example C80_matrix_members_case cfg : (2 <= ptr_bits cfg)%Z ->
  keeps (fun v => exists N, @matrix_of 2 Z (qfield_fieldType PInts.Z_eucl three) three_rep v N)
    (matrix_places (QuotientField cfg ZZ 3%Z) 2 (default_places (QuotientField cfg ZZ 3%Z))).
Proof.
move=> hc; have [t u] := default_ok (proj2 (quotient_default cfg ZZ 3%Z)).
have par : field_alg_par (fun _ => True) eq (QuotientField cfg ZZ 3%Z) (QuotientField cfg ZZ 3%Z).
  by apply: par_quotient_field => //; exact: zz_settled.
apply: (C80_matrix_members cfg _ _ _ _ _ _ (three_field cfg) hc (fun _ => True) _ _ par (t)) => //.
exact: (C80_members cfg _ (fun _ => True) _ _ _ _ par (closed_ring_alg_ok (three_ring cfg)) t u).
Qed.
(** Machine integers stay in their range, in vectors too. *)
Theorem C80_machine_members : forall (cfg : Cfg) (w : Z) (n : nat), (2 <= w)%Z ->
  keeps (in_i w) (default_places (CheckedInts cfg w)) /\
  keeps (vector_member n (in_i w)) (vector_places n (default_places (CheckedInts cfg w))).
Proof. exact machine_keeps. Qed.
Print Assumptions C80_machine_members.
Example C80_machine_members_case :
  vector_member 3 (in_i 8) [:: 100; 100; 1]%Z.
Proof. by split=> // -[|[|[|i]]]. Qed.
