(** * Props_Assign.v -- the methods that change their argument (C40).

    [same_call] (CallSpec.v): both calls return the same value, or both panic, or both
    run forever; [same_run] is stronger: also the numbers of iterations are the same. *)

From mathcomp Require Import all_ssreflect all_algebra all_fingroup zify ssrZ.
From Coq Require Import ZArith.
From Verif Require Import Rust Traits MInts MConstr Spec PropSpec RingSpec CallSpec.
From Verif Require Import POrdProps PCases PPoly.
From Verif Require Import PInts PAssign Refuted.

Import GRing.Theory.
Local Open Scope ring_scope.

(** False: the default [sub_assign] negates first, and the least checked integer has no
    negative; [sub] returns the difference. *)
Theorem C40_refuted : forall cfg : Cfg,
  returns (sub (CheckedInts cfg 8) (-1) (-128))%Z 127%Z /\
  panics (sub_assign (CheckedInts cfg 8) (-1) (-128))%Z.
Proof. exact I8_sub_assign_min. Qed.
Print Assumptions C40_refuted.

Theorem C40_same_run : forall (A : Type) (m1 m2 : M A), same_run m1 m2 -> same_call m1 m2.
Proof. exact (@same_run_call). Qed.
Print Assumptions C40_same_run.
Example C40_same_run_case (x y : Z) : same_run (add_assign ZZ x y) (add ZZ x y).
Proof. by []. Qed.

(** ** mul_assign, square, add_assign, double and neg_assign *)

Theorem C40_numbers_partial : forall (cfg : Cfg) (w : Z),
  [/\ inplace_ring ZZ, inplace_ring (CheckedInts cfg w), inplace_ring BB,
      inplace_mul NN /\ inplace_add NN &
      inplace_mul (CheckedUints w) /\ inplace_add (CheckedUints w)].
Proof. exact inplace_numbers. Qed.
Print Assumptions C40_numbers_partial.
Theorem C40_quotients_partial : forall (cfg : Cfg) (E : Type) (A : EuclAlg E) (m : E),
  [/\ inplace_ring (QuotientRing cfg A m), inplace_ring (QuotientField cfg A m) &
      inplace_ring (ReducedFractions cfg A)].
Proof. exact inplace_quotients. Qed.
Print Assumptions C40_quotients_partial.
Theorem C40_polynomials_partial : forall (E : Type) (A : RingAlg E), inplace_ring (PolyRing A).
Proof. exact inplace_PolyRing. Qed.
Print Assumptions C40_polynomials_partial.
Theorem C40_vectors_partial : forall (cfg : Cfg) (E : Type) (n : nat) (A : RingAlg E),
  inplace_ring A -> inplace_ring (VectorRing cfg n A).
Proof. exact inplace_VectorRing. Qed.
Print Assumptions C40_vectors_partial.
Example C40_vectors_partial_case cfg : inplace_ring (VectorRing cfg 3 (CheckedInts cfg 8)).
Proof. by apply: C40_vectors_partial; case: (C40_numbers_partial cfg 8). Qed.
Theorem C40_matrices_partial : forall (cfg : Cfg) (E : Type) (n : nat) (A : FieldAlg E),
  inplace_ring A -> inplace_ring (MatrixRing cfg A n).
Proof. exact inplace_MatrixRing. Qed.
Print Assumptions C40_matrices_partial.
Example C40_matrices_partial_case cfg : inplace_ring (MatrixRing cfg (QQ cfg) 2).
Proof. by apply: C40_matrices_partial; case: (C40_quotients_partial cfg _ ZZ 0%Z). Qed.
Theorem C40_groups_partial : forall (cfg : Cfg) (E : Type),
  (forall A : AbelianAlg E, inplace_add A -> inplace_mul (AdditiveGroup cfg A)) /\
  (forall A : MonoidAlg E, inplace_mul A -> inplace_mul (MultiplicativeGroup cfg A)) /\
  (forall (n : nat) (A : GroupAlg E), inplace_mul A -> inplace_mul (vector_group cfg n A)).
Proof. exact inplace_groups. Qed.
Print Assumptions C40_groups_partial.
Example C40_groups_partial_case cfg :
  inplace_mul (vector_group cfg 3 (AdditiveGroup cfg (ring_abelian ZZ))).
Proof.
have [h1 [_ h3]] := C40_groups_partial cfg Z; have [[_ h _] _ _ _ _] := C40_numbers_partial cfg 8.
exact: h3 (h1 (ring_abelian ZZ) h).
Qed.
Theorem C40_permutations_partial : forall (cfg : Cfg) (n : nat) (v u : seq nat),
  (exists s : {perm 'I_n}, permutation_of v s) -> (exists t : {perm 'I_n}, permutation_of u t) ->
  same_call (mul_assign (Permutations cfg n) v u) (mul (Permutations cfg n) v u) /\
  same_call (square (Permutations cfg n) v) (mul (Permutations cfg n) v v).
Proof. exact inplace_Permutations. Qed.
Print Assumptions C40_permutations_partial.
Example C40_permutations_partial_case cfg :
  same_call (mul_assign (Permutations cfg 3) [:: 1; 2; 0] [:: 1; 0; 2])%nat
    (mul (Permutations cfg 3) [:: 1; 2; 0] [:: 1; 0; 2])%nat.
Proof.
by have [] := C40_permutations_partial cfg 3 [:: 1; 2; 0]%nat [:: 1; 0; 2]%nat;
  try apply/permutation_exists; split=> // a; rewrite !inE => /or3P [] /eqP ->.
Qed.

(** ** sub_assign *)

(** Where members denoting the same value are identical, and calls do not panic. *)
Theorem C40_sub_partial : forall (cfg : Cfg) (E : Type) (V : zmodType) (rep : E -> V -> Prop)
    (A : AbelianGroup E) (x : E) (u : V) (y : E) (v : V),
  abelian_spec cfg False rep A -> (forall a b w, rep a w -> rep b w -> a = b) ->
  rep x u -> rep y v -> same_call (sub_assign A x y) (sub A x y).
Proof. exact inplace_sub. Qed.
Print Assumptions C40_sub_partial.
Example C40_sub_partial_case (x y : Z) : same_call (sub_assign ZZ x y) (sub ZZ x y).
Proof.
apply: (C40_sub_partial debug64 Z _ zz_rep) => // [|a b w <- <-] //.
exact: ri_ab_ok (zz_ring debug64).
Qed.
(** Everywhere up to [equals], panics apart. *)
Theorem C40_sub_equals_partial : forall (cfg : Cfg) (p : Prop) (E : Type) (V : zmodType)
    (rep : E -> V -> Prop) (A : AbelianAlg E) (x : E) (u : V) (y : E) (v : V),
  abelian_alg_spec cfg p rep A -> rep x u -> rep y v ->
  ensures p (let! a := sub_assign A x y in let! b := sub A x y in equals A a b)
    (fun r => r = true).
Proof. exact inplace_sub_equals. Qed.
Print Assumptions C40_sub_equals_partial.
(** 8-bit integers: both calls return equal numbers, or one of them panics. *)
Example C40_sub_equals_partial_case cfg :
  let A := ring_abelian (CheckedInts cfg 8) in
  ensures True (let! a := sub_assign A 100%Z 3%Z in let! b := sub A 100%Z 3%Z in equals A a b)
    (fun r => r = true).
Proof.
have w2 : (2 <= 8)%Z by [].
have hR := id_ring_ok (eu_idom_ok (CheckedInts_ok cfg w2)).
by apply: (C40_sub_equals_partial _ _ _ _ _ _ _ 100%Z _ 3%Z (ring_abelian_ok hR)).
Qed.
(** The checked integers: exactly when they differ. *)
Theorem C40_checked_sub_partial : forall (cfg : Cfg) (w x y : Z), (0 < w)%Z ->
  in_i w x -> in_i w y ->
  (y <> imin w ->
   same_call (sub_assign (CheckedInts cfg w) x y) (sub (CheckedInts cfg w) x y)) /\
  (y = imin w -> panics (sub_assign (CheckedInts cfg w) x y) /\
     (returns (sub (CheckedInts cfg w) x y) (x - y)%Z <-> (x < 0)%Z)).
Proof. exact checked_sub_assign. Qed.
Print Assumptions C40_checked_sub_partial.

(** The hypotheses are met. *)
Example C40_vectors : inplace_ring (VectorRing debug64 3 BB) /\
  inplace_ring (MatrixRing debug64 BB 2).
Proof.
by split; [apply: C40_vectors_partial|apply: C40_matrices_partial];
  case: (C40_numbers_partial debug64 8).
Qed.
Example C40_ZZ (x y : Z) : same_call (sub_assign ZZ x y) (sub ZZ x y).
Proof.
apply: (C40_sub_partial debug64 Z _ zz_rep) => // [|a b w <- <-] //.
exact: ri_ab_ok (id_ring_ok (eu_idom_ok (ZZ_ok debug64 False))).
Qed.
Example C40_case :
  [/\ returns (mul_assign (Permutations debug64 3) [:: 1; 2; 0] [:: 1; 0; 2])%nat
        [:: 0; 2; 1]%nat,
      returns (mul (Permutations debug64 3) [:: 1; 2; 0] [:: 1; 0; 2])%nat [:: 0; 2; 1]%nat,
      returns (double (VectorRing debug64 2 ZZ) [:: 3; 4])%Z [:: 6; 8]%Z,
      returns (add (VectorRing debug64 2 ZZ) [:: 3; 4] [:: 3; 4])%Z [:: 6; 8]%Z &
      returns (square BB true) true].
Proof. by split; run 10%nat. Qed.
