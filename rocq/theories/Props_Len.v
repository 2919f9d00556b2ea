(** * Props_Len.v -- C79: vectors and matrices of a wrong length. *)

From mathcomp Require Import all_ssreflect all_algebra zify ssrZ.
From Coq Require Import ZArith.
From Verif Require Import Rust Traits MInts MConstr RingSpec LenSpec Refuted PLen.


(** ** C79 *)
(** determinant and invertible do not look at the entries after the first n * n, whatever the
    base is. *)
Theorem C79_longer : forall (cfg : Cfg) (E : Type) (A : FieldAlg E) (n : nat) (v w : seq E),
  size v = (n * n)%nat ->
  determinant A n (v ++ w) =1 determinant A n v /\
  invertible (MatrixRing cfg A n) (v ++ w) =1 invertible (MatrixRing cfg A n) v.
Proof. exact (fun _ _ _ _ _ _ h => conj (det_longer _ _ h) (invertible_longer _ _ h)). Qed.
Print Assumptions C79_longer.
(** A matrix with two more entries: the determinant is that of [[0 1] [1 1]]. *)
Example C79_longer_case cfg :
  determinant BB 2 ([:: false; true; true; true] ++ [:: true; false]) =1
    determinant BB 2 [:: false; true; true; true] /\
  returns (determinant BB 2 [:: false; true; true; true; true; false]) true /\
  returns (contains (MatrixRing cfg BB 2) [:: false; true; true; true; true; false]) false.
Proof.
have [h _] := C79_longer cfg _ BB 2 [:: false; true; true; true] [:: true; false] erefl.
by split=> //; split; run 20%nat.
Qed.
(** try_inv returns the inverse of the matrix given by the first n * n entries in release
    builds. In debug builds it panics in place of that. *)
Theorem C79_longer_inverse : forall (cfg : Cfg) (E : Type) (A : FieldAlg E) (n : nat)
    (v w : seq E), size v = (n * n)%nat -> w <> [::] ->
  [/\ debug_assertions cfg = false ->
        try_inv (MatrixRing cfg A n) (v ++ w) =1 try_inv (MatrixRing cfg A n) v,
      returns (try_inv (MatrixRing cfg A n) v) None ->
        returns (try_inv (MatrixRing cfg A n) (v ++ w)) None &
      debug_assertions cfg -> forall u, returns (try_inv (MatrixRing cfg A n) v) (Some u) ->
        panics (try_inv (MatrixRing cfg A n) (v ++ w))].
Proof. exact (fun c _ A n v w => @try_inv_longer c _ A n w v). Qed.
Print Assumptions C79_longer_inverse.
Example C79_longer_inverse_case :
  [/\ returns (try_inv (MatrixRing release64 BB 2) [:: false; true; true; true; true])
        (Some [:: true; true; true; false]),
      panics (try_inv (MatrixRing debug64 BB 2) [:: false; true; true; true; true]) &
      returns (try_inv (MatrixRing debug64 BB 2) [:: true; true; true; true; true]) None].
Proof.
split; first run 20%nat; last run 20%nat.
have [//|_ _ h] := C79_longer_inverse debug64 _ BB 2 [:: false; true; true; true] [:: true] erefl.
by apply: (h _ [:: true; true; true; false]) => //; run 20%nat.
Qed.
(** With fewer than n * n entries determinant either does not return or returns the zero of the
    base, and try_inv either does not return or returns None, whatever the base is. *)
Theorem C79_shorter : forall (cfg : Cfg) (E : Type) (A : FieldAlg E) (n : nat) (v : seq E),
  (size v < n * n)%nat ->
  [/\ forall d, returns (determinant A n v) d -> returns (zero A) d,
      forall o, returns (try_inv (MatrixRing cfg A n) v) o -> o = None &
      forall z b, returns (zero A) z -> returns (invertible (MatrixRing cfg A n) v) b ->
        returns (is_zero A z) (~~ b)].
Proof. exact shorter_ok. Qed.
Print Assumptions C79_shorter.
(** The first column is zero; the first column is not. *)
Example C79_shorter_case cfg :
  [/\ (size [:: false; true; false] < 2 * 2)%nat,
      returns (determinant BB 2 [:: false; true; false]) false,
      returns (try_inv (MatrixRing cfg BB 2) [:: false; true; false]) None,
      returns (invertible (MatrixRing cfg BB 2) [:: false; true; false]) false &
      panics (determinant BB 2 [:: false; true; true])].
Proof. by split=> //; run 20%nat. Qed.
(** Multiples and powers. *)
Theorem C79_vector_multiples : forall (cfg : Cfg) (E : Type) (n : nat) (A : RingAlg E)
    (v : seq E), bad_length n v ->
  nat_multiples_of_wrong (zero (VectorRing cfg n A)) (ntimes (VectorRing cfg n A)) v /\
  multiples_of_wrong (zero (VectorRing cfg n A)) (ztimes (VectorRing cfg n A)) v.
Proof. exact vector_multiples. Qed.
Print Assumptions C79_vector_multiples.
Example C79_vector_multiples_case :
  [/\ bad_length 3 [:: 1; 2]%Z,
      returns (ztimes (VectorRing debug64 3 ZZ) 0%Z [:: 1; 2]%Z) [:: 0; 0; 0]%Z,
      panics (ztimes (VectorRing debug64 3 ZZ) (-1)%Z [:: 1; 2]%Z) &
      panics (ntimes (VectorRing debug64 3 ZZ) 4%Z [:: 1; 2]%Z)].
Proof. by split=> //; run 20%nat. Qed.
Theorem C79_vector_powers : forall (cfg : Cfg) (E : Type) (n : nat) (A : GroupAlg E)
    (v : seq E), bad_length n v ->
  multiples_of_wrong (one (vector_group cfg n A)) (gpower (vector_group cfg n A)) v.
Proof. exact vector_powers. Qed.
Print Assumptions C79_vector_powers.
Example C79_vector_powers_case :
  returns (gpower (vector_group debug64 3 (AdditiveGroup debug64 ZZ)) 0%Z [:: 1; 2]%Z)
    [:: 0; 0; 0]%Z /\
  panics (gpower (vector_group debug64 3 (AdditiveGroup debug64 ZZ)) 4%Z [:: 1; 2]%Z).
Proof.
have b : bad_length 3 [:: 1; 2]%Z by [].
have h := C79_vector_powers debug64 _ 3 (AdditiveGroup debug64 ZZ) _ b.
have [h0 h1] := h [:: 0; 0; 0]%Z ltac:(run 20%nat).
by split; [exact: h0|exact: h1].
Qed.
Theorem C79_matrix_multiples : forall (cfg : Cfg) (E : Type) (n : nat) (A : FieldAlg E)
    (v : seq E), bad_length (n * n) v ->
  nat_multiples_of_wrong (zero (MatrixRing cfg A n)) (ntimes (MatrixRing cfg A n)) v /\
  multiples_of_wrong (zero (MatrixRing cfg A n)) (ztimes (MatrixRing cfg A n)) v.
Proof. exact matrix_multiples. Qed.
Print Assumptions C79_matrix_multiples.
Example C79_matrix_multiples_case :
  [/\ bad_length (1 * 1) [:: true; true],
      returns (ztimes (MatrixRing debug64 BB 1) 0%Z [:: true; true]) [:: false],
      panics (ztimes (MatrixRing debug64 BB 1) (-2)%Z [:: true; true]) &
      panics (ntimes (MatrixRing debug64 BB 1) 2%Z [:: true; true])].
Proof. by split=> //; run 20%nat. Qed.
