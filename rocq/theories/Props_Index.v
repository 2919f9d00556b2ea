(** * Props_Index.v -- C78: the index arithmetic does not overflow.

    MIndex.v transcribes the methods of MatrixRing and PolynomialAlgebra with all index
    expressions computed in [usize], and those of Permutations with the casts between [u32] and
    [usize]; IndexSpec.v lists the methods and the meaning of "do the
    same". [matrix_new cfg n]: MatrixRing::new for matrices of size [n]; [bits16 b]: a target of 16 bits in a debug or
    release build. Every target of Rust has
    at least 16 bits; two are enough here. *)

From mathcomp Require Import all_ssreflect zify.
From Coq Require Import ZArith.
From Verif Require Import Rust Traits MInts MConstr MIndex IndexSpec.
From Verif Require Import PIndex Refuted.

(** Whatever MatrixRing::new accepts, and whatever vectors are passed. *)
Theorem C78_matrices : forall (cfg : Cfg) (E : Type) (A : FieldAlg E) (n : nat),
  (2 <= ptr_bits cfg)%Z -> returns (matrix_new cfg n) tt -> matrix_indices cfg A n.
Proof. exact matrix_indices_ok. Qed.
Print Assumptions C78_matrices.
(** 255 is the largest size on a target of 16 bits. *)
Example C78_matrices_case :
  [/\ returns (matrix_new (bits16 true) 255) tt,
      returns (u_determinant (bits16 true) BB 3
        [:: true; true; false; true; false; true; false; true; false]) true &
      returns (u_matrix_try_inv (bits16 true) BB 2 [:: true; true; false; true])
        (Some [:: true; true; false; true])].
Proof. by split; run 20%nat. Qed.
(** Without the check of new, len would overflow: it panics in a debug build and is
    0 in a release build. *)
Example C78_new :
  [/\ panics (matrix_new (bits16 true) 256), panics (matrix_new (bits16 false) 256),
      panics (u_matrix_len (bits16 true) 256) & returns (u_matrix_len (bits16 false) 256) 0%nat].
Proof. by split; run 20%nat. Qed.

(** All vectors that fit into the memory. *)
Theorem C78_polynomials : forall (cfg : Cfg) (E : Type), (2 <= ptr_bits cfg)%Z ->
  poly_indices cfg E.
Proof. exact poly_indices_ok. Qed.
Print Assumptions C78_polynomials.
Example C78_polynomials_case :
  [/\ vec_length (bits16 true) [:: true; false; true; true],
      returns (u_poly_mul (bits16 true) (ring_abelian BB) BB [:: true; true] [:: true; true])
        [:: true; false; true],
      returns (u_poly_quo_rem (bits16 true) BB [:: true; false; true; true] [:: true; true])
        ([:: false; false; true], [:: true]) &
      returns (u_poly_try_div (bits16 true) BB [:: true; false; true] [:: true; true])
        (Some [:: true; true])].
Proof. by split=> //; run 20%nat. Qed.
(** The expression elem.len() - 1 for an empty vector, which is never reached. *)
Example C78_underflow :
  panics (usub (bits16 true) 0 1) /\
  returns (bind (usub (bits16 false) 0 1) (fun n => ret (n == (256 * 256 - 1)%nat))) true.
Proof. by split; run 20%nat. Qed.

(** The casts of Permutations change nothing on targets of 32 and more bits. *)
Theorem C78_permutations : forall (cfg : Cfg) (n : nat), (32 <= ptr_bits cfg)%Z -> is_u32 n ->
  perm_casts cfg n.
Proof. exact perm_casts_ok. Qed.
Print Assumptions C78_permutations.
Example C78_permutations_case :
  [/\ is_u32 3, u32_vector [:: 2; 0; 1]%nat,
      returns (c_perm_mul debug64 3 [:: 2; 0; 1]%nat [:: 2; 0; 1]%nat) [:: 1; 2; 0]%nat &
      returns (c_perm_try_inv debug64 3 [:: 2; 0; 1]%nat) (Some [:: 1; 2; 0]%nat)].
Proof.
by split=> //; [move=> a; rewrite !inE => /or3P [] /eqP ->|run 20%nat|run 20%nat].
Qed.
(** A target of 2 bits, to show the difference: 5 is taken for 1. *)
Example C78_permutations_small :
  returns (c_perm_contains (mkCfg true true 2%Z) 3 [:: 0; 5; 2]%nat) true /\
  panics (contains (Permutations debug64 3) [:: 0; 5; 2]%nat).
Proof. by split; run 20%nat. Qed.
