(** * Props_DetLaw.v -- C65: inverses and determinants of matrices.

    [inverse_laws] and [determinant_laws] (DetLaw.v) list the laws as statements about
    calls; [alike] compares up to the sign. *)

From mathcomp Require Import all_ssreflect all_algebra zify ssrZ.
From Coq Require Import ZArith.
From Verif Require Import Rust Traits MInts MConstr Spec RingSpec NumSpec Laws DetLaw.
From Verif Require Import PCases.
From Verif Require Import PInts POrders PDetLaw Refuted.

Theorem C65_inverse : forall (cfg : Cfg) (p : Prop) (E : Type) (n : nat) (F : fieldType)
    (rep : E -> F -> Prop) (A : FieldAlg E),
  field_alg_spec cfg p rep A -> Z.le 2 (ptr_bits cfg) ->
  inverse_laws p (MatrixRing cfg A n) (fun x => exists N, @matrix_of n E F rep x N).
Proof. exact inverse_laws_ok. Qed.
Print Assumptions C65_inverse.
(** Matrices of rational numbers. *)
Example C65_inverse_case :
  inverse_laws False (MatrixRing debug64 (QQ debug64) 3) (fun x => exists N, @matrix_of 3 _ _ qq_rep x N).
Proof. by apply: C65_inverse (qq_field debug64) _. Qed.
Theorem C65_determinant : forall (cfg : Cfg) (p : Prop) (E : Type) (n : nat) (F : fieldType)
    (rep : E -> F -> Prop) (A : FieldAlg E),
  field_alg_spec cfg p rep A -> Z.le 2 (ptr_bits cfg) ->
  determinant_laws p A n (MatrixRing cfg A n) (fun x => exists N, @matrix_of n E F rep x N).
Proof. exact determinant_laws_ok. Qed.
Print Assumptions C65_determinant.
Example C65_base cfg : field_alg_spec cfg False bb_rep BB.
Proof. exact: BB_ok. Qed.
(** The law of [dl_two] has a field to speak of. *)
Example C65_two :
  returns (let! e := one BB in let! t := add BB e e in is_zero BB t) true.
Proof. by run 10%nat. Qed.
(** Over the rationals x = [[1 1] [1 2]] and y = [[0 2] [1 3]] have the inverses
    [[2 -1] [-1 1]] and [[-3/2 1] [1/2 0]]; the determinants are 1 and (computed) 2, that
    of the product is -2. *)
Example C65_case :
  let x := [:: (1, 1); (1, 1); (1, 1); (2, 1)]%Z in
  let y := [:: (0, 1); (2, 1); (1, 1); (3, 1)]%Z in
  let Q := QQ debug64 in
  [/\ returns (try_inv (MatrixRing debug64 Q 2) x)
        (Some [:: (2, 1); (-1, 1); (-1, 1); (1, 1)]%Z),
      returns (try_inv (MatrixRing debug64 Q 2) y)
        (Some [:: (-3, 2); (1, 1); (1, 2); (0, 1)]%Z),
      returns (mul (MatrixRing debug64 Q 2) x y) [:: (1, 1); (5, 1); (2, 1); (8, 1)]%Z,
      returns (determinant Q 2 x) (1, 1)%Z &
      returns (determinant Q 2 y) (2, 1)%Z] /\
  returns (determinant Q 2 [:: (1, 1); (5, 1); (2, 1); (8, 1)]%Z) (-2, 1)%Z.
Proof. by cbv zeta; split; [split|]; run 30%nat. Qed.
(** So the determinant of a product is not always the product of the determinants, and
    that of the transpose not always the determinant: [dl_mul] and [dl_transpose] fail
    without [alike]. *)
Theorem C65_exact_refuted : let Q := QQ debug64 in
  returns (same Q
    (let! a := mul (MatrixRing debug64 Q 2) [:: (1, 1); (1, 1); (1, 1); (2, 1)]%Z
                 [:: (0, 1); (2, 1); (1, 1); (3, 1)]%Z in determinant Q 2 a)
    (let! a := determinant Q 2 [:: (1, 1); (1, 1); (1, 1); (2, 1)]%Z in
     let! b := determinant Q 2 [:: (0, 1); (2, 1); (1, 1); (3, 1)]%Z in mul Q a b)) false /\
  returns (same Q
    (let! a := matrix_transpose 3
       [:: (0, 1); (0, 1); (1, 1); (1, 1); (1, 1); (0, 1); (1, 1); (2, 1); (0, 1)]%Z in
     determinant Q 3 a)
    (determinant Q 3
       [:: (0, 1); (0, 1); (1, 1); (1, 1); (1, 1); (0, 1); (1, 1); (2, 1); (0, 1)]%Z)) false.
Proof. by cbv zeta; split; run 30%nat. Qed.
Print Assumptions C65_exact_refuted.
