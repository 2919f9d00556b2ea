(** * Props_Mat.v -- the properties of MatrixRing (C25 - C27).

    [matrix_of rep v N] (RingSpec.v): the vector [v] lists members denoting the
    entries of the matrix [N] of the library, row by row. *)

From mathcomp Require Import all_ssreflect all_algebra zify ssrZ.
From Coq Require Import ZArith.
From Verif Require Import Rust Traits MInts MConstr Spec PropSpec RingSpec NumSpec Laws.
From Verif Require Import PCases Wp.
From Verif Require Import PInts POrders MatFacts PMat PMatProps DetSpec PDet Refuted.

Import GRing.Theory.
Local Open Scope ring_scope.

(** ** C25: matrix arithmetic *)

Theorem C25_matrix_of : forall (E : Type) (n : nat) (R : ringType) (rep : E -> R -> Prop)
    (v : seq E) (N : 'M[R]_n),
  matrix_of rep v N <->
  size v = (n * n)%nat /\ forall (i j : 'I_n) d, rep (nth d v (i * n + j)) (N i j).
Proof. exact matrix_ofE. Qed.
Print Assumptions C25_matrix_of.
(** The rows (1, 2) and (3, 4). *)
Example C25_matrix_of_case (N : 'M[Z]_2) :
  N = \matrix_(i < 2, j < 2) [:: 1; 2; 3; 4]%Z`_(i * 2 + j) ->
  matrix_of zz_rep [:: 1; 2; 3; 4]%Z N /\ [/\ N 0 0 = 1%Z, N 0 1 = 2%Z, N 1 0 = 3%Z & N 1 1 = 4%Z].
Proof. by move=> ->; split; [exact: zz_matrix|split; rewrite mxE]. Qed.
Theorem C25_methods : forall (cfg : Cfg) (p : Prop) (E : Type) (n : nat) (F : fieldType)
    (rep : E -> F -> Prop) (A : FieldAlg E),
  field_alg_spec cfg p rep A -> Z.le 2 (ptr_bits cfg) ->
  ring_methods p (@matrix_of n E F rep) cfg mulmx 1%:M (MatrixRing cfg A n).
Proof. exact matrix_methods. Qed.
Print Assumptions C25_methods.
(** This and the next theorems, for matrices of rational numbers. *)
Example C25_methods_case :
  ring_methods False (@matrix_of 3 _ _ qq_rep) debug64 mulmx 1%:M (MatrixRing debug64 (QQ debug64) 3).
Proof. exact: (C25_methods _ _ _ _ _ _ _ (qq_field debug64)). Qed.
Theorem C25_transpose : forall (p : Prop) (E : Type) (F : fieldType) (rep : E -> F -> Prop)
    (n : nat) (v : seq E) (N : 'M[F]_n), matrix_of rep v N ->
  ensures p (matrix_transpose n v) (fun w => matrix_of rep w N^T).
Proof. exact mat_transpose. Qed.
Print Assumptions C25_transpose.
Example C25_transpose_case :
  matrix_of bb_rep [:: true; true; false; false] (\matrix_(i < 2, j < 2) ((i == 0%R)%:R : 'F_2)) /\
  returns (matrix_transpose 2 [:: true; true; false; false]) [:: true; false; true; false].
Proof.
split; last run 20%nat.
exists [:: 1; 1; 0; 0]; split=> //; first by repeat constructor.
by move=> [[|[|//]] hi] [[|[|//]] hj]; rewrite mxE.
Qed.
(** The laws of a ring, as statements about calls of the methods. *)
Theorem C25_laws : forall (cfg : Cfg) (p : Prop) (E : Type) (n : nat) (F : fieldType)
    (rep : E -> F -> Prop) (A : FieldAlg E),
  field_alg_spec cfg p rep A -> Z.le 2 (ptr_bits cfg) ->
  ring_alg_laws p (fun x => exists N, @matrix_of n E F rep x N) cfg (MatrixRing cfg A n).
Proof. exact matrix_laws. Qed.
Print Assumptions C25_laws.
Example C25_laws_case :
  ring_alg_laws False (fun x => exists N, @matrix_of 3 _ _ qq_rep x N) debug64
    (MatrixRing debug64 (QQ debug64) 3).
Proof. exact: (C25_laws _ _ _ _ _ _ _ (qq_field debug64)). Qed.
Theorem C25_contains : forall (cfg : Cfg) (p : Prop) (E : Type) (F : fieldType)
    (rep : E -> F -> Prop) (A : FieldAlg E) (n : nat), contains_exact p rep A ->
  contains_exact p (@matrix_of n E F rep) (MatrixRing cfg A n).
Proof. exact (fun _ => mat_contains_exact). Qed.
Print Assumptions C25_contains.
Example C25_contains_case cfg :
  contains_exact False (@matrix_of 2 _ _ bb_rep) (MatrixRing cfg BB 2).
Proof.
by apply: C25_contains => x; apply: ensures_ret; split=> // _; exists (x%:R); case: x.
Qed.
(** Vectors that do not have n * n entries. *)
Theorem C25_lengths : forall (cfg : Cfg) (E : Type) (n : nat) (A : FieldAlg E),
  [/\ checks_domain (n * n) (MatrixRing cfg A n), checks_mult (n * n) (MatrixRing cfg A n),
      checks_additive (n * n) (MatrixRing cfg A n) (MatrixRing cfg A n) &
      forall v : seq E, bad_length (n * n) v -> panics (matrix_transpose n v)].
Proof. exact matrix_checks. Qed.
Print Assumptions C25_lengths.
(** Three entries in place of four. *)
Example C25_lengths_case :
  bad_length (2 * 2) [:: true; true; false] /\
  panics (add (MatrixRing debug64 BB 2) [:: true; true; false] [:: true; true; false; true]) /\
  panics (matrix_transpose 2 [:: true; true; false]).
Proof. by split=> //; split; run 20%nat. Qed.
(** MatrixRing::new panics exactly if n * n is not a usize. *)
Theorem C25_new : forall (cfg : Cfg) (n : nat),
  (Z.lt (Z.of_nat n * Z.of_nat n) (2 ^ ptr_bits cfg) -> returns (matrix_new cfg n) tt) /\
  (Z.le (2 ^ ptr_bits cfg) (Z.of_nat n * Z.of_nat n) -> panics (matrix_new cfg n)).
Proof. exact matrix_new_ok. Qed.
Print Assumptions C25_new.

(** The field with two elements meets the contract; [[1 1] [0 1]] is its own inverse;
    matrices of size zero; a vector of the wrong length. *)
Example C25_base cfg : field_alg_spec cfg False bb_rep BB /\ contains_exact False bb_rep BB.
Proof.
split; first exact: BB_ok.
by move=> x; left; exists true; split; [exists 0%nat|split=> // _; exists x%:R].
Qed.
Example C25_case cfg :
  [/\ returns (mul (MatrixRing cfg BB 2) [:: true; true; false; true]
         [:: true; true; false; true]) [:: true; false; false; true],
      returns (mul (MatrixRing cfg (QQ cfg) 2) [:: (1, 2); (1, 1); (0, 1); (1, 1)]%Z
         [:: (2, 1); (0, 1); (-1, 3); (1, 1)]%Z) [:: (2, 3); (1, 1); (-1, 3); (1, 1)]%Z,
      returns (one (MatrixRing cfg BB 0)) [::],
      returns (int (MatrixRing cfg (QQ cfg) 2) 3) [:: (3, 1); (0, 1); (0, 1); (3, 1)]%Z &
      panics (mul (MatrixRing cfg BB 2) [:: true; true; false; true] [:: true; true; false])].
Proof. by split; run 30%nat. Qed.

(** ** C26: inversion *)

Theorem C26_inverse : forall (cfg : Cfg) (p : Prop) (E : Type) (n : nat) (F : fieldType)
    (rep : E -> F -> Prop) (A : FieldAlg E),
  field_alg_spec cfg p rep A -> Z.le 2 (ptr_bits cfg) ->
  forall (x : seq E) (N : 'M[F]_n), matrix_of rep x N ->
  ensures p (try_inv (MatrixRing cfg A n) x) (fun o =>
    match o with
    | Some y => exists T, [/\ matrix_of rep y T, N *m T = 1%:M & T *m N = 1%:M]
    | None => N \notin unitmx
    end) /\
  answers p (invertible (MatrixRing cfg A n) x) (N \in unitmx).
Proof. exact matrix_inverse. Qed.
Print Assumptions C26_inverse.
(** [debug64] checks the debug assertion; with a base that does not panic, C26_inverse
    with [p := False] says that it never fires. Inverses over the rationals and over
    GF(2), one of them with a row swap; a singular matrix. *)
Example C26_case :
  [/\ returns (try_inv (MatrixRing debug64 (QQ debug64) 2) [:: (0, 1); (2, 1); (1, 1); (1, 1)]%Z)
        (Some [:: (-1, 2); (1, 1); (1, 2); (0, 1)]%Z),
      returns (try_inv (MatrixRing debug64 BB 2) [:: false; true; true; true])
        (Some [:: true; true; true; false]),
      returns (try_inv (MatrixRing debug64 BB 2) [:: true; true; true; true]) None,
      returns (invertible (MatrixRing debug64 BB 2) [:: true; true; true; true]) false &
      returns (invertible (MatrixRing debug64 BB 2) [:: false; true; true; true]) true].
Proof. by split; run 30%nat. Qed.

(** ** C27: the determinant

    False: rows are swapped without changing the sign, so the determinant of
    [[0 1] [1 0]], which is -1, is returned as 1. *)
Theorem C27_refuted : forall cfg : Cfg,
  returns (determinant (QQ cfg) 2 [:: (0, 1); (1, 1); (1, 1); (0, 1)]%Z) (1, 1)%Z.
Proof. exact determinant_swap. Qed.
Print Assumptions C27_refuted.
Example C27_true_value : \det (\matrix_(i < 2, j < 2) (i != j)%:R) = -1 :> rat.
Proof.
by rewrite (expand_det_row _ ord0) !big_ord_recl big_ord0 !mxE /= /cofactor !det_mx11 !mxE /=.
Qed.
(** What holds: the result is right up to the sign; it is right for singular matrices, in
    characteristic two, and if no leading principal minor (but the last) vanishes;
    the sign in the remaining cases is in C27_sign. *)
Theorem C27_determinant_partial : forall (cfg : Cfg) (p : Prop) (E : Type) (n : nat)
    (F : fieldType) (rep : E -> F -> Prop) (A : FieldAlg E),
  field_alg_spec cfg p rep A -> Z.le 2 (ptr_bits cfg) ->
  forall (x : seq E) (N : 'M[F]_n), matrix_of rep x N ->
  ensures p (determinant A n x) (fun z =>
    [/\ rep z (\det N) \/ rep z (- \det N),
        \det N = 0 -> rep z 0,
        (1 + 1 = 0 :> F) -> rep z (\det N) &
        (forall m (mn : (m <= n)%nat), (0 < m < n)%nat -> \det (lsub mn N) <> 0) ->
        rep z (\det N)]).
Proof. exact matrix_determinant. Qed.
Print Assumptions C27_determinant_partial.
(** det [[2 1] [4 5]] = 6, whose leading principal minor is 2; det [[0 1] [1 1]] = 1 over
    GF(2). *)
Example C27_case cfg :
  returns (determinant (QQ cfg) 2 [:: (2, 1); (1, 1); (4, 1); (5, 1)]%Z) (6, 1)%Z /\
  returns (determinant BB 2 [:: false; true; true; true]) true.
Proof. by split; run 30%nat. Qed.
(** What is returned in all cases: [exchanges N] (DetSpec.v) is the number of row
    exchanges, defined by minors of [N]. *)
Theorem C27_sign : forall (cfg : Cfg) (p : Prop) (E : Type) (F : fieldType)
    (rep : E -> F -> Prop) (A : FieldAlg E), field_alg_spec cfg p rep A ->
  forall n : nat, Z.le 2 (ptr_bits cfg) ->
  forall (x : seq E) (N : 'M[F]_n), matrix_of rep x N ->
  ensures p (determinant A n x) (fun z => rep z ((-1) ^+ exchanges N * \det N)).
Proof. exact determinant_sign. Qed.
Print Assumptions C27_sign.
(** So the result is right exactly if this number is even, the matrix is singular, or the
    characteristic is two. *)
Theorem C27_when_right : forall (cfg : Cfg) (p : Prop) (E : Type) (F : fieldType)
    (rep : E -> F -> Prop) (A : FieldAlg E), field_alg_spec cfg p rep A ->
  forall n : nat, Z.le 2 (ptr_bits cfg) ->
  forall (x : seq E) (N : 'M[F]_n), matrix_of rep x N ->
  (forall (y : E) (u v : F), rep y u -> rep y v -> u = v) ->
  ensures p (determinant A n x) (fun z =>
    rep z (\det N) <-> [\/ ~~ odd (exchanges N), \det N = 0 | 1 + 1 = 0 :> F]).
Proof. exact determinant_right. Qed.
Print Assumptions C27_when_right.
(** One exchange for [[0 1] [1 0]]; the rows of [[0 1 0] [0 0 1] [1 0 0]] are exchanged
    twice, and its determinant 1 is right. *)
Example C27_sign_case cfg :
  exchanges (\matrix_(i < 2, j < 2) (i != j)%:R : 'M[rat]_2) = 1%nat /\
  returns (determinant (QQ cfg) 3
    [:: (0, 1); (1, 1); (0, 1); (0, 1); (0, 1); (1, 1); (1, 1); (0, 1); (0, 1)]%Z) (1, 1)%Z.
Proof. by split; [exact: exchanges_swap|run 30%nat]. Qed.
