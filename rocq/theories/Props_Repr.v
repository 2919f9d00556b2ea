(** * Props_Repr.v -- C94: permutations, vectors and residues as matrices, characteristic
    polynomials.

    The maps are in ReprSpec.v. *)

From mathcomp Require Import all_ssreflect all_algebra all_fingroup zify ssrZ.
From Coq Require Import ZArith.
From Verif Require Import Rust Traits MInts MConstr Spec PropSpec RingSpec PDefaults HomLaw EvalLaw.
From Verif Require Import PInts POrders PPoly PCases PFrac PResidue ReprSpec PRepr PRepr2 Refuted.

Import GRing.Theory.
Local Open Scope ring_scope.

(** Permutation matrices: a one to one homomorphism to the invertible matrices. *)
Theorem C94_permutations : forall (cfg : Cfg) (p : Prop) (E : Type) (n : nat) (F : fieldType)
    (rep : E -> F -> Prop) (A : FieldAlg E),
  field_alg_spec cfg p rep A -> Z.le 2 (ptr_bits cfg) ->
  group_map cfg p (fun v => exists s : {perm 'I_n}, permutation_of v s) (perm_matrix A n)
    (Permutations cfg n) (MultiplicativeGroup cfg (MatrixRing cfg A n)).
Proof. exact perm_map. Qed.
Print Assumptions C94_permutations.
(** (1 2 0) times (1 0 2) is (0 2 1), and so are the matrices. *)
Example C94_permutations_case : let G := MultiplicativeGroup debug64 (MatrixRing debug64 BB 3) in
  [/\ field_alg_spec debug64 False bb_rep BB,
      exists s : {perm 'I_3}, permutation_of [:: 1; 2; 0]%nat s,
      returns (mul (Permutations debug64 3) [:: 1; 2; 0]%nat [:: 1; 0; 2]%nat) [:: 0; 2; 1]%nat,
      returns (perm_matrix BB 3 [:: 1; 2; 0]%nat)
        [:: false; true; false; false; false; true; true; false; false] &
      returns (let! a := perm_matrix BB 3 [:: 1; 2; 0]%nat in
               let! b := perm_matrix BB 3 [:: 1; 0; 2]%nat in mul G a b)
        [:: true; false; false; false; false; true; false; true; false]].
Proof.
split; try by run 30%nat.
  exact: BB_ok.
by apply/PPerm.perm_repP.
Qed.

(** [determinant] forgets the sign: it is 1 for every permutation matrix. *)
Theorem C94_perm_determinant : forall (cfg : Cfg) (p : Prop) (E : Type) (n : nat) (F : fieldType)
    (rep : E -> F -> Prop) (A : FieldAlg E),
  field_alg_spec cfg p rep A -> Z.le 2 (ptr_bits cfg) ->
  forall v (s : {perm 'I_n}), permutation_of v s ->
  ensures p (let! x := perm_matrix A n v in determinant A n x) (fun z => rep z 1).
Proof. exact perm_determinant. Qed.
Print Assumptions C94_perm_determinant.
Example C94_perm_determinant_case :
  returns (let! x := perm_matrix (QQ debug64) 3 [:: 1; 0; 2]%nat in determinant (QQ debug64) 3 x)
    (1, 1)%Z.
Proof. by run 60%nat. Qed.

(** Triangular matrices: the product of the diagonal, with the right sign. *)
Theorem C94_triangular : forall (cfg : Cfg) (p : Prop) (E : Type) (n : nat) (F : fieldType)
    (rep : E -> F -> Prop) (A : FieldAlg E),
  field_alg_spec cfg p rep A -> Z.le 2 (ptr_bits cfg) ->
  forall (x : seq E) (N : 'M[F]_n), matrix_of rep x N ->
  (forall i j : 'I_n, (i < j)%nat -> N i j = 0) \/ (forall i j : 'I_n, (j < i)%nat -> N i j = 0) ->
  ensures p (determinant A n x) (fun z => rep z (\prod_i N i i)).
Proof. exact trig_determinant. Qed.
Print Assumptions C94_triangular.
Example C94_triangular_case : let a := \matrix_(i < 2, j < 2) ((i <= j)%nat%:R : F2) in
  [/\ @matrix_of 2 _ _ bb_rep [:: true; true; false; true] a,
      forall i j : 'I_2, (j < i)%nat -> a i j = 0 &
      returns (determinant (QQ debug64) 2 [:: (2, 1); (5, 1); (0, 1); (-3, 1)]%Z) (-6, 1)%Z].
Proof.
split; last by run 60%nat.
  exists [:: 1; 1; 0; 1]; split=> //; first by do 4!constructor=> //.
  by case=> [[|[|//]] hi] [[|[|//]] hj]; rewrite mxE.
by move=> i j h; rewrite mxE leqNgt h.
Qed.

(** Vectors as diagonal matrices. *)
Theorem C94_diagonal : forall (cfg : Cfg) (p : Prop) (E : Type) (n : nat) (F : fieldType)
    (rep : E -> F -> Prop) (A : FieldAlg E),
  field_alg_spec cfg p rep A -> Z.le 2 (ptr_bits cfg) ->
  let mem v := exists f, @vector_of n E F rep v f in
  ring_map cfg p mem (diagonal A n) (VectorRing cfg n A) (MatrixRing cfg A n) /\
  one_to_one p mem (diagonal A n) (VectorRing cfg n A) (MatrixRing cfg A n) /\
  same_units p mem (diagonal A n) (VectorRing cfg n A) (MatrixRing cfg A n).
Proof. exact diagonal_map. Qed.
Print Assumptions C94_diagonal.
Example C94_diagonal_case : let Q := QQ debug64 in
  returns (try_inv (VectorRing debug64 2 Q) [:: (2, 1); (3, 1)]%Z) (Some [:: (1, 2); (1, 3)]%Z) /\
  returns (let! a := diagonal Q 2 [:: (2, 1); (3, 1)]%Z in try_inv (MatrixRing debug64 Q 2) a)
    (Some [:: (1, 2); (0, 1); (0, 1); (1, 3)]%Z).
Proof. by split; run 60%nat. Qed.

(** Residues modulo a polynomial of degree n as n by n matrices. *)
Theorem C94_regular : forall (cfg : Cfg) (p : Prop) (E : Type) (n : nat) (F : fieldType)
    (rep : E -> F -> Prop) (A : FieldAlg E),
  field_alg_spec cfg p rep A -> Z.le 2 (ptr_bits cfg) ->
  forall (m : {poly F}) (modulo : seq E),
  (1 < size m)%nat -> poly_of rep modulo m -> n = (size m).-1 ->
  let K := QuotientRing cfg (PolyEucl A) modulo in
  let mem x := exists P : {poly F},
    residue_of (poly_estruct F) (m : poly_idomainType F) (poly_of rep) x P in
  [/\ ring_map cfg p mem (times_matrix A K n) K (MatrixRing cfg A n),
      one_to_one p mem (times_matrix A K n) K (MatrixRing cfg A n) &
      same_units p mem (times_matrix A K n) K (MatrixRing cfg A n)].
Proof. exact regular_map. Qed.
Print Assumptions C94_regular.
(** Modulo x^2 - 2: the matrix of 3 + x is [[3 1] [2 3]] with determinant 7, the norm; that of
    its square 11 + 6 x is [[11 6] [12 11]]. *)
Example C94_regular_case : let Q := QQ debug64 in
  let K := QuotientRing debug64 (PolyEucl Q) [:: (-2, 1); (0, 1); (1, 1)]%Z in
  [/\ poly_of qq_rep [:: (-2, 1); (0, 1); (1, 1)]%Z (ResidueSpec.quad 0 (- (1 + 1))),
      returns (square K [:: (3, 1); (1, 1)]%Z) [:: (11, 1); (6, 1)]%Z,
      returns (times_matrix Q K 2 [:: (3, 1); (1, 1)]%Z) [:: (3, 1); (1, 1); (2, 1); (3, 1)]%Z,
      returns (square (MatrixRing debug64 Q 2) [:: (3, 1); (1, 1); (2, 1); (3, 1)]%Z)
        [:: (11, 1); (6, 1); (12, 1); (11, 1)]%Z &
      returns (determinant Q 2 [:: (3, 1); (1, 1); (2, 1); (3, 1)]%Z) (7, 1)%Z].
Proof.
split; try by run 60%nat.
apply: quad_of; [exact: qq_1|exact: qq_minus2|exact: qq_0].
Qed.

(** The matrix of x is the companion matrix of the modulus, whose characteristic polynomial
    is the modulus. *)
Theorem C94_companion : forall (cfg : Cfg) (p : Prop) (E : Type) (n : nat) (F : fieldType)
    (rep : E -> F -> Prop) (A : FieldAlg E),
  field_alg_spec cfg p rep A ->
  forall (m : {poly F}) (modulo : seq E),
  (1 < size m)%nat -> poly_of rep modulo m -> n = (size m).-1 -> m \is monic ->
  ensures p (companion cfg A n modulo) (fun v =>
    @matrix_of n E F rep v (\matrix_(i, j) if i.+1 == n then - m`_j else (i.+1 == j)%:R)).
Proof. exact companion_ok. Qed.
Print Assumptions C94_companion.
Theorem C94_companion_char : forall (cfg : Cfg) (p : Prop) (E : Type) (F : fieldType)
    (rep : E -> F -> Prop) (A : FieldAlg E) (m : {poly F}) (modulo : seq E),
  field_alg_spec cfg p rep A -> Z.le 2 (ptr_bits cfg) ->
  (1 < size m)%nat -> poly_of rep modulo m -> m \is monic ->
  let n := (size m).-1 in
  ensures p (let! v := companion cfg A n modulo in char_fraction cfg A n v)
    (fun z => poly_of rep z.1 m /\ poly_of rep z.2 1).
Proof. exact companion_char. Qed.
Print Assumptions C94_companion_char.
Example C94_companion_case : let Q := QQ debug64 in
  let m := [:: (-2, 1); (0, 1); (1, 1)]%Z in
  returns (companion debug64 Q 2 m) [:: (0, 1); (1, 1); (2, 1); (0, 1)]%Z /\
  returns (char_fraction debug64 Q 2 [:: (0, 1); (1, 1); (2, 1); (0, 1)]%Z) (m, [:: (1, 1)]%Z).
Proof. by split; run 90%nat. Qed.
Example C94_companion_char_case : let m := ResidueSpec.quad 0 (- (1 + 1)) in
  [/\ poly_of qq_rep [:: (-2, 1); (0, 1); (1, 1)]%Z m, size m = 3%nat & m \is monic].
Proof.
split.
- apply: quad_of; [exact: qq_1|exact: qq_minus2|exact: qq_0].
- exact: size_quad.
- apply/monicP; rewrite lead_coefE size_quad /ResidueSpec.quad.
  by rewrite !coefD coefXn coefMX !coefC eqxx /= !addr0.
Qed.

(** det(x - N), computed with fractions of polynomials, is the characteristic polynomial over
    1, with the right sign: no row is exchanged. *)
Theorem C94_char_poly : forall (cfg : Cfg) (p : Prop) (E : Type) (n : nat) (F : fieldType)
    (rep : E -> F -> Prop) (A : FieldAlg E),
  field_alg_spec cfg p rep A -> Z.le 2 (ptr_bits cfg) ->
  forall (v : seq E) (N : 'M[F]_n), matrix_of rep v N ->
  ensures p (char_fraction cfg A n v)
    (fun z => poly_of rep z.1 (char_poly N) /\ poly_of rep z.2 1).
Proof. exact char_poly_ok. Qed.
Print Assumptions C94_char_poly.
(** [[1 2] [3 4]] has x^2 - 5 x - 2, [[0 1] [1 0]] has x^2 - 1. *)
Example C94_char_poly_case : let Q := QQ debug64 in
  returns (char_fraction debug64 Q 2 [:: (1, 1); (2, 1); (3, 1); (4, 1)]%Z)
    ([:: (-2, 1); (-5, 1); (1, 1)]%Z, [:: (1, 1)]%Z) /\
  returns (char_fraction debug64 Q 2 [:: (0, 1); (1, 1); (1, 1); (0, 1)]%Z)
    ([:: (-1, 1); (0, 1); (1, 1)]%Z, [:: (1, 1)]%Z).
Proof. by split; run 90%nat. Qed.

(** The value of a polynomial at a matrix. *)
Theorem C94_value : forall (cfg : Cfg) (p : Prop) (E : Type) (n : nat) (F : fieldType)
    (rep : E -> F -> Prop) (A : FieldAlg E),
  field_alg_spec cfg p rep A -> Z.le 2 (ptr_bits cfg) ->
  forall (u : seq E) (P : {poly F}) (v : seq E) (N : 'M[F]_n), poly_of rep u P -> matrix_of rep v N ->
  ensures p (matrix_value cfg A n u v)
    (fun y => matrix_of rep y (\sum_(i < size P) P`_i *: ssrnat.iter i (mulmx^~ N) 1%:M)).
Proof. exact matrix_value_ok. Qed.
Print Assumptions C94_value.
Example C94_value_case :
  returns (matrix_value debug64 (QQ debug64) 2 [:: (1, 1); (0, 1); (1, 1)]%Z
    [:: (1, 1); (2, 1); (3, 1); (4, 1)]%Z) [:: (8, 1); (10, 1); (15, 1); (23, 1)]%Z.
Proof. by run 90%nat. Qed.

(** Cayley-Hamilton: every matrix is a root of its characteristic polynomial. *)
Theorem C94_cayley_hamilton : forall (cfg : Cfg) (p : Prop) (E : Type) (n : nat) (F : fieldType)
    (rep : E -> F -> Prop) (A : FieldAlg E),
  field_alg_spec cfg p rep A -> Z.le 2 (ptr_bits cfg) ->
  forall (v : seq E) (N : 'M[F]_n), matrix_of rep v N ->
  Laws.holds p (let! d := char_fraction cfg A n v in
    let! y := matrix_value cfg A n d.1 v in is_zero (MatrixRing cfg A n) y).
Proof. exact cayley_ok. Qed.
Print Assumptions C94_cayley_hamilton.
Example C94_cayley_hamilton_case :
  returns (matrix_value debug64 (QQ debug64) 2 [:: (-2, 1); (-5, 1); (1, 1)]%Z
    [:: (1, 1); (2, 1); (3, 1); (4, 1)]%Z) [:: (0, 1); (0, 1); (0, 1); (0, 1)]%Z.
Proof. by run 90%nat. Qed.
