(** * IndexSpec.v -- the two transcriptions of matrices and polynomials agree.

    [m =1 m']: the calls [m] and [m'] do the same, whatever the number of iterations they are
    observed for. *)

From Coq Require Import ZArith.
From mathcomp Require Import all_ssreflect.
From Verif Require Import Rust Traits MConstr MIndex.

Set Implicit Arguments.
Unset Strict Implicit.
Unset Printing Implicit Defensive.

(** A Vec holds at most [isize::MAX] bytes, so it has at most so many elements (unless
    they have size zero, which no [Elem] of the crate has). *)
Definition vec_length (cfg : Cfg) (E : Type) (v : seq E) : Prop :=
  (Z.of_nat (size v) <= imax (ptr_bits cfg))%Z.

Record matrix_indices (cfg : Cfg) (E : Type) (A : FieldAlg E) (n : nat) : Prop := {
  mi_len : u_matrix_len cfg n =1 ret (n * n);
  mi_contains : forall v, u_matrix_contains cfg A n v =1 contains (MatrixRing cfg A n) v;
  mi_equals : forall v u, u_matrix_equals cfg A n v u =1 equals (MatrixRing cfg A n) v u;
  mi_mul : forall v u, u_matrix_mul cfg A n v u =1 mul (MatrixRing cfg A n) v u;
  mi_int : forall k, u_matrix_int cfg A n k =1 int (MatrixRing cfg A n) k;
  mi_try_inv : forall v, u_matrix_try_inv cfg A n v =1 try_inv (MatrixRing cfg A n) v;
  mi_invertible : forall v, u_matrix_invertible cfg A n v =1 invertible (MatrixRing cfg A n) v;
  mi_transpose : forall v : seq E, u_matrix_transpose cfg n v =1 matrix_transpose n v;
  mi_determinant : forall v, u_determinant cfg A n v =1 determinant A n v }.

Record poly_indices (cfg : Cfg) (E : Type) : Prop := {
  pi_degree : forall v : seq E, vec_length cfg v -> u_poly_degree cfg v =1 ret (poly_degree v);
  pi_leading_coef : forall v : seq E, vec_length cfg v ->
    u_poly_leading_coef cfg v =1 poly_leading_coef v;
  pi_contains : forall (A : AbelianAlg E) v, vec_length cfg v ->
    u_poly_contains cfg A v =1 contains (PolyAbelian A) v;
  pi_add : forall (A : AbelianAlg E) v u, vec_length cfg v -> vec_length cfg u ->
    u_poly_add cfg A v u =1 add (PolyAbelian A) v u;
  pi_times : forall (A : AbelianAlg E) k v, vec_length cfg v ->
    u_poly_ztimes cfg A k v =1 ztimes (PolyAbelian A) k v;
  pi_mul : forall (A : AbelianAlg E) S v u, vec_length cfg v -> vec_length cfg u ->
    u_poly_mul cfg A S v u =1 mul (poly_semigroup A S) v u;
  pi_try_div : forall (A : IDomAlg E) v u, vec_length cfg v -> vec_length cfg u ->
    u_poly_try_div cfg A v u =1 try_div (PolyIDom A) v u;
  pi_associate_repr : forall (A : IDomAlg E) v, vec_length cfg v ->
    u_poly_associate_repr cfg A v =1 associate_repr (PolyIDom A) v;
  pi_associate_coef : forall (A : IDomAlg E) v, vec_length cfg v ->
    u_poly_associate_coef cfg A v =1 associate_coef (PolyIDom A) v;
  pi_quo_rem : forall (A : FieldAlg E) v u, vec_length cfg v -> vec_length cfg u ->
    u_poly_quo_rem cfg A v u =1 quo_rem (PolyEucl A) v u }.

(** Values of type [u32], and vectors of them. *)
Definition is_u32 (a : nat) : Prop := (Z.of_nat a < 2 ^ 32)%Z.
Definition u32_vector (v : seq nat) : Prop := forall a, a \in v -> is_u32 a.

Record perm_casts (cfg : Cfg) (n : nat) : Prop := {
  pc_contains : forall v, u32_vector v ->
    c_perm_contains cfg n v =1 contains (Permutations cfg n) v;
  pc_mul : forall v u, u32_vector v -> c_perm_mul cfg n v u =1 mul (Permutations cfg n) v u;
  pc_mul_assign : forall v u, u32_vector v ->
    c_perm_mul_assign cfg n v u =1 mul_assign (Permutations cfg n) v u;
  pc_one : c_perm_one cfg n =1 one (Permutations cfg n);
  pc_is_one : forall v, u32_vector v -> c_perm_is_one cfg n v =1 is_one (Permutations cfg n) v;
  (** Here the positions are cast as well; the members have length [n]. *)
  pc_try_inv : forall v, u32_vector v -> (Z.of_nat (size v) <= 2 ^ 32)%Z ->
    c_perm_try_inv cfg n v =1 try_inv (Permutations cfg n) v }.
