(** * ReprSpec.v -- permutations, vectors and residues of polynomials as matrices, and
    characteristic polynomials, as statements about calls.

    The library has no such conversions; the maps are what a user writes. *)

From Coq Require Import ZArith List.
From mathcomp Require Import all_ssreflect all_algebra.
From Verif Require Import Rust Traits MConstr Laws TimesLaw HomLaw EvalLaw.

Set Implicit Arguments.
Unset Strict Implicit.
Unset Printing Implicit Defensive.

(** The entries f i j of an n by n matrix row by row. *)
Definition tabulate {E} (n : nat) (f : nat -> nat -> E) : seq E :=
  flatten [seq [seq f i j | j <- iota 0 n] | i <- iota 0 n].

(** The matrix of a permutation: row i has its one in column v[i]. *)
Definition perm_matrix {E} (A : RingAlg E) (n : nat) (v : seq nat) : M (seq E) :=
  let! z := zero A in let! o := one A in
  ret (tabulate n (fun i j => if nth 0 v i == j then o else z)).
(** The diagonal matrix with the entries of a vector, and with an element. *)
Definition diagonal {E} (A : RingAlg E) (n : nat) (v : seq E) : M (seq E) :=
  let! z := zero A in
  ret (tabulate n (fun i j => if i == j then nth z v i else z)).
Definition scalar {E} (A : RingAlg E) (n : nat) (x : E) : M (seq E) := diagonal A n (nseq n x).

(** The polynomial x^i, and the matrix whose row i lists the coefficients of x^i times [v],
    computed in [K]. *)
Definition monomial {E} (A : RingAlg E) (i : nat) : M (seq E) :=
  let! z := zero A in let! o := one A in ret (rcons (nseq i z) o).
Definition times_matrix {E} (A : RingAlg E) (K : RingAlg (seq E)) (n : nat) (v : seq E)
    : M (seq E) :=
  let! z := zero A in
  let! rows := mapM (fun i => let! x := monomial A i in mul K x v) (iota 0 n) in
  ret (tabulate n (fun i j => nth z (nth [::] rows i) j)).

(** The matrix of multiplication by x modulo the polynomial [m]. *)
Definition companion {E} (cfg : Cfg) (A : FieldAlg E) (n : nat) (m : seq E) : M (seq E) :=
  let! x := adjoined A m in times_matrix A (QuotientRing cfg (PolyEucl A) m) n x.

(** The matrix x - [v] of fractions of polynomials. *)
Definition char_entry {E} (A : RingAlg E) (diag : bool) (a : E) : M (seq E * seq E) :=
  let! b := neg A a in let! o := one A in
  let! c := if diag then ret [:: b; o] else to_constant A b in
  ret (c, [:: o]).
Definition char_matrix {E} (A : RingAlg E) (n : nat) (v : seq E) : M (seq (seq E * seq E)) :=
  mapM (fun ka => char_entry A (ka.1 %/ n == ka.1 %% n) ka.2) (zip (iota 0 (n * n)) v).
(** Its determinant. *)
Definition char_fraction {E} (cfg : Cfg) (A : FieldAlg E) (n : nat) (v : seq E)
    : M (seq E * seq E) :=
  let! w := char_matrix A n v in determinant (ReducedFractions cfg (PolyEucl A)) n w.
(** The value of the polynomial [u] at the matrix [v]. *)
Definition matrix_value {E} (cfg : Cfg) (A : FieldAlg E) (n : nat) (u v : seq E) : M (seq E) :=
  let! w := mapM (scalar A n) u in value (MatrixRing cfg A n) w v.

(** Homomorphisms of groups; as in HomLaw.v. *)
Record group_map (cfg : Cfg) (p : Prop) (E W : Type) (mem : E -> Prop) (f : E -> M W)
    (A : GroupAlg E) (B : GroupAlg W) : Prop := {
  gm_member : forall x, mem x -> holds p (member B (f x));
  gm_equals : forall x y, mem x -> mem y -> holds p (agree (equals A x y) (same B (f x) (f y)));
  gm_one : holds p (same B (let! o := one A in f o) (one B));
  gm_is_one : forall x, mem x -> holds p (agree (is_one A x) (let! a := f x in is_one B a));
  gm_mul : forall x y, mem x -> mem y -> holds p (same B
    (let! a := mul A x y in f a) (let! a := f x in let! b := f y in mul B a b));
  gm_square : forall x, mem x -> holds p (same B
    (let! a := square A x in f a) (let! a := f x in square B a));
  gm_inv : forall x, mem x -> holds p (same B
    (let! a := ginv A x in f a) (let! a := f x in ginv B a));
  gm_power : forall n x, mem x -> fits cfg n -> holds p (same B
    (let! a := gpower A n x in f a) (let! a := f x in gpower B n a))
}.

(** A member of [A] and its image are both invertible, or none is. *)
Definition same_units (p : Prop) (E W : Type) (mem : E -> Prop) (f : E -> M W)
    (A : RingAlg E) (B : RingAlg W) : Prop := forall x, mem x ->
  holds p (agree (invertible A x) (let! a := f x in invertible B a)).
