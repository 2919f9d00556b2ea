(** * MemberSpec.v -- what [contains] accepts. *)

From mathcomp Require Import all_ssreflect.
From Verif Require Import Rust Traits.

Set Implicit Arguments.
Unset Strict Implicit.
Unset Printing Implicit Defensive.

(** On the values [ty] of the element type, [contains] accepts exactly the members
    [mem]. With [p := False] it always returns, with [p := True] it may panic. *)
Definition contains_decides (p : Prop) (E : Type) (ty mem : E -> Prop) (A : Domain E) : Prop :=
  forall x, ty x -> ensures p (contains A x) (fun b => b = true <-> mem x).

(** All the entries of a vector. *)
Definition entries {E} (P : E -> Prop) (v : seq E) : Prop :=
  forall i x, i < size v -> P (nth x v i).

(** ** Closure: the members and what the methods return *)
Section Closed.
Variables (cfg : Cfg) (p : Prop) (E : Type) (mem : E -> Prop) (D : Domain E).

(** Whatever the call returns is a member, and [contains] accepts it. *)
Definition lands (m : M E) : Prop := forall z, returns m z ->
  mem z /\ ensures p (contains D z) (fun b => b = true).
Definition lands_opt (m : M (option E)) : Prop := forall z, returns m (Some z) ->
  mem z /\ ensures p (contains D z) (fun b => b = true).

Record closed_mul (S : Semigroup E) (A : Monoid E) : Prop := {
  cl_one : lands (one A);
  cl_mul : forall x y, mem x -> mem y -> lands (mul S x y);
  cl_mul_assign : forall x y, mem x -> mem y -> lands (mul_assign S x y);
  cl_square : forall x, mem x -> lands (square S x);
  cl_try_inv : forall x, mem x -> lands_opt (try_inv A x)
}.
Record closed_group (A : Group E) : Prop := {
  cl_ginv : forall x, mem x -> lands (ginv A x);
  cl_gpower : forall n x, is_isize cfg n -> n <> imin (ptr_bits cfg) -> mem x ->
    lands (gpower A n x)
}.
Record closed_add (C : CommMonoid E) : Prop := {
  cl_zero : lands (zero C);
  cl_add : forall x y, mem x -> mem y -> lands (add C x y);
  cl_add_assign : forall x y, mem x -> mem y -> lands (add_assign C x y);
  cl_double : forall x, mem x -> lands (double C x);
  cl_ntimes : forall n x, BinInt.Z.le BinInt.Z0 n -> mem x -> lands (ntimes C n x)
}.
Record closed_abelian (A : AbelianGroup E) : Prop := {
  cl_neg : forall x, mem x -> lands (neg A x);
  cl_neg_assign : forall x, mem x -> lands (neg_assign A x);
  cl_sub : forall x y, mem x -> mem y -> lands (sub A x y);
  cl_sub_assign : forall x y, mem x -> mem y -> lands (sub_assign A x y);
  cl_ztimes : forall n x, is_isize cfg n -> n <> imin (ptr_bits cfg) -> mem x ->
    lands (ztimes A n x)
}.
Record closed_unitary (A : UnitaryRing E) : Prop := {
  cl_int : forall n, is_isize cfg n -> n <> imin (ptr_bits cfg) -> lands (int A n)
}.
Record closed_idom (A : IntegralDomain E) : Prop := {
  cl_try_div : forall x y, mem x -> mem y -> lands_opt (try_div A x y);
  cl_associate_repr : forall x, mem x -> lands (associate_repr A x);
  cl_associate_coef : forall x, mem x -> lands (associate_coef A x)
}.
Record closed_eucl (A : EuclideanDomain E) : Prop := {
  cl_quo_rem : forall x y, mem x -> mem y ->
    lands (let! z := quo_rem A x y in ret z.1) /\ lands (let! z := quo_rem A x y in ret z.2);
  cl_quo : forall x y, mem x -> mem y -> lands (quo A x y);
  cl_rem : forall x y, mem x -> mem y -> lands (rem A x y);
  cl_gcd : forall x y, mem x -> mem y -> lands (gcd A x y);
  cl_lcm : forall x y, mem x -> mem y -> lands (lcm A x y);
  cl_extended_gcd : forall x y, mem x -> mem y ->
    [/\ lands (let! z := extended_gcd A x y in ret z.1.1),
        lands (let! z := extended_gcd A x y in ret z.1.2) &
        lands (let! z := extended_gcd A x y in ret z.2)]
}.
Record closed_field (A : Field E) : Prop := {
  cl_finv : forall x, mem x -> lands (finv A x);
  cl_fdiv : forall x y, mem x -> mem y -> lands (fdiv A x y);
  cl_fpower : forall n x, is_isize cfg n -> n <> imin (ptr_bits cfg) -> mem x ->
    lands (fpower A n x)
}.
Record closed_lattice (A : Lattice E) : Prop := {
  cl_meet : forall x y, mem x -> mem y -> lands (meet A x y);
  cl_join : forall x y, mem x -> mem y -> lands (join A x y)
}.
Record closed_bounded (A : BoundedOrder E) : Prop := {
  cl_omax : lands (omax A);
  cl_omin : lands (omin A)
}.
Record closed_boolean (A : BooleanAlgebra E) : Prop := {
  cl_bnot : forall x, mem x -> lands (bnot A x)
}.
End Closed.

(** The same for structures that implement several traits. *)
Section ClosedAlg.
Variables (cfg : Cfg) (p : Prop) (E : Type) (mem : E -> Prop).
Definition closed_group_alg (A : GroupAlg E) : Prop :=
  closed_mul p mem A A A /\ closed_group cfg p mem A A.
Definition closed_semiring_alg (A : SemiRingAlg E) : Prop :=
  closed_mul p mem A A A /\ closed_add p mem A A.
Definition closed_abelian_alg (A : AbelianAlg E) : Prop :=
  closed_add p mem A A /\ closed_abelian cfg p mem A A.
Definition closed_ring_alg (A : RingAlg E) : Prop :=
  [/\ closed_mul p mem A A A, closed_add p mem A A, closed_abelian cfg p mem A A &
      closed_unitary cfg p mem A A].
Definition closed_idom_alg (A : IDomAlg E) : Prop :=
  closed_ring_alg A /\ closed_idom p mem A A.
Definition closed_eucl_alg (A : EuclAlg E) : Prop :=
  closed_idom_alg A /\ closed_eucl p mem A A.
Definition closed_field_alg (A : FieldAlg E) : Prop :=
  closed_eucl_alg A /\ closed_field cfg p mem A A.
Definition closed_lattice_alg (A : LatticeAlg E) : Prop := closed_lattice p mem A A.
Definition closed_bounded_alg (A : BoundedAlg E) : Prop := closed_bounded p mem A A.
Definition closed_boolean_alg (A : BooleanAlg E) : Prop :=
  [/\ closed_lattice p mem A A, closed_bounded p mem A A & closed_boolean p mem A A].
End ClosedAlg.
