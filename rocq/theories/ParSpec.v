(** * ParSpec.v -- comparing calls with related arguments. *)

From Coq Require Import ZArith.
From mathcomp Require Import all_ssreflect.
From Flocq Require BinarySingleNaN.
From Verif Require Import Rust Traits MInts MConstr ModSpec.

Set Implicit Arguments.
Unset Strict Implicit.
Unset Printing Implicit Defensive.

(** Whatever the first call is seen to do within some number of iterations, return a value
    or panic, the second one does: it returns a related value or it panics. *)
Definition simulated A B (R : A -> B -> Prop) (m1 : M A) (m2 : M B) : Prop :=
  forall k, match m1 k with
            | Done v => exists2 w, returns m2 w & R v w
            | Panicked => panics m2
            | Unfinished => True
            end.

(** The two calls return related values, or both panic, or both run forever. *)
Definition alike A B (R : A -> B -> Prop) (m1 : M A) (m2 : M B) : Prop :=
  simulated R m1 m2 /\ simulated (fun w v => R v w) m2 m1.

(** The values inside of composed ones are related. *)
Definition option_par A B (R : A -> B -> Prop) (o1 : option A) (o2 : option B) : Prop :=
  match o1, o2 with Some v, Some w => R v w | None, None => True | _, _ => False end.
Definition pair_par A B (R : A -> B -> Prop) (z1 : A * A) (z2 : B * B) : Prop :=
  R z1.1 z2.1 /\ R z1.2 z2.2.
Definition triple_par A B (R : A -> B -> Prop) (z1 : A * A * A) (z2 : B * B * B) : Prop :=
  pair_par R z1.1 z2.1 /\ R z1.2 z2.2.
Fixpoint vec_par A B (R : A -> B -> Prop) (v : seq A) (w : seq B) : Prop :=
  match v, w with
  | x :: v', y :: w' => R x y /\ vec_par R v' w'
  | [::], [::] => True
  | _, _ => False
  end.

(** ** All methods of two structures do alike on related arguments

    and on the isize numbers that satisfy [ok]. *)
Section Par.
Variables (ok : Z -> Prop) (E1 E2 : Type) (R : E1 -> E2 -> Prop).

Definition par1 (f : E1 -> M E1) (g : E2 -> M E2) := forall x x', R x x' -> alike R (f x) (g x').
Definition par2 (f : E1 -> E1 -> M E1) (g : E2 -> E2 -> M E2) :=
  forall x y x' y', R x x' -> R y y' -> alike R (f x y) (g x' y').
Definition par1b (f : E1 -> M bool) (g : E2 -> M bool) :=
  forall x x', R x x' -> alike eq (f x) (g x').
Definition par2b (f : E1 -> E1 -> M bool) (g : E2 -> E2 -> M bool) :=
  forall x y x' y', R x x' -> R y y' -> alike eq (f x y) (g x' y').
Definition par1o (f : E1 -> M (option E1)) (g : E2 -> M (option E2)) :=
  forall x x', R x x' -> alike (option_par R) (f x) (g x').
Definition par2o (f : E1 -> E1 -> M (option E1)) (g : E2 -> E2 -> M (option E2)) :=
  forall x y x' y', R x x' -> R y y' -> alike (option_par R) (f x y) (g x' y').
Definition par2p (f : E1 -> E1 -> M (E1 * E1)) (g : E2 -> E2 -> M (E2 * E2)) :=
  forall x y x' y', R x x' -> R y y' -> alike (pair_par R) (f x y) (g x' y').
Definition par2t (f : E1 -> E1 -> M (E1 * E1 * E1)) (g : E2 -> E2 -> M (E2 * E2 * E2)) :=
  forall x y x' y', R x x' -> R y y' -> alike (triple_par R) (f x y) (g x' y').

Record domain_par (A : Domain E1) (B : Domain E2) : Prop := {
  contains_par : par1b (contains A) (contains B);
  equals_par : par2b (equals A) (equals B)
}.
Record semigroup_par (A : Semigroup E1) (B : Semigroup E2) : Prop := {
  mul_par : par2 (mul A) (mul B);
  mul_assign_par : par2 (mul_assign A) (mul_assign B);
  square_par : par1 (square A) (square B)
}.
Record monoid_par (A : Monoid E1) (B : Monoid E2) : Prop := {
  one_par : alike R (one A) (one B);
  is_one_par : par1b (is_one A) (is_one B);
  try_inv_par : par1o (try_inv A) (try_inv B);
  invertible_par : par1b (invertible A) (invertible B)
}.
Record cmonoid_par (A : CommMonoid E1) (B : CommMonoid E2) : Prop := {
  zero_par : alike R (zero A) (zero B);
  is_zero_par : par1b (is_zero A) (is_zero B);
  add_par : par2 (add A) (add B);
  add_assign_par : par2 (add_assign A) (add_assign B);
  double_par : par1 (double A) (double B);
  ntimes_par : forall n, (0 <= n)%Z -> par1 (ntimes A n) (ntimes B n)
}.
Record group_par (A : Group E1) (B : Group E2) : Prop := {
  ginv_par : par1 (ginv A) (ginv B);
  gpower_par : forall n, ok n -> par1 (gpower A n) (gpower B n)
}.
Record abelian_par (A : AbelianGroup E1) (B : AbelianGroup E2) : Prop := {
  neg_par : par1 (neg A) (neg B);
  neg_assign_par : par1 (neg_assign A) (neg_assign B);
  sub_par : par2 (sub A) (sub B);
  sub_assign_par : par2 (sub_assign A) (sub_assign B);
  ztimes_par : forall n, ok n -> par1 (ztimes A n) (ztimes B n)
}.
Record unitary_par (A : UnitaryRing E1) (B : UnitaryRing E2) : Prop := {
  int_par : forall n, ok n -> alike R (int A n) (int B n)
}.
Record idom_par (A : IntegralDomain E1) (B : IntegralDomain E2) : Prop := {
  try_div_par : par2o (try_div A) (try_div B);
  divisible_par : par2b (divisible A) (divisible B);
  associates_par : par2b (associates A) (associates B);
  associate_repr_par : par1 (associate_repr A) (associate_repr B);
  associate_coef_par : par1 (associate_coef A) (associate_coef B)
}.
Record eucl_par (A : EuclideanDomain E1) (B : EuclideanDomain E2) : Prop := {
  quo_rem_par : par2p (quo_rem A) (quo_rem B);
  quo_par : par2 (quo A) (quo B);
  rem_par : par2 (rem A) (rem B);
  reduced_par : par2b (reduced A) (reduced B);
  gcd_par : par2 (gcd A) (gcd B);
  lcm_par : par2 (lcm A) (lcm B);
  extended_gcd_par : par2t (extended_gcd A) (extended_gcd B);
  relative_primes_par : par2b (relative_primes A) (relative_primes B)
}.
Record field_par (A : Field E1) (B : Field E2) : Prop := {
  finv_par : par1 (finv A) (finv B);
  fdiv_par : par2 (fdiv A) (fdiv B);
  fpower_par : forall n, ok n -> par1 (fpower A n) (fpower B n)
}.
Record order_par (A : PartialOrder E1) (B : PartialOrder E2) : Prop := {
  leq_par : par2b (leq A) (leq B);
  less_than_par : par2b (less_than A) (less_than B);
  comparable_par : par2b (comparable A) (comparable B)
}.
Record bounded_par (A : BoundedOrder E1) (B : BoundedOrder E2) : Prop := {
  omax_par : alike R (omax A) (omax B);
  omin_par : alike R (omin A) (omin B)
}.
Record lattice_par (A : Lattice E1) (B : Lattice E2) : Prop := {
  meet_par : par2 (meet A) (meet B);
  join_par : par2 (join A) (join B)
}.
Record boolean_par (A : BooleanAlgebra E1) (B : BooleanAlgebra E2) : Prop := {
  bnot_par : par1 (bnot A) (bnot B)
}.
Record abelian_alg_par (A : AbelianAlg E1) (B : AbelianAlg E2) : Prop := {
  ab_domain_par :> domain_par A B;
  ab_cmonoid_par :> cmonoid_par A B;
  ab_abelian_par :> abelian_par A B
}.
Record monoid_alg_par (A : MonoidAlg E1) (B : MonoidAlg E2) : Prop := {
  mo_domain_par :> domain_par A B;
  mo_semigroup_par :> semigroup_par A B;
  mo_monoid_par :> monoid_par A B
}.
Record group_alg_par (A : GroupAlg E1) (B : GroupAlg E2) : Prop := {
  gr_monoid_alg_par :> monoid_alg_par A B;
  gr_group_par :> group_par A B
}.
Record semiring_alg_par (A : SemiRingAlg E1) (B : SemiRingAlg E2) : Prop := {
  sr_monoid_alg_par :> monoid_alg_par A B;
  sr_cmonoid_par :> cmonoid_par A B
}.
Record ring_alg_par (A : RingAlg E1) (B : RingAlg E2) : Prop := {
  ri_monoid_alg_par :> monoid_alg_par A B;
  ri_cmonoid_par :> cmonoid_par A B;
  ri_abelian_par :> abelian_par A B;
  ri_unitary_par :> unitary_par A B
}.
Record idom_alg_par (A : IDomAlg E1) (B : IDomAlg E2) : Prop := {
  id_ring_alg_par :> ring_alg_par A B;
  id_idom_par :> idom_par A B
}.
Record eucl_alg_par (A : EuclAlg E1) (B : EuclAlg E2) : Prop := {
  eu_idom_alg_par :> idom_alg_par A B;
  eu_eucl_par :> eucl_par A B
}.
Record field_alg_par (A : FieldAlg E1) (B : FieldAlg E2) : Prop := {
  fi_eucl_alg_par :> eucl_alg_par A B;
  fi_field_par :> field_par A B
}.
Record order_alg_par (A : OrderAlg E1) (B : OrderAlg E2) : Prop := {
  or_domain_par :> domain_par A B;
  or_order_par :> order_par A B
}.
Record bounded_alg_par (A : BoundedAlg E1) (B : BoundedAlg E2) : Prop := {
  bo_order_alg_par :> order_alg_par A B;
  bo_bounded_par :> bounded_par A B
}.
Record lattice_alg_par (A : LatticeAlg E1) (B : LatticeAlg E2) : Prop := {
  la_order_alg_par :> order_alg_par A B;
  la_lattice_par :> lattice_par A B
}.
Record boolean_alg_par (A : BooleanAlg E1) (B : BooleanAlg E2) : Prop := {
  ba_lattice_alg_par :> lattice_alg_par A B;
  ba_bounded_par :> bounded_par A B;
  ba_boolean_par :> boolean_par A B
}.
End Par.

(** ** Relations *)

(** The same residue modulo [k]. *)
Definition same_residue (k x y : Z) : Prop := x = y /\ residue_z k x.
(** The residue modulo 2 that is a bit. *)
Definition bit_residue (b : bool) (x : Z) : Prop := x = Z.b2z b.
(** The same float up to the sign of zero. *)
Definition same_float (prec emax : Z) (x y : BinarySingleNaN.binary_float prec emax) : Prop :=
  x = y \/ (exists s t, x = BinarySingleNaN.B754_zero s /\ y = BinarySingleNaN.B754_zero t).
