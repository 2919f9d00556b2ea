(** * ProfSpec.v -- comparing the same program compiled with different profiles. *)

From Coq Require Import ZArith.
From mathcomp Require Import all_ssreflect.
From Verif Require Import Rust Traits MInts MConstr CallSpec.

Set Implicit Arguments.
Unset Strict Implicit.
Unset Printing Implicit Defensive.

(** Two profiles for the same machine: the sizes of the types are the same, the
    overflow checks and the debug assertions may differ. *)
Definition same_machine (c1 c2 : Cfg) : Prop := ptr_bits c1 = ptr_bits c2.

(** Every check of the second profile is made by the first one. *)
Definition stricter (c1 c2 : Cfg) : Prop :=
  [/\ ptr_bits c1 = ptr_bits c2, overflow_checks c2 -> overflow_checks c1 &
      debug_assertions c2 -> debug_assertions c1].

(** The isize values other than the least one. *)
Definition not_min (c : Cfg) (n : Z) : Prop :=
  (- 2 ^ (ptr_bits c - 1) < n < 2 ^ (ptr_bits c - 1))%Z.

(** The two calls have the same outcome, and a value they return satisfies [Q]. *)
Definition agree T (Q : T -> Prop) (m1 m2 : M T) : Prop :=
  same_call m1 m2 /\ forall v, returns m1 v -> Q v.

(** What the first call returns is returned by the second one, and satisfies [Q]. *)
Definition follows T (Q : T -> Prop) (m1 m2 : M T) : Prop :=
  forall v, returns m1 v -> returns m2 v /\ Q v.

(** The values inside of composed ones. *)
Definition in_option T (Q : T -> Prop) (o : option T) : Prop :=
  if o is Some v then Q v else True.
Definition in_pair T (Q : T -> Prop) (z : T * T) : Prop := Q z.1 /\ Q z.2.
Definition in_triple T (Q : T -> Prop) (z : T * T * T) : Prop := in_pair Q z.1 /\ Q z.2.
Fixpoint in_vec T (Q : T -> Prop) (v : seq T) : Prop :=
  if v is x :: v' then Q x /\ in_vec Q v' else True.

(** ** All methods of two structures are related by [r]

    on the arguments that satisfy [Q] and on the isize numbers that satisfy [ok]. *)
Section Rel.
Variables (r : forall T, (T -> Prop) -> M T -> M T -> Prop) (ok : Z -> Prop).
Variables (E : Type) (Q : E -> Prop).

Definition rel1 (f g : E -> M E) := forall x, Q x -> r Q (f x) (g x).
Definition rel2 (f g : E -> E -> M E) := forall x y, Q x -> Q y -> r Q (f x y) (g x y).
Definition rel1b (f g : E -> M bool) := forall x, Q x -> r (fun _ => True) (f x) (g x).
Definition rel2b (f g : E -> E -> M bool) :=
  forall x y, Q x -> Q y -> r (fun _ => True) (f x y) (g x y).
Definition rel1o (f g : E -> M (option E)) := forall x, Q x -> r (in_option Q) (f x) (g x).
Definition rel2o (f g : E -> E -> M (option E)) :=
  forall x y, Q x -> Q y -> r (in_option Q) (f x y) (g x y).
Definition rel2p (f g : E -> E -> M (E * E)) :=
  forall x y, Q x -> Q y -> r (in_pair Q) (f x y) (g x y).
Definition rel2t (f g : E -> E -> M (E * E * E)) :=
  forall x y, Q x -> Q y -> r (in_triple Q) (f x y) (g x y).

Record domain_rel (A B : Domain E) : Prop := {
  contains_rel : rel1b (contains A) (contains B);
  equals_rel : rel2b (equals A) (equals B)
}.
Record semigroup_rel (A B : Semigroup E) : Prop := {
  mul_rel : rel2 (mul A) (mul B);
  mul_assign_rel : rel2 (mul_assign A) (mul_assign B);
  square_rel : rel1 (square A) (square B)
}.
Record monoid_rel (A B : Monoid E) : Prop := {
  one_rel : r Q (one A) (one B);
  is_one_rel : rel1b (is_one A) (is_one B);
  try_inv_rel : rel1o (try_inv A) (try_inv B);
  invertible_rel : rel1b (invertible A) (invertible B)
}.
Record cmonoid_rel (A B : CommMonoid E) : Prop := {
  zero_rel : r Q (zero A) (zero B);
  is_zero_rel : rel1b (is_zero A) (is_zero B);
  add_rel : rel2 (add A) (add B);
  add_assign_rel : rel2 (add_assign A) (add_assign B);
  double_rel : rel1 (double A) (double B);
  ntimes_rel : forall n, (0 <= n)%Z -> rel1 (ntimes A n) (ntimes B n)
}.
Record group_rel (A B : Group E) : Prop := {
  ginv_rel : rel1 (ginv A) (ginv B);
  gpower_rel : forall n, ok n -> rel1 (gpower A n) (gpower B n)
}.
Record abelian_rel (A B : AbelianGroup E) : Prop := {
  neg_rel : rel1 (neg A) (neg B);
  neg_assign_rel : rel1 (neg_assign A) (neg_assign B);
  sub_rel : rel2 (sub A) (sub B);
  sub_assign_rel : rel2 (sub_assign A) (sub_assign B);
  ztimes_rel : forall n, ok n -> rel1 (ztimes A n) (ztimes B n)
}.
Record unitary_rel (A B : UnitaryRing E) : Prop := {
  int_rel : forall n, ok n -> r Q (int A n) (int B n)
}.
Record idom_rel (A B : IntegralDomain E) : Prop := {
  try_div_rel : rel2o (try_div A) (try_div B);
  divisible_rel : rel2b (divisible A) (divisible B);
  associates_rel : rel2b (associates A) (associates B);
  associate_repr_rel : rel1 (associate_repr A) (associate_repr B);
  associate_coef_rel : rel1 (associate_coef A) (associate_coef B)
}.
Record eucl_rel (A B : EuclideanDomain E) : Prop := {
  quo_rem_rel : rel2p (quo_rem A) (quo_rem B);
  quo_rel : rel2 (quo A) (quo B);
  rem_rel : rel2 (rem A) (rem B);
  reduced_rel : rel2b (reduced A) (reduced B);
  gcd_rel : rel2 (gcd A) (gcd B);
  lcm_rel : rel2 (lcm A) (lcm B);
  extended_gcd_rel : rel2t (extended_gcd A) (extended_gcd B);
  relative_primes_rel : rel2b (relative_primes A) (relative_primes B)
}.
Record field_rel (A B : Field E) : Prop := {
  finv_rel : rel1 (finv A) (finv B);
  fdiv_rel : rel2 (fdiv A) (fdiv B);
  fpower_rel : forall n, ok n -> rel1 (fpower A n) (fpower B n)
}.
Record order_rel (A B : PartialOrder E) : Prop := {
  leq_rel : rel2b (leq A) (leq B);
  less_than_rel : rel2b (less_than A) (less_than B);
  comparable_rel : rel2b (comparable A) (comparable B)
}.
Record bounded_rel (A B : BoundedOrder E) : Prop := {
  omax_rel : r Q (omax A) (omax B);
  omin_rel : r Q (omin A) (omin B)
}.
Record lattice_rel (A B : Lattice E) : Prop := {
  meet_rel : rel2 (meet A) (meet B);
  join_rel : rel2 (join A) (join B)
}.
Record boolean_rel (A B : BooleanAlgebra E) : Prop := {
  bnot_rel : rel1 (bnot A) (bnot B)
}.
Record abelian_alg_rel (A B : AbelianAlg E) : Prop := {
  ab_domain_rel :> domain_rel A B;
  ab_cmonoid_rel :> cmonoid_rel A B;
  ab_abelian_rel :> abelian_rel A B
}.
Record monoid_alg_rel (A B : MonoidAlg E) : Prop := {
  mo_domain_rel :> domain_rel A B;
  mo_semigroup_rel :> semigroup_rel A B;
  mo_monoid_rel :> monoid_rel A B
}.
Record group_alg_rel (A B : GroupAlg E) : Prop := {
  gr_monoid_alg_rel :> monoid_alg_rel A B;
  gr_group_rel :> group_rel A B
}.
Record semiring_alg_rel (A B : SemiRingAlg E) : Prop := {
  sr_monoid_alg_rel :> monoid_alg_rel A B;
  sr_cmonoid_rel :> cmonoid_rel A B
}.
Record ring_alg_rel (A B : RingAlg E) : Prop := {
  ri_monoid_alg_rel :> monoid_alg_rel A B;
  ri_cmonoid_rel :> cmonoid_rel A B;
  ri_abelian_rel :> abelian_rel A B;
  ri_unitary_rel :> unitary_rel A B
}.
Record idom_alg_rel (A B : IDomAlg E) : Prop := {
  id_ring_alg_rel :> ring_alg_rel A B;
  id_idom_rel :> idom_rel A B
}.
Record eucl_alg_rel (A B : EuclAlg E) : Prop := {
  eu_idom_alg_rel :> idom_alg_rel A B;
  eu_eucl_rel :> eucl_rel A B
}.
Record field_alg_rel (A B : FieldAlg E) : Prop := {
  fi_eucl_alg_rel :> eucl_alg_rel A B;
  fi_field_rel :> field_rel A B
}.
Record order_alg_rel (A B : OrderAlg E) : Prop := {
  or_domain_rel :> domain_rel A B;
  or_order_rel :> order_rel A B
}.
Record bounded_alg_rel (A B : BoundedAlg E) : Prop := {
  bo_order_alg_rel :> order_alg_rel A B;
  bo_bounded_rel :> bounded_rel A B
}.
Record lattice_alg_rel (A B : LatticeAlg E) : Prop := {
  la_order_alg_rel :> order_alg_rel A B;
  la_lattice_rel :> lattice_rel A B
}.
Record boolean_alg_rel (A B : BooleanAlg E) : Prop := {
  ba_lattice_alg_rel :> lattice_alg_rel A B;
  ba_bounded_rel :> bounded_rel A B;
  ba_boolean_rel :> boolean_rel A B
}.
End Rel.

(** ** The structures the crate can build, as functions of the profile

    [ty] says which values the Rust type of the elements has; [mat] allows matrix
    rings. *)
Inductive prof_eucl : forall E : Type, (E -> Prop) -> (Cfg -> EuclAlg E) -> Prop :=
| prof_ZZ : prof_eucl (fun _ => True) (fun _ => ZZ)
| prof_CheckedInts w : (2 <= w)%Z -> prof_eucl (fun x => in_i w x) (fun c => CheckedInts c w)
| prof_eucl_field E (ty : E -> Prop) A : prof_field ty A -> prof_eucl ty (fun c => A c)
| prof_eucl_poly E (ty : E -> Prop) A : prof_field ty A ->
    prof_eucl (in_vec ty) (fun c => PolyEucl (A c))
with prof_field : forall E : Type, (E -> Prop) -> (Cfg -> FieldAlg E) -> Prop :=
| prof_BB : prof_field (fun _ => True) (fun _ => BB)
| prof_QuotientField E (ty : E -> Prop) A m : prof_eucl ty A -> ty m ->
    prof_field ty (fun c => QuotientField c (A c) m)
| prof_ReducedFractions E (ty : E -> Prop) A : prof_eucl ty A ->
    prof_field (in_pair ty) (fun c => ReducedFractions c (A c)).

Inductive prof_idom : forall E : Type, (E -> Prop) -> (Cfg -> IDomAlg E) -> Prop :=
| prof_idom_eucl E (ty : E -> Prop) A : prof_eucl ty A -> prof_idom ty (fun c => A c)
| prof_idom_poly E (ty : E -> Prop) A : prof_idom ty A ->
    prof_idom (in_vec ty) (fun c => PolyIDom (A c)).

Inductive prof_ring (mat : bool) :
  forall E : Type, (E -> Prop) -> (Cfg -> RingAlg E) -> Prop :=
| prof_ring_idom E (ty : E -> Prop) A : prof_idom ty A -> prof_ring mat ty (fun c => A c)
| prof_QuotientRing E (ty : E -> Prop) A m : prof_eucl ty A -> ty m ->
    prof_ring mat ty (fun c => QuotientRing c (A c) m)
| prof_VectorRing E (ty : E -> Prop) n A : prof_ring mat ty A ->
    prof_ring mat (in_vec ty) (fun c => VectorRing c n (A c))
| prof_ring_poly E (ty : E -> Prop) A : prof_ring mat ty A ->
    prof_ring mat (in_vec ty) (fun c => PolyRing (A c))
| prof_MatrixRing E (ty : E -> Prop) n A : mat -> prof_field ty A ->
    prof_ring mat (in_vec ty) (fun c => MatrixRing c (A c) n).

Inductive prof_group (mat : bool) :
  forall E : Type, (E -> Prop) -> (Cfg -> GroupAlg E) -> Prop :=
| prof_AdditiveGroup E (ty : E -> Prop) A : prof_ring mat ty A ->
    prof_group mat ty (fun c => AdditiveGroup c (A c))
| prof_MultiplicativeGroup E (ty : E -> Prop) A : prof_ring mat ty A ->
    prof_group mat ty (fun c => MultiplicativeGroup c (A c))
| prof_Permutations n : prof_group mat (fun v => size v = n) (fun c => Permutations c n)
| prof_VectorGroup E (ty : E -> Prop) n A : prof_group mat ty A ->
    prof_group mat (in_vec ty) (fun c => vector_group c n (A c)).
