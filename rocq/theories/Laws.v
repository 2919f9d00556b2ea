(** * Laws.v -- the laws of algebra as statements about calls of the API.

    [same D m1 m2] runs the calls [m1] and [m2] and compares the results with
    [equals]; [member D m] runs [m] and asks [contains] about the result.  The
    records below list the laws a user expects of a monoid, group, ring, ...; they
    mention only methods of the traits and the set [mem] of members they are
    claimed for.  (The derivation from the contracts of Spec.v is in PLaws.v.) *)

From Coq Require Import ZArith.
From mathcomp Require Import all_ssreflect.
From Verif Require Import Rust Traits.

Set Implicit Arguments.
Unset Strict Implicit.
Unset Printing Implicit Defensive.

Definition same {E} (A : Domain E) (m1 m2 : M E) : M bool :=
  let! a := m1 in let! b := m2 in equals A a b.
Definition member {E} (A : Domain E) (m : M E) : M bool :=
  let! a := m in contains A a.
(** Both calls give the same truth value. *)
Definition agree (m1 m2 : M bool) : M bool :=
  let! a := m1 in let! b := m2 in ret (a == b).
(** If the first call gives true then so does the second. *)
Definition entails (m1 m2 : M bool) : M bool :=
  let! a := m1 in let! b := m2 in ret (a ==> b).
(** Both calls are made, and both give true. *)
Definition both (m1 m2 : M bool) : M bool :=
  let! a := m1 in let! b := m2 in ret (a && b).
(** At least one of the two calls (both are made) gives true. *)
Definition either (m1 m2 : M bool) : M bool :=
  let! a := m1 in let! b := m2 in ret (a || b).

Section Laws.
Variables (p : Prop) (E : Type) (mem : E -> Prop).

(** [holds m]: the call returns true (or panics, if that is acceptable). *)
Definition holds (m : M bool) : Prop := ensures p m (fun r => r = true).

(** [equals] is an equivalence relation on the members. *)
Record domain_laws (D : Domain E) : Prop := {
  law_contains : forall x, mem x -> holds (contains D x);
  law_eq_refl : forall x, mem x -> holds (equals D x x);
  law_eq_sym : forall x y, mem x -> mem y -> holds (agree (equals D x y) (equals D y x));
  law_eq_trans : forall x y z, mem x -> mem y -> mem z ->
    holds (entails (both (equals D x y) (equals D y z)) (equals D x z))
}.

Section WithDomain.
Variable D : Domain E.

Record semigroup_laws (A : Semigroup E) : Prop := {
  law_mulA : forall x y z, mem x -> mem y -> mem z -> holds (same D
    (let! a := mul A x y in mul A a z) (let! a := mul A y z in mul A x a));
  law_mul_member : forall x y, mem x -> mem y -> holds (member D (mul A x y));
  law_mul_assign : forall x y, mem x -> mem y ->
    holds (same D (mul_assign A x y) (mul A x y));
  law_square : forall x, mem x -> holds (same D (square A x) (mul A x x));
  law_mul_congr : forall x x' y y', mem x -> mem x' -> mem y -> mem y' ->
    holds (entails (both (equals D x x') (equals D y y'))
             (same D (mul A x y) (mul A x' y')))
}.
Definition mul_commutes (A : Semigroup E) : Prop := forall x y, mem x -> mem y ->
  holds (same D (mul A x y) (mul A y x)).

Record monoid_laws (S : Semigroup E) (A : Monoid E) : Prop := {
  law_one_member : holds (member D (one A));
  law_mul1 : forall x, mem x -> holds (same D (let! o := one A in mul S x o) (ret x));
  law_1mul : forall x, mem x -> holds (same D (let! o := one A in mul S o x) (ret x));
  law_is_one : forall x, mem x -> holds (agree (is_one A x) (same D (ret x) (one A)));
  law_try_inv : forall x, mem x -> holds (
    let! o := try_inv A x in
    if o is Some y then
      both (contains D y) (both (same D (mul S x y) (one A)) (same D (mul S y x) (one A)))
    else ret true);
  law_try_inv_none : forall x y, mem x -> mem y -> holds (
    let! o := try_inv A x in
    if o is Some _ then ret true
    else notM (both (same D (mul S x y) (one A)) (same D (mul S y x) (one A))));
  law_invertible : forall x, mem x -> holds (agree (invertible A x)
    (let! o := try_inv A x in ret (isSome o)))
}.

Record group_laws (cfg : Cfg) (S : Semigroup E) (O : Monoid E) (A : Group E) : Prop := {
  law_inv_member : forall x, mem x -> holds (member D (ginv A x));
  law_mulV : forall x, mem x -> holds (same D (let! y := ginv A x in mul S x y) (one O));
  law_Vmul : forall x, mem x -> holds (same D (let! y := ginv A x in mul S y x) (one O));
  law_power0 : forall x, mem x -> holds (same D (gpower A 0 x) (one O));
  law_power1 : forall x, mem x -> holds (same D (gpower A 1 x) (ret x));
  law_powerN1 : forall x, mem x -> holds (same D (gpower A (-1) x) (ginv A x));
  law_powerD : forall m n x, mem x ->
    is_isize cfg m -> is_isize cfg n -> is_isize cfg (m + n) ->
    m <> imin (ptr_bits cfg) -> n <> imin (ptr_bits cfg) ->
    (m + n)%Z <> imin (ptr_bits cfg) ->
    holds (same D (gpower A (m + n) x)
             (let! a := gpower A m x in let! b := gpower A n x in mul S a b))
}.

Record cmonoid_laws (A : CommMonoid E) : Prop := {
  law_zero_member : holds (member D (zero A));
  law_add_member : forall x y, mem x -> mem y -> holds (member D (add A x y));
  law_addA : forall x y z, mem x -> mem y -> mem z -> holds (same D
    (let! a := add A x y in add A a z) (let! a := add A y z in add A x a));
  law_addC : forall x y, mem x -> mem y -> holds (same D (add A x y) (add A y x));
  law_add0 : forall x, mem x -> holds (same D (let! z := zero A in add A x z) (ret x));
  law_is_zero : forall x, mem x -> holds (agree (is_zero A x) (same D (ret x) (zero A)));
  law_add_assign : forall x y, mem x -> mem y ->
    holds (same D (add_assign A x y) (add A x y));
  law_double : forall x, mem x -> holds (same D (double A x) (add A x x));
  law_ntimes0 : forall x, mem x -> holds (same D (ntimes A 0 x) (zero A));
  law_ntimesS : forall n x, mem x -> (0 <= n)%Z ->
    holds (same D (ntimes A (n + 1) x) (let! y := ntimes A n x in add A x y));
  law_add_congr : forall x x' y y', mem x -> mem x' -> mem y -> mem y' ->
    holds (entails (both (equals D x x') (equals D y y'))
             (same D (add A x y) (add A x' y')))
}.

Record abelian_laws (cfg : Cfg) (C : CommMonoid E) (A : AbelianGroup E) : Prop := {
  law_neg_member : forall x, mem x -> holds (member D (neg A x));
  law_addN : forall x, mem x -> holds (same D (let! y := neg A x in add C x y) (zero C));
  law_neg_assign : forall x, mem x -> holds (same D (neg_assign A x) (neg A x));
  law_sub : forall x y, mem x -> mem y ->
    holds (same D (sub A x y) (let! z := neg A y in add C x z));
  law_sub_assign : forall x y, mem x -> mem y ->
    holds (same D (sub_assign A x y) (sub A x y));
  law_times0 : forall x, mem x -> holds (same D (ztimes A 0 x) (zero C));
  law_times1 : forall x, mem x -> holds (same D (ztimes A 1 x) (ret x));
  law_timesN1 : forall x, mem x -> holds (same D (ztimes A (-1) x) (neg A x));
  law_timesD : forall m n x, mem x ->
    is_isize cfg m -> is_isize cfg n -> is_isize cfg (m + n) ->
    m <> imin (ptr_bits cfg) -> n <> imin (ptr_bits cfg) ->
    (m + n)%Z <> imin (ptr_bits cfg) ->
    holds (same D (ztimes A (m + n) x)
             (let! a := ztimes A m x in let! b := ztimes A n x in add C a b))
}.

Record distributive_laws (S : Semigroup E) (C : CommMonoid E) : Prop := {
  law_mulDr : forall x y z, mem x -> mem y -> mem z -> holds (same D
    (let! a := add C y z in mul S x a)
    (let! a := mul S x y in let! b := mul S x z in add C a b));
  law_mulDl : forall x y z, mem x -> mem y -> mem z -> holds (same D
    (let! a := add C x y in mul S a z)
    (let! a := mul S x z in let! b := mul S y z in add C a b));
  law_mul0 : forall x, mem x -> holds (same D (let! z := zero C in mul S x z) (zero C));
  law_0mul : forall x, mem x -> holds (same D (let! z := zero C in mul S z x) (zero C))
}.

(** The integral-domain methods. *)
Record idom_laws (S : Semigroup E) (O : Monoid E) (C : CommMonoid E)
    (A : IntegralDomain E) : Prop := {
  law_nzd : forall x y, mem x -> mem y ->
    holds (agree (let! z := mul S x y in is_zero C z) (either (is_zero C x) (is_zero C y)));
  law_try_div : forall x y, mem x -> mem y -> returns (is_zero C y) false ->
    holds (let! o := try_div A x y in
           if o is Some q then both (contains D q) (same D (mul S q y) (ret x))
           else ret true);
  law_try_div_none : forall x y q, mem x -> mem y -> mem q ->
    returns (is_zero C y) false ->
    holds (let! o := try_div A x y in
           if o is Some _ then ret true else notM (same D (mul S q y) (ret x)));
  law_try_div_zero : forall x y, mem x -> mem y -> returns (is_zero C y) true ->
    panics (try_div A x y);
  law_associates : forall x y, mem x -> mem y ->
    holds (agree (associates A x y) (both (divisible A x y) (divisible A y x)));
  law_associate_repr : forall x, mem x -> returns (is_zero C x) false ->
    holds (same D (associate_repr A x) (let! c := associate_coef A x in mul S c x));
  law_associate_coef : forall x, mem x -> returns (is_zero C x) false ->
    holds (let! c := associate_coef A x in both (contains D c) (invertible O c));
  law_associate_canon : forall x y, mem x -> mem y ->
    holds (agree (associates A x y) (same D (associate_repr A x) (associate_repr A y)))
}.

(** The Euclidean methods. *)
Record eucl_laws (S : Semigroup E) (O : Monoid E) (C : CommMonoid E)
    (I : IntegralDomain E) (A : EuclideanDomain E) : Prop := {
  law_quo_rem : forall x y, mem x -> mem y -> returns (is_zero C y) false ->
    holds (let! z := quo_rem A x y in
           both (both (contains D z.1) (contains D z.2))
             (both (same D (let! a := mul S z.1 y in add C a z.2) (ret x))
                   (reduced A z.2 y)));
  law_rem_unique : forall x y r q, mem x -> mem y -> mem r -> mem q ->
    returns (is_zero C y) false ->
    holds (entails (both (reduced A r y)
                     (same D (let! a := mul S q y in add C a r) (ret x)))
             (same D (rem A x y) (ret r)));
  law_quo : forall x y, mem x -> mem y -> returns (is_zero C y) false ->
    holds (same D (quo A x y) (let! z := quo_rem A x y in ret z.1));
  law_rem : forall x y, mem x -> mem y -> returns (is_zero C y) false ->
    holds (same D (rem A x y) (let! z := quo_rem A x y in ret z.2));
  law_div_zero : forall x y, mem x -> mem y -> returns (is_zero C y) true ->
    [/\ panics (quo_rem A x y), panics (quo A x y) & panics (rem A x y)];
  law_gcd : forall x y, mem x -> mem y ->
    holds (let! g := gcd A x y in
           both (contains D g) (both (divisible I x g) (divisible I y g)));
  law_gcd_greatest : forall x y c, mem x -> mem y -> mem c ->
    holds (entails (both (divisible I x c) (divisible I y c))
             (let! g := gcd A x y in divisible I g c));
  law_extended_gcd : forall x y, mem x -> mem y ->
    holds (let! z := extended_gcd A x y in
           let! g := gcd A x y in
           both (associates I z.1.1 g)
             (same D (ret z.1.1)
                (let! a := mul S z.1.2 x in let! b := mul S z.2 y in add C a b)));
  law_lcm : forall x y, mem x -> mem y ->
    holds (let! l := lcm A x y in
           both (contains D l) (both (divisible I l x) (divisible I l y)));
  law_lcm_least : forall x y c, mem x -> mem y -> mem c ->
    holds (entails (both (divisible I c x) (divisible I c y))
             (let! l := lcm A x y in divisible I c l));
  law_gcd_lcm : forall x y, mem x -> mem y ->
    holds (let! g := gcd A x y in let! l := lcm A x y in
           let! a := mul S g l in let! b := mul S x y in associates I a b);
  law_relative_primes : forall x y, mem x -> mem y ->
    holds (agree (relative_primes A x y) (let! g := gcd A x y in invertible O g))
}.

Record field_laws (S : Semigroup E) (O : Monoid E) (C : CommMonoid E) (A : Field E)
  : Prop := {
  law_1neq0 : holds (let! o := one O in notM (is_zero C o));
  law_finv : forall x, mem x -> returns (is_zero C x) false ->
    holds (let! y := finv A x in both (contains D y) (same D (mul S x y) (one O)));
  law_finv_zero : forall x, mem x -> returns (is_zero C x) true -> panics (finv A x);
  law_fdiv : forall x y, mem x -> mem y -> returns (is_zero C y) false ->
    holds (let! q := fdiv A x y in both (contains D q) (same D (mul S q y) (ret x)));
  law_fdiv_zero : forall x y, mem x -> mem y -> returns (is_zero C y) true ->
    panics (fdiv A x y)
}.

Record order_api_laws (A : PartialOrder E) : Prop := {
  law_le_refl : forall x, mem x -> holds (leq A x x);
  law_le_trans : forall x y z, mem x -> mem y -> mem z ->
    holds (entails (both (leq A x y) (leq A y z)) (leq A x z));
  law_le_anti : forall x y, mem x -> mem y ->
    holds (agree (both (leq A x y) (leq A y x)) (equals D x y));
  law_less_than : forall x y, mem x -> mem y ->
    holds (agree (less_than A x y) (both (leq A x y) (notM (equals D x y))));
  law_comparable : forall x y, mem x -> mem y ->
    holds (agree (comparable A x y) (either (leq A x y) (leq A y x)))
}.

Record lattice_laws (R : PartialOrder E) (A : Lattice E) : Prop := {
  law_meet_member : forall x y, mem x -> mem y -> holds (member D (meet A x y));
  law_join_member : forall x y, mem x -> mem y -> holds (member D (join A x y));
  law_meetC : forall x y, mem x -> mem y -> holds (same D (meet A x y) (meet A y x));
  law_joinC : forall x y, mem x -> mem y -> holds (same D (join A x y) (join A y x));
  law_meetA : forall x y z, mem x -> mem y -> mem z -> holds (same D
    (let! a := meet A x y in meet A a z) (let! a := meet A y z in meet A x a));
  law_joinA : forall x y z, mem x -> mem y -> mem z -> holds (same D
    (let! a := join A x y in join A a z) (let! a := join A y z in join A x a));
  law_meetK : forall x y, mem x -> mem y ->
    holds (same D (let! a := meet A x y in join A x a) (ret x));
  law_joinK : forall x y, mem x -> mem y ->
    holds (same D (let! a := join A x y in meet A x a) (ret x));
  law_le_meet : forall x y, mem x -> mem y ->
    holds (agree (leq R x y) (same D (meet A x y) (ret x)));
  law_le_join : forall x y, mem x -> mem y ->
    holds (agree (leq R x y) (same D (join A x y) (ret y)))
}.
Definition lattice_distributes (A : Lattice E) : Prop :=
  forall x y z, mem x -> mem y -> mem z ->
  holds (same D (let! a := join A y z in meet A x a)
           (let! a := meet A x y in let! b := meet A x z in join A a b)) /\
  holds (same D (let! a := meet A y z in join A x a)
           (let! a := join A x y in let! b := join A x z in meet A a b)).

Record bounded_laws (R : PartialOrder E) (A : BoundedOrder E) : Prop := {
  law_max_member : holds (member D (omax A));
  law_min_member : holds (member D (omin A));
  law_le_max : forall x, mem x -> holds (let! m := omax A in leq R x m);
  law_min_le : forall x, mem x -> holds (let! m := omin A in leq R m x)
}.
Record boolean_laws (L : Lattice E) (B : BoundedOrder E) (A : BooleanAlgebra E)
  : Prop := {
  law_not_member : forall x, mem x -> holds (member D (bnot A x));
  law_meet_not : forall x, mem x ->
    holds (same D (let! y := bnot A x in meet L x y) (omin B));
  law_join_not : forall x, mem x ->
    holds (same D (let! y := bnot A x in join L x y) (omax B));
  law_not_not : forall x, mem x ->
    holds (same D (let! y := bnot A x in bnot A y) (ret x))
}.
End WithDomain.

(** ** The laws of a bundle *)
Definition monoid_alg_laws (A : MonoidAlg E) : Prop :=
  [/\ domain_laws A, semigroup_laws A A & monoid_laws A A A].
Definition group_alg_laws cfg (A : GroupAlg E) : Prop :=
  monoid_alg_laws A /\ group_laws A cfg A A A.
Definition semiring_alg_laws (A : SemiRingAlg E) : Prop :=
  [/\ monoid_alg_laws A, cmonoid_laws A A & distributive_laws A A A].
Definition abelian_alg_laws cfg (A : AbelianAlg E) : Prop :=
  [/\ domain_laws A, cmonoid_laws A A & abelian_laws A cfg A A].
Definition ring_alg_laws cfg (A : RingAlg E) : Prop :=
  [/\ monoid_alg_laws A, cmonoid_laws A A, abelian_laws A cfg A A & distributive_laws A A A].
Definition idom_alg_laws cfg (A : IDomAlg E) : Prop :=
  [/\ ring_alg_laws cfg A, mul_commutes A A & idom_laws A A A A A].
Definition eucl_alg_laws cfg (A : EuclAlg E) : Prop :=
  idom_alg_laws cfg A /\ eucl_laws A A A A A A.
Definition field_alg_laws cfg (A : FieldAlg E) : Prop :=
  eucl_alg_laws cfg A /\ field_laws A A A A A.
Definition order_alg_laws (A : OrderAlg E) : Prop :=
  domain_laws A /\ order_api_laws A A.
Definition lattice_alg_laws (A : LatticeAlg E) : Prop :=
  order_alg_laws A /\ lattice_laws A A A.
Definition bounded_alg_laws (A : BoundedAlg E) : Prop :=
  order_alg_laws A /\ bounded_laws A A A.
Definition boolean_alg_laws (A : BooleanAlg E) : Prop :=
  [/\ lattice_alg_laws A, bounded_laws A A A, boolean_laws A A A A &
      lattice_distributes A A].
End Laws.

(** ** Agreement of two structures

    [tracks m1 m2]: the call [m1] terminates; it panics, or it returns what the
    call [m2] returns. *)
Definition tracks {A} (m1 m2 : M A) : Prop := ensures True m1 (fun v => returns m2 v).

(** Every method of [A], called on members, tracks the same method of [B]. *)
Record eucl_tracks {E : Type} (mem : E -> Prop) (A B : EuclAlg E) : Prop := {
  tr_contains : forall x, mem x -> tracks (contains A x) (contains B x);
  tr_equals : forall x y, mem x -> mem y -> tracks (equals A x y) (equals B x y);
  tr_mul : forall x y, mem x -> mem y -> tracks (mul A x y) (mul B x y);
  tr_mul_assign : forall x y, mem x -> mem y ->
    tracks (mul_assign A x y) (mul_assign B x y);
  tr_square : forall x, mem x -> tracks (square A x) (square B x);
  tr_one : tracks (one A) (one B);
  tr_is_one : forall x, mem x -> tracks (is_one A x) (is_one B x);
  tr_try_inv : forall x, mem x -> tracks (try_inv A x) (try_inv B x);
  tr_invertible : forall x, mem x -> tracks (invertible A x) (invertible B x);
  tr_zero : tracks (zero A) (zero B);
  tr_is_zero : forall x, mem x -> tracks (is_zero A x) (is_zero B x);
  tr_add : forall x y, mem x -> mem y -> tracks (add A x y) (add B x y);
  tr_add_assign : forall x y, mem x -> mem y ->
    tracks (add_assign A x y) (add_assign B x y);
  tr_double : forall x, mem x -> tracks (double A x) (double B x);
  tr_ntimes : forall n x, (0 <= n)%Z -> mem x -> tracks (ntimes A n x) (ntimes B n x);
  tr_neg : forall x, mem x -> tracks (neg A x) (neg B x);
  tr_neg_assign : forall x, mem x -> tracks (neg_assign A x) (neg_assign B x);
  tr_sub : forall x y, mem x -> mem y -> tracks (sub A x y) (sub B x y);
  tr_sub_assign : forall x y, mem x -> mem y ->
    tracks (sub_assign A x y) (sub_assign B x y);
  tr_ztimes : forall n x, mem x -> tracks (ztimes A n x) (ztimes B n x);
  tr_int : forall n, tracks (int A n) (int B n);
  tr_try_div : forall x y, mem x -> mem y -> tracks (try_div A x y) (try_div B x y);
  tr_divisible : forall x y, mem x -> mem y ->
    tracks (divisible A x y) (divisible B x y);
  tr_associates : forall x y, mem x -> mem y ->
    tracks (associates A x y) (associates B x y);
  tr_associate_repr : forall x, mem x ->
    tracks (associate_repr A x) (associate_repr B x);
  tr_associate_coef : forall x, mem x ->
    tracks (associate_coef A x) (associate_coef B x);
  tr_quo_rem : forall x y, mem x -> mem y -> tracks (quo_rem A x y) (quo_rem B x y);
  tr_quo : forall x y, mem x -> mem y -> tracks (quo A x y) (quo B x y);
  tr_rem : forall x y, mem x -> mem y -> tracks (rem A x y) (rem B x y);
  tr_reduced : forall x y, mem x -> mem y -> tracks (reduced A x y) (reduced B x y);
  tr_gcd : forall x y, mem x -> mem y -> tracks (gcd A x y) (gcd B x y);
  tr_lcm : forall x y, mem x -> mem y -> tracks (lcm A x y) (lcm B x y);
  tr_extended_gcd : forall x y, mem x -> mem y ->
    tracks (extended_gcd A x y) (extended_gcd B x y);
  tr_relative_primes : forall x y, mem x -> mem y ->
    tracks (relative_primes A x y) (relative_primes B x y)
}.
