(** * GcdLaw.v -- the laws of divisibility, gcd and lcm as statements about calls.

    As in Laws.v: only methods of the traits and the set [mem] of members occur. *)

From Coq Require Import ZArith.
From mathcomp Require Import all_ssreflect.
From Verif Require Import Rust Traits Laws.

Set Implicit Arguments.
Unset Strict Implicit.
Unset Printing Implicit Defensive.

(** Run both calls and ask [associates] about the results. *)
Definition alike {E} (I : IntegralDomain E) (m1 m2 : M E) : M bool :=
  let! a := m1 in let! b := m2 in associates I a b.

Section Laws.
Variables (p : Prop) (E : Type) (mem : E -> Prop).
Local Notation holds := (holds p).

Record divisibility_laws (A : IDomAlg E) : Prop := {
  dl_refl : forall x, mem x -> holds (divisible A x x);
  dl_trans : forall x y z, mem x -> mem y -> mem z ->
    holds (entails (both (divisible A x y) (divisible A y z)) (divisible A x z));
  dl_zero : forall x, mem x -> holds (let! o := zero A in divisible A o x);
  dl_by_zero : forall x, mem x ->
    holds (agree (let! o := zero A in divisible A x o) (is_zero A x));
  dl_by_one : forall x, mem x -> holds (let! o := one A in divisible A x o);
  dl_one : forall x, mem x ->
    holds (agree (let! o := one A in divisible A o x) (invertible A x));
  dl_mul : forall x y, mem x -> mem y -> holds (let! z := mul A x y in divisible A z x);
  dl_add : forall x y z, mem x -> mem y -> mem z ->
    holds (entails (both (divisible A x z) (divisible A y z))
             (let! a := add A x y in divisible A a z));
  dl_sub : forall x y z, mem x -> mem y -> mem z ->
    holds (entails (both (divisible A x z) (divisible A y z))
             (let! a := sub A x y in divisible A a z));
  dl_cancel : forall x y z, mem x -> mem y -> mem z -> returns (is_zero A z) false ->
    holds (agree (let! a := mul A x z in let! b := mul A y z in divisible A a b)
             (divisible A x y));
  dl_try_div : forall x y, mem x -> mem y -> returns (is_zero A y) false ->
    holds (agree (let! o := try_div A x y in ret (isSome o)) (divisible A x y));
  dl_unit : forall x y z, mem x -> mem y -> mem z ->
    holds (entails (associates A x y)
             (agree (divisible A z x) (divisible A z y)));
  dl_assoc_refl : forall x, mem x -> holds (associates A x x);
  dl_assoc_sym : forall x y, mem x -> mem y ->
    holds (agree (associates A x y) (associates A y x));
  dl_assoc_trans : forall x y z, mem x -> mem y -> mem z ->
    holds (entails (both (associates A x y) (associates A y z)) (associates A x z));
  dl_assoc_mul : forall x y u, mem x -> mem y -> mem u ->
    holds (entails (both (invertible A u) (same A (mul A u x) (ret y))) (associates A x y));
  dl_repr : forall x, mem x -> holds (alike A (associate_repr A x) (ret x));
  dl_repr_idem : forall x, mem x -> holds (same A
    (let! y := associate_repr A x in associate_repr A y) (associate_repr A x));
  dl_repr_unit : forall x u, mem x -> mem u ->
    holds (entails (invertible A u)
             (same A (let! y := mul A u x in associate_repr A y) (associate_repr A x)))
}.

Record gcd_laws (A : EuclAlg E) : Prop := {
  gl_gcdC : forall x y, mem x -> mem y -> holds (alike A (gcd A x y) (gcd A y x));
  gl_gcdA : forall x y z, mem x -> mem y -> mem z -> holds (alike A
    (let! a := gcd A x y in gcd A a z) (let! a := gcd A y z in gcd A x a));
  gl_gcdxx : forall x, mem x -> holds (alike A (gcd A x x) (ret x));
  gl_gcd0 : forall x, mem x -> holds (alike A (let! o := zero A in gcd A x o) (ret x));
  gl_gcd1 : forall x, mem x ->
    holds (let! o := one A in let! g := gcd A x o in invertible A g);
  gl_gcd_mul : forall x y z, mem x -> mem y -> mem z -> holds (alike A
    (let! a := mul A z x in let! b := mul A z y in gcd A a b)
    (let! g := gcd A x y in mul A z g));
  gl_gcd_step : forall x y q, mem x -> mem y -> mem q -> holds (alike A
    (let! a := mul A q y in let! b := add A x a in gcd A b y) (gcd A x y));
  gl_gcd_rem : forall x y, mem x -> mem y -> returns (is_zero A y) false ->
    holds (alike A (let! r := rem A x y in gcd A y r) (gcd A x y));
  gl_gcd_zero : forall x y, mem x -> mem y ->
    holds (agree (let! g := gcd A x y in is_zero A g) (both (is_zero A x) (is_zero A y)));
  gl_lcmC : forall x y, mem x -> mem y -> holds (alike A (lcm A x y) (lcm A y x));
  gl_lcmA : forall x y z, mem x -> mem y -> mem z -> holds (alike A
    (let! a := lcm A x y in lcm A a z) (let! a := lcm A y z in lcm A x a));
  gl_lcmxx : forall x, mem x -> holds (alike A (lcm A x x) (ret x));
  gl_lcm1 : forall x, mem x -> holds (alike A (let! o := one A in lcm A x o) (ret x));
  gl_lcm_mul : forall x y z, mem x -> mem y -> mem z -> holds (alike A
    (let! a := mul A z x in let! b := mul A z y in lcm A a b)
    (let! g := lcm A x y in mul A z g));
  gl_lcm_zero : forall x y, mem x -> mem y ->
    holds (agree (let! l := lcm A x y in is_zero A l) (either (is_zero A x) (is_zero A y)));
  gl_absorb1 : forall x y, mem x -> mem y ->
    holds (alike A (let! l := lcm A x y in gcd A x l) (ret x));
  gl_absorb2 : forall x y, mem x -> mem y ->
    holds (alike A (let! g := gcd A x y in lcm A x g) (ret x));
  gl_distr1 : forall x y z, mem x -> mem y -> mem z -> holds (alike A
    (let! l := lcm A y z in gcd A x l)
    (let! a := gcd A x y in let! b := gcd A x z in lcm A a b));
  gl_distr2 : forall x y z, mem x -> mem y -> mem z -> holds (alike A
    (let! g := gcd A y z in lcm A x g)
    (let! a := lcm A x y in let! b := lcm A x z in gcd A a b));
  gl_divisible : forall x y, mem x -> mem y ->
    holds (agree (divisible A x y) (alike A (gcd A x y) (ret y))) /\
    holds (agree (divisible A x y) (alike A (lcm A x y) (ret x)));
  gl_primesC : forall x y, mem x -> mem y ->
    holds (agree (relative_primes A x y) (relative_primes A y x));
  gl_primes_mul : forall x y z, mem x -> mem y -> mem z ->
    holds (agree (let! a := mul A x y in relative_primes A a z)
             (both (relative_primes A x z) (relative_primes A y z)));
  (* Euclid's lemma *)
  gl_gauss : forall x y z, mem x -> mem y -> mem z ->
    holds (entails (both (relative_primes A x z) (let! a := mul A x y in divisible A a z))
             (divisible A y z));
  gl_primes_div : forall x y z, mem x -> mem y -> mem z ->
    holds (entails (both (relative_primes A x y) (both (divisible A z x) (divisible A z y)))
             (let! a := mul A x y in divisible A z a));
  gl_primes_lcm : forall x y, mem x -> mem y ->
    holds (entails (relative_primes A x y) (alike A (lcm A x y) (mul A x y)));
  gl_cofactors : forall x y, mem x -> mem y ->
    holds (let! g := gcd A x y in
           let! o := is_zero A g in
           if o then ret true
           else let! a := quo A x g in let! b := quo A y g in relative_primes A a b)
}.
End Laws.
