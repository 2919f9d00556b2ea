(** * Props_Args.v -- quotients and fractions called with arguments that are not in
    normal form, and QuotientField with an arbitrary modulus (C45-C47).

    The statements are spelled out in ArgSpec.v. *)

From mathcomp Require Import all_ssreflect all_algebra zify ssrZ.
From Coq Require Import ZArith.
From Verif Require Import Rust Traits MInts MConstr Spec PropSpec ArgSpec.
From Verif Require Import PInts PArgs Refuted.

Import GRing.Theory.
Local Open Scope ring_scope.

(** ** C45: the quotient methods reduce any member of the base *)

Theorem C45_ring : forall (cfg : Cfg) (p : Prop) (E : Type) (R : idomainType)
    (rep : E -> R -> Prop) (AS : assoc_struct R) (S : eucl_struct R) (A : EuclAlg E),
  eucl_alg_spec cfg p rep AS S A ->
  forall (m : R) (modulo : E), m != 0 -> m \isn't a GRing.unit -> rep modulo m ->
  quotient_args_correct p S m rep cfg (QuotientRing cfg A modulo) /\
  quotient_try_inv_args p S m rep (QuotientRing cfg A modulo).
Proof. exact quotient_ring_any. Qed.
Print Assumptions C45_ring.
(** Modulo 10: 17 + 28 = 5, 17 - 28 = 9, -(-3) = 3, 5 * 23 = 5, 1/(-7) = 7; but
    [equals] and [is_zero] do not reduce. *)
Example C45_ring_case :
  [/\ returns (add (QuotientRing debug64 ZZ 10%Z) 17%Z 28%Z) 5%Z,
      returns (sub (QuotientRing debug64 ZZ 10%Z) 17%Z 28%Z) 9%Z &
      returns (neg (QuotientRing debug64 ZZ 10%Z) (-3)%Z) 3%Z] /\
  [/\ returns (ntimes (QuotientRing debug64 ZZ 10%Z) 5 23%Z) 5%Z,
      returns (ztimes (QuotientRing debug64 ZZ 10%Z) 1 23%Z) 3%Z &
      returns (try_inv (QuotientRing debug64 ZZ 10%Z) (-7)%Z) (Some 7%Z)] /\
  returns (equals (QuotientRing debug64 ZZ 10%Z) 3%Z 13%Z) false /\
  returns (is_zero (QuotientRing debug64 ZZ 10%Z) 10%Z) false.
Proof. by do 3?split; run 20%nat. Qed.

(** ** C46: QuotientField for every modulus that is neither zero nor a unit *)

Theorem C46_field : forall (cfg : Cfg) (p : Prop) (E : Type) (R : idomainType)
    (rep : E -> R -> Prop) (AS : assoc_struct R) (S : eucl_struct R) (A : EuclAlg E),
  eucl_alg_spec cfg p rep AS S A ->
  forall (m : R) (modulo : E), m != 0 -> m \isn't a GRing.unit -> rep modulo m ->
  quotient_args_correct p S m rep cfg (QuotientField cfg A modulo) /\
  quotient_field_args p S m rep cfg (QuotientField cfg A modulo).
Proof. exact quotient_field_args_any. Qed.
Print Assumptions C46_field.
(** Modulo 10: 7 is invertible, 4 is not, although [invertible] says so. *)
Example C46_field_case :
  [/\ returns (finv (QuotientField debug64 ZZ 10%Z) 7%Z) 3%Z,
      panics (finv (QuotientField debug64 ZZ 10%Z) 4%Z),
      returns (fdiv (QuotientField debug64 ZZ 10%Z) 4%Z 7%Z) 2%Z &
      panics (fdiv (QuotientField debug64 ZZ 10%Z) 7%Z 4%Z)] /\
  [/\ returns (try_inv (QuotientField debug64 ZZ 10%Z) 0%Z) None,
      panics (try_inv (QuotientField debug64 ZZ 10%Z) 4%Z),
      returns (invertible (QuotientField debug64 ZZ 10%Z) 4%Z) true &
      returns (fpower (QuotientField debug64 ZZ 10%Z) 3 4%Z) 4%Z] /\
  panics (fpower (QuotientField debug64 ZZ 10%Z) (-3) 4%Z) /\
  returns (fpower (QuotientField debug64 ZZ 10%Z) (-3) 7%Z) 7%Z.
Proof. by do 3?split; run 20%nat. Qed.

(** [try_inv] must answer None for every element without an inverse (traits.rs: "the
    inverse, if it exists"); over a modulus that [QuotientField::new] accepts it
    panics instead. *)
Theorem C46_try_inv_refuted : forall cfg : Cfg,
  returns (quotient_field_new ZZ 10%Z) tt /\
  returns (contains (QuotientField cfg ZZ 10%Z) 4%Z) true /\
  (forall b : Z, (4 * b mod 10 <> 1)%Z) /\
  returns (invertible (QuotientField cfg ZZ 10%Z) 4%Z) true /\
  panics (try_inv (QuotientField cfg ZZ 10%Z) 4%Z).
Proof. exact quotient_field_reducible. Qed.
Print Assumptions C46_try_inv_refuted.

(** ** C47: fractions *)

(** [reduce] computes the normal form, and panics for a zero denominator. *)
Theorem C47_reduce : forall (cfg : Cfg) (p : Prop) (E : Type) (R : idomainType)
    (rep : E -> R -> Prop) (AS : assoc_struct R) (S : eucl_struct R) (A : EuclAlg E),
  eucl_alg_spec cfg p rep AS S A -> reduce_correct p AS rep (fractions_reduce A).
Proof. exact reduce_ok. Qed.
Print Assumptions C47_reduce.
Example C47_reduce_case :
  [/\ returns (fractions_reduce ZZ (6%Z, (-4)%Z)) ((-3)%Z, 2%Z),
      returns (fractions_reduce ZZ (0%Z, (-4)%Z)) (0%Z, 1%Z) &
      panics (fractions_reduce ZZ (6%Z, 0%Z))].
Proof. by split; run 20%nat. Qed.

(** The methods take any ratio; all but [neg] and [inv] return a reduced one. *)
Theorem C47_args : forall (cfg : Cfg) (p : Prop) (E : Type) (R : idomainType)
    (rep : E -> R -> Prop) (AS : assoc_struct R) (S : eucl_struct R) (A : EuclAlg E),
  eucl_alg_spec cfg p rep AS S A ->
  fractions_args_correct p AS rep cfg (ReducedFractions cfg A).
Proof. exact fractions_any. Qed.
Print Assumptions C47_args.
(** 2/4 + 6/(-4) = -1/1, 2/4 - 6/(-4) = 2/1, (2/4)^(-2) = 4/1; but -(2/4) = -2/4 and
    1/(2/4) = 4/2, and [equals] compares numerators and denominators. *)
Example C47_args_case :
  [/\ returns (add (QQ debug64) (2%Z, 4%Z) (6%Z, (-4)%Z)) ((-1)%Z, 1%Z),
      returns (sub (QQ debug64) (2%Z, 4%Z) (6%Z, (-4)%Z)) (2%Z, 1%Z),
      returns (mul (QQ debug64) (2%Z, 4%Z) (6%Z, (-4)%Z)) ((-3)%Z, 4%Z) &
      returns (fdiv (QQ debug64) (2%Z, 4%Z) (6%Z, (-4)%Z)) ((-1)%Z, 3%Z)] /\
  [/\ returns (neg (QQ debug64) (2%Z, 4%Z)) ((-2)%Z, 4%Z),
      returns (finv (QQ debug64) (2%Z, (-4)%Z)) ((-4)%Z, 2%Z),
      returns (fpower (QQ debug64) (-2) (2%Z, 4%Z)) (4%Z, 1%Z) &
      returns (equals (QQ debug64) (2%Z, 4%Z) (1%Z, 2%Z)) false].
Proof. by do 2?split; run 30%nat. Qed.
