(** * FloatLaw.v -- the laws of arithmetic that correctly rounded numbers obey. *)

From Coq Require Import ZArith Reals.
From mathcomp Require Import all_ssreflect.
From Flocq Require Import Core BinarySingleNaN.
From Verif Require Import Rust Traits FloatSpec.

Set Implicit Arguments.
Unset Strict Implicit.
Unset Printing Implicit Defensive.

Section FloatLaw.
Variables (prec emax : Z).
Local Notation F := (binary_float prec emax).

(** Both calls return the same number, or both panic. *)
Definition agree (m m' : M F) : Prop :=
  (exists r, yields m r /\ yields m' r) \/ (panics m /\ panics m').

(** [r] is [t] with a relative error of at most half a unit in the last place. *)
Definition accurate (t r : R) : Prop :=
  exists e, (Rabs e <= bpow radix2 (- prec))%R /\ r = (t * (1 + e))%R.
(** The same, or a number below the normal range, with an absolute error of at most half
    the least positive number. *)
Definition accurate_or_tiny (t r : R) : Prop :=
  accurate t r \/ (Rabs (r - t) <= bpow radix2 (2 - emax - prec))%R.

Record float_laws (A : FieldAlg F) : Prop := {
  law_add_comm : forall x y, finite x -> finite y -> agree (add A x y) (add A y x);
  law_mul_comm : forall x y, finite x -> finite y -> agree (mul A x y) (mul A y x);
  law_add_zero : forall x z a, float_is x a -> float_is z 0 ->
    yields (add A x z) a /\ yields (add A z x) a /\ yields (sub A x z) a;
  law_mul_one : forall x o a, float_is x a -> float_is o 1 ->
    yields (mul A x o) a /\ yields (mul A o x) a /\ yields (fdiv A x o) a;
  law_mul_zero : forall x z a, float_is x a -> float_is z 0 ->
    yields (mul A x z) 0 /\ yields (mul A z x) 0;
  law_add_neg : forall x y a, float_is x a -> float_is y (- a) -> yields (add A x y) 0;
  law_sub_self : forall x y a, float_is x a -> float_is y a -> yields (sub A x y) 0;
  law_div_self : forall x y a, float_is x a -> float_is y a -> a <> 0%R ->
    yields (fdiv A x y) 1;
  law_sub_neg : forall x y, finite x -> finite y ->
    agree (sub A x y) (let! z := neg A y in add A x z);
  law_neg_sub : forall x y, finite x -> finite y ->
    agree (let! z := sub A x y in neg A z) (sub A y x);
  law_mul_neg : forall x y, finite x -> finite y ->
    agree (let! z := neg A x in mul A z y) (let! z := mul A x y in neg A z);
  (** the difference is zero only for equal numbers *)
  law_sub_zero : forall x y a b r, float_is x a -> float_is y b ->
    yields (sub A x y) r -> (r = 0 <-> a = b)%R;
  (** the difference of numbers within a factor of two is exact *)
  law_sterbenz : forall x y a b, float_is x a -> float_is y b ->
    (b / 2 <= a <= 2 * b)%R -> yields (sub A x y) (a - b);
  (** doubling is exact *)
  law_double : forall x a, float_is x a -> (Rabs (2 * a) < bpow radix2 emax)%R ->
    yields (double A x) (2 * a);
  law_add_mono : forall x x' y a a' b r r', float_is x a -> float_is x' a' ->
    float_is y b -> (a <= a')%R -> yields (add A x y) r -> yields (add A x' y) r' ->
    (r <= r')%R;
  law_mul_mono : forall x x' y a a' b r r', float_is x a -> float_is x' a' ->
    float_is y b -> (a <= a')%R -> (0 <= b)%R -> yields (mul A x y) r ->
    yields (mul A x' y) r' -> (r <= r')%R;
  law_add_error : forall x y a b r, float_is x a -> float_is y b ->
    yields (add A x y) r -> accurate (a + b) r;
  law_sub_error : forall x y a b r, float_is x a -> float_is y b ->
    yields (sub A x y) r -> accurate (a - b) r;
  law_mul_error : forall x y a b r, float_is x a -> float_is y b ->
    yields (mul A x y) r -> accurate_or_tiny (a * b) r;
  law_div_error : forall x y a b r, float_is x a -> float_is y b -> b <> 0%R ->
    yields (fdiv A x y) r -> accurate_or_tiny (a / b) r;
  law_inv_error : forall x a r, float_is x a -> a <> 0%R ->
    yields (finv A x) r -> accurate_or_tiny (/ a) r
}.
End FloatLaw.
