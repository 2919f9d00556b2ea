(** * FloatRange.v -- the numbers that floats can be, and where they end. *)

From Coq Require Import ZArith Reals.
From mathcomp Require Import all_ssreflect.
From Flocq Require Import Core BinarySingleNaN.
From Verif Require Import Rust Traits FloatSpec.

Set Implicit Arguments.
Unset Strict Implicit.
Unset Printing Implicit Defensive.

(** m * 2 ^ e with |m| < 2 ^ p and lo <= e <= hi. *)
Definition binary_number (p lo hi : Z) (r : R) : Prop :=
  exists m e, [/\ r = (IZR m * bpow radix2 e)%R, (Z.abs m < 2 ^ p)%Z & (lo <= e <= hi)%Z].

Section Floats.
Variables (prec emax : Z) (A : FieldAlg (binary_float prec emax)).
(** The call returns a float nearest to [r] if |r| is below [t], and panics if it is not. *)
Definition nearest_below (t : R) (m : M (binary_float prec emax)) (r : R) : Prop :=
  ((Rabs r < t)%R -> exists2 z, returns m z & finite z /\
     forall w : binary_float prec emax, finite w -> (Rabs (B2R z - r) <= Rabs (B2R w - r))%R) /\
  ((t <= Rabs r)%R -> panics m).
Record float_range (p lo hi : Z) (t : R) : Prop := {
  fr_values : forall r, (exists x : binary_float prec emax, float_is x r) <-> binary_number p lo hi r;
  fr_add : forall x y a b, float_is x a -> float_is y b -> nearest_below t (add A x y) (a + b);
  fr_add_assign : forall x y a b, float_is x a -> float_is y b -> nearest_below t (add_assign A x y) (a + b);
  fr_sub : forall x y a b, float_is x a -> float_is y b -> nearest_below t (Traits.sub A x y) (a - b);
  fr_sub_assign : forall x y a b, float_is x a -> float_is y b -> nearest_below t (sub_assign A x y) (a - b);
  fr_mul : forall x y a b, float_is x a -> float_is y b -> nearest_below t (mul A x y) (a * b);
  fr_mul_assign : forall x y a b, float_is x a -> float_is y b -> nearest_below t (mul_assign A x y) (a * b);
  fr_double : forall x a, float_is x a -> nearest_below t (double A x) (a + a);
  fr_square : forall x a, float_is x a -> nearest_below t (square A x) (a * a);
  fr_div : forall x y a b, float_is x a -> float_is y b -> b <> 0%R ->
    nearest_below t (fdiv A x y) (a / b);
  fr_quo : forall x y a b, float_is x a -> float_is y b -> b <> 0%R ->
    nearest_below t (quo A x y) (a / b);
  fr_inv : forall x a, float_is x a -> a <> 0%R -> nearest_below t (finv A x) (/ a)
}.
End Floats.
