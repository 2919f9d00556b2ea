(** * FloatSpec.v -- what correctly rounded arithmetic is. *)

From Coq Require Import ZArith Reals.
From mathcomp Require Import all_ssreflect.
From Flocq Require Import Core BinarySingleNaN.
From Verif Require Import Rust Traits.

Set Implicit Arguments.
Unset Strict Implicit.
Unset Printing Implicit Defensive.

Section FloatSpec.
Variables (prec emax : Z).
Local Notation F := (binary_float prec emax).

(** [x] is finite, and its value is [r]. *)
Definition float_is (x : F) (r : R) : Prop := is_finite x = true /\ B2R x = r.
Definition finite (x : F) : Prop := is_finite x = true.

(** The number with [prec] bits of precision (fewer for the subnormal ones) nearest to
    [r], on ties the even one; the exponents are not bounded from above. *)
Definition rounded (r : R) : R :=
  round radix2 (FLT_exp (3 - emax - prec) prec) ZnearestE r.

(** The rounded number is too large for a float. *)
Definition overflows (r : R) : Prop := (bpow radix2 emax <= Rabs (rounded r))%R.

(** The call returns the finite float that is [r] correctly rounded; it panics exactly
    when there is none. *)
Definition rounds (m : M F) (r : R) : Prop :=
  (~ overflows r -> exists2 x, returns m x & float_is x (rounded r)) /\
  (overflows r -> panics m).

(** The call returns exactly [r]. *)
Definition yields (m : M F) (r : R) : Prop := exists2 x, returns m x & float_is x r.

(** The call answers the question whether [P] holds. *)
Definition tells (m : M bool) (P : Prop) : Prop := exists2 b, returns m b & (b = true <-> P).

(** ** Arithmetic *)
Record rounding_arithmetic (A : FieldAlg F) : Prop := {
  fl_zero : yields (zero A) 0;
  fl_one : yields (one A) 1;
  fl_equals : forall x y a b, float_is x a -> float_is y b -> tells (equals A x y) (a = b);
  fl_is_zero : forall x a, float_is x a -> tells (is_zero A x) (a = 0%R);
  fl_is_one : forall x a, float_is x a -> tells (is_one A x) (a = 1%R);
  fl_add : forall x y a b, float_is x a -> float_is y b -> rounds (add A x y) (a + b);
  fl_add_assign : forall x y a b, float_is x a -> float_is y b ->
    rounds (add_assign A x y) (a + b);
  fl_double : forall x a, float_is x a -> rounds (double A x) (a + a);
  fl_neg : forall x a, float_is x a -> yields (neg A x) (- a);
  fl_neg_assign : forall x a, float_is x a -> yields (neg_assign A x) (- a);
  fl_sub : forall x y a b, float_is x a -> float_is y b -> rounds (sub A x y) (a - b);
  fl_sub_assign : forall x y a b, float_is x a -> float_is y b ->
    rounds (sub_assign A x y) (a - b);
  fl_mul : forall x y a b, float_is x a -> float_is y b -> rounds (mul A x y) (a * b);
  fl_mul_assign : forall x y a b, float_is x a -> float_is y b ->
    rounds (mul_assign A x y) (a * b);
  fl_square : forall x a, float_is x a -> rounds (square A x) (a * a);
  fl_div : forall x y a b, float_is x a -> float_is y b -> b <> 0%R ->
    rounds (fdiv A x y) (a / b);
  fl_div_zero : forall x y a, float_is x a -> float_is y 0 -> panics (fdiv A x y);
  fl_inv : forall x a, float_is x a -> a <> 0%R -> rounds (finv A x) (/ a);
  fl_inv_zero : forall x, float_is x 0 -> panics (finv A x);
  fl_try_inv : forall x a, float_is x a -> a <> 0%R ->
    (~ overflows (/ a) -> exists2 y, returns (try_inv A x) (Some y) & float_is y (rounded (/ a))) /\
    (overflows (/ a) -> returns (try_inv A x) None);
  fl_try_inv_zero : forall x, float_is x 0 -> returns (try_inv A x) None;
  fl_invertible : forall x a, float_is x a ->
    tells (invertible A x) (a <> 0%R /\ ~ overflows (/ a));
  fl_quo : forall x y a b, float_is x a -> float_is y b -> b <> 0%R ->
    rounds (quo A x y) (a / b);
  fl_quo_zero : forall x y a, float_is x a -> float_is y 0 -> panics (quo A x y);
  fl_rem : forall x y a b, float_is x a -> float_is y b -> b <> 0%R -> yields (rem A x y) 0;
  fl_rem_zero : forall x y a, float_is x a -> float_is y 0 -> panics (rem A x y);
  fl_try_div : forall x y a b, float_is x a -> float_is y b -> b <> 0%R ->
    (~ overflows (a / b) ->
       exists2 z, returns (try_div A x y) (Some z) & float_is z (rounded (a / b))) /\
    (overflows (a / b) -> panics (try_div A x y))
}.

(** ** Order *)
Record real_order (A : LatticeAlg F) : Prop := {
  ro_contains : forall x, tells (contains A x) (finite x);
  ro_equals : forall x y a b, float_is x a -> float_is y b -> tells (equals A x y) (a = b);
  ro_leq : forall x y a b, float_is x a -> float_is y b -> tells (leq A x y) (a <= b)%R;
  ro_less_than : forall x y a b, float_is x a -> float_is y b ->
    tells (less_than A x y) (a < b)%R;
  ro_comparable : forall x y a b, float_is x a -> float_is y b ->
    returns (comparable A x y) true;
  ro_meet : forall x y a b, float_is x a -> float_is y b ->
    exists2 z, returns (meet A x y) z & (z = x \/ z = y) /\ float_is z (Rmin a b);
  ro_join : forall x y a b, float_is x a -> float_is y b ->
    exists2 z, returns (join A x y) z & (z = x \/ z = y) /\ float_is z (Rmax a b)
}.

(** The nearest float: no finite float is closer to [r]. *)
Definition nearest (x : F) (r : R) : Prop :=
  finite x /\ forall y, finite y -> (Rabs (B2R x - r) <= Rabs (B2R y - r))%R.

(** The call returns the float with this sign, mantissa and exponent (or infinity). *)
Definition shows (m : M F) (s : SpecFloat.spec_float) : Prop :=
  exists2 x, returns m x & B2SF x = s.

(** The call returns a value satisfying [Q] or panics; it does not run forever. (The
    second call is there only to fit the records of ProfSpec.v.) *)
Definition settles T (Q : T -> Prop) (m _ : M T) : Prop := ensures True m Q.
End FloatSpec.
