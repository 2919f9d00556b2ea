(** * ExcSpec.v -- what floating point methods do with infinities and NaN. *)

From Coq Require Import ZArith Reals.
From mathcomp Require Import all_ssreflect.
From Flocq Require Import Core BinarySingleNaN.
From Verif Require Import Rust Traits ModSpec FloatSpec.

Set Implicit Arguments.
Unset Strict Implicit.
Unset Printing Implicit Defensive.

Section ExcSpec.
Variables (cfg : Cfg) (prec emax : Z).
Local Notation F := (binary_float prec emax).
Local Notation inf s := (B754_infinity s : F).
Local Notation nan := (B754_nan : F).

(** Infinity or NaN. *)
Definition exceptional (x : F) : Prop := is_finite x = false.

(** ** Arithmetic *)
Record exceptional_arithmetic (A : FieldAlg F) : Prop := {
  ex_contains : forall x, exceptional x -> returns (contains A x) false;
  ex_equals_nan : forall x, returns (equals A nan x) false /\ returns (equals A x nan) false;
  ex_equals_inf : forall s x, tells (equals A (inf s) x) (x = inf s) /\
    tells (equals A x (inf s)) (x = inf s);
  ex_is_zero : forall x, exceptional x -> returns (is_zero A x) false;
  ex_is_one : forall x, exceptional x -> returns (is_one A x) false;
  (* all these calls panic *)
  ex_add : forall x y, exceptional x \/ exceptional y -> panics (add A x y);
  ex_add_assign : forall x y, exceptional x \/ exceptional y -> panics (add_assign A x y);
  ex_sub : forall x y, exceptional x \/ exceptional y -> panics (sub A x y);
  ex_sub_assign : forall x y, exceptional x \/ exceptional y -> panics (sub_assign A x y);
  ex_mul : forall x y, exceptional x \/ exceptional y -> panics (mul A x y);
  ex_mul_assign : forall x y, exceptional x \/ exceptional y -> panics (mul_assign A x y);
  ex_double : forall x, exceptional x -> panics (double A x);
  ex_square : forall x, exceptional x -> panics (square A x);
  ex_neg : forall x, exceptional x -> panics (neg A x);
  ex_neg_assign : forall x, exceptional x -> panics (neg_assign A x);
  ex_div : forall x y, exceptional x -> panics (fdiv A x y);
  ex_div_nan : forall x, panics (fdiv A x nan);
  ex_inv_nan : panics (finv A nan);
  ex_quo : forall x y, exceptional x -> panics (quo A x y);
  ex_quo_nan : forall x, panics (quo A x nan);
  ex_quo_rem : forall x y, exceptional x -> panics (quo_rem A x y);
  ex_quo_rem_nan : forall x, panics (quo_rem A x nan);
  ex_try_div : forall x y, exceptional x -> panics (try_div A x y);
  ex_try_div_nan : forall x, panics (try_div A x nan);
  ex_ntimes : forall n x, (0 < n)%Z -> exceptional x -> panics (ntimes A n x);
  ex_power : forall n x, (0 < n)%Z -> exceptional x -> panics (fpower A n x);
  ex_power_nan : forall n, usual_isize cfg n -> n <> 0%Z -> panics (fpower A n nan);
  (* dividing by an infinity gives a zero *)
  ex_div_inf : forall x s, finite x ->
    returns (fdiv A x (inf s)) (B754_zero (xorb (Bsign x) s));
  ex_inv_inf : forall s, returns (finv A (inf s)) (B754_zero s);
  ex_quo_inf : forall x s, finite x ->
    returns (quo A x (inf s)) (B754_zero (xorb (Bsign x) s));
  ex_quo_rem_inf : forall x s, finite x ->
    returns (quo_rem A x (inf s)) (B754_zero (xorb (Bsign x) s), B754_zero false);
  ex_try_div_inf : forall x s, finite x ->
    returns (try_div A x (inf s)) (Some (B754_zero (xorb (Bsign x) s)));
  ex_try_inv_inf : forall s, returns (try_inv A (inf s)) (Some (B754_zero s));
  ex_invertible_inf : forall s, returns (invertible A (inf s)) true;
  ex_power_inf : forall n s, usual_isize cfg n -> (n < 0)%Z ->
    returns (fpower A n (inf s)) (B754_zero (s && Z.odd n));
  (* NaN is not invertible *)
  ex_try_inv_nan : returns (try_inv A nan) None;
  ex_invertible_nan : returns (invertible A nan) false;
  (* the argument does not matter *)
  ex_ntimes_0 : forall x, returns (ntimes A 0 x) (B754_zero false);
  ex_power_0 : forall x, exceptional x -> yields (fpower A 0 x) 1;
  ex_rem : forall x y, exceptional y -> returns (rem A x y) (B754_zero false);
  ex_rem_left : forall x y b, float_is y b -> b <> 0%R -> exceptional x ->
    returns (rem A x y) (B754_zero false);
  ex_gcd : forall x y, exceptional x \/ exceptional y -> yields (gcd A x y) 1;
  (* the product with an isize is not checked *)
  ex_times_nan : forall n, returns (ztimes A n nan) nan;
  ex_times_inf : forall n s, is_isize cfg n -> returns (ztimes A n (inf s))
    (if (n =? 0)%Z then nan else inf (xorb s (n <? 0)%Z))
}.

(** ** Order *)
Record exceptional_order (A : LatticeAlg F) : Prop := {
  eo_contains : forall x, exceptional x -> returns (contains A x) false;
  eo_leq_nan : forall x, returns (leq A nan x) false /\ returns (leq A x nan) false;
  eo_less_than_nan : forall x,
    returns (less_than A nan x) false /\ returns (less_than A x nan) false;
  eo_comparable_nan : forall x,
    returns (comparable A nan x) false /\ returns (comparable A x nan) false;
  (* the infinities are the least and the greatest number *)
  eo_leq_inf : forall x, x <> nan ->
    returns (leq A (inf true) x) true /\ returns (leq A x (inf false)) true;
  eo_geq_inf : forall x,
    tells (leq A x (inf true)) (x = inf true) /\ tells (leq A (inf false) x) (x = inf false);
  (* meet and join forget NaN *)
  eo_meet_nan : forall x, returns (meet A nan x) x /\ returns (meet A x nan) x;
  eo_join_nan : forall x, returns (join A nan x) x /\ returns (join A x nan) x;
  eo_meet_inf : forall x, x <> nan ->
    [/\ returns (meet A (inf true) x) (inf true), returns (meet A x (inf true)) (inf true),
        returns (meet A (inf false) x) x & returns (meet A x (inf false)) x];
  eo_join_inf : forall x, x <> nan ->
    [/\ returns (join A (inf false) x) (inf false), returns (join A x (inf false)) (inf false),
        returns (join A (inf true) x) x & returns (join A x (inf true)) x]
}.
End ExcSpec.
