(** * ComplexSpec.v -- complex numbers with float components. *)

From Coq Require Import ZArith Reals.
From mathcomp Require Import all_ssreflect.
From Flocq Require Import Core BinarySingleNaN.
From Verif Require Import Rust FloatSpec FloatErrSpec.

Set Implicit Arguments.
Unset Strict Implicit.
Unset Printing Implicit Defensive.

(** The call returns a value satisfying [Q] if [ok] holds, and panics otherwise. *)
Definition settled (ok : Prop) T (m : M T) (Q : T -> Prop) : Prop :=
  (ok -> exists2 z, returns m z & Q z) /\ (~ ok -> panics m).

Section Complex.
Variables (prec emax : Z).
Local Notation F := (binary_float prec emax).
Local Notation rnd := (rounded prec emax).
Local Notation u := (unit_error prec).
Local Open Scope R_scope.

(** The list of coefficients [v] is the complex number [a + b i]: a polynomial of degree at
    most one, missing coefficients being zero. *)
Definition complex_is (v : seq F) (a b : R) : Prop :=
  match v with
  | [::] => a = 0 /\ b = 0
  | [:: x] => float_is x a /\ b = 0
  | [:: x; y] => float_is x a /\ float_is y b
  | _ => False
  end.

(** No leading zero. *)
Definition trimmed (v : seq F) : Prop := v <> [::] -> B2R (last (B754_zero false) v) <> 0.

(** The polynomial x^2 + 1. *)
Definition square_plus_one (v : seq F) : Prop :=
  match v with
  | [:: x; y; z] => float_is x 1 /\ float_is y 0 /\ float_is z 1
  | _ => False
  end.

(** The rounded number is a float. *)
Definition fits (r : R) : Prop := ~ overflows prec emax r.

(** The product of [a + b i] and [c + d i] computed with roundings. *)
Definition product_fits (a b c d : R) : Prop :=
  (fits (a * c) /\ fits (a * d) /\ fits (b * c) /\ fits (b * d)) /\
  (fits (rnd (a * c) - rnd (b * d)) /\ fits (rnd (a * d) + rnd (b * c))).
Definition product_re (a b c d : R) : R := rnd (rnd (a * c) - rnd (b * d)).
Definition product_im (a b c d : R) : R := rnd (rnd (a * d) + rnd (b * c)).

(** The inverse of [a + b i], [b] not zero: [q0 + q1 x] is the quotient of x^2 + 1 by
    [a + b x], and [r] the remainder. *)
Definition inverse_q1 (b : R) : R := rnd (/ b).
Definition inverse_s (a b : R) : R := rnd (- (a * inverse_q1 b)).
Definition inverse_q0 (a b : R) : R := rnd (inverse_s a b / b).
Definition inverse_t (a b : R) : R := rnd (- (a * inverse_q0 a b)).
Definition inverse_r (a b : R) : R := rnd (1 + inverse_t a b).
Definition inverse_re (a b : R) : R := rnd (rnd (/ inverse_r a b) * - inverse_q0 a b).
Definition inverse_im (a b : R) : R := rnd (rnd (/ inverse_r a b) * - inverse_q1 b).
Definition inverse_fits (a b : R) : Prop :=
  fits (/ b) /\ fits (a * inverse_q1 b) /\ fits (inverse_s a b / b) /\
  fits (a * inverse_q0 a b) /\ fits (1 + inverse_t a b).

(** Zero or not in the subnormal range: the relative error of rounding it is at most [u]. *)
Definition normal (r : R) : Prop := r = 0 \/ bpow radix2 (2 - emax) <= Rabs r.
(** No intermediate result of the inverse is subnormal. *)
Definition inverse_normal (a b : R) : Prop :=
  [/\ normal (/ b), normal (a * inverse_q1 b), normal (inverse_s a b / b) &
      normal (a * inverse_q0 a b)] /\
  [/\ normal (/ inverse_r a b), normal (rnd (/ inverse_r a b) * inverse_q0 a b) &
      normal (rnd (/ inverse_r a b) * inverse_q1 b)].
(** [r] is [t] times [k] and divided by [l] factors, each within [u] of one. *)
Definition after_roundings2 (k l : nat) (t r : R) : Prop :=
  exists c d, [/\ (1 - u) ^ k <= c <= (1 + u) ^ k, (1 - u) ^ l <= d <= (1 + u) ^ l &
    r = t * c / d].
End Complex.
