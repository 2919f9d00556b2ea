(** * FloatErrSpec.v -- how far computed sums, multiples and powers of floats may be from
    the true ones. *)

From Coq Require Import ZArith Reals.
From mathcomp Require Import all_ssreflect.
From Flocq Require Import Core BinarySingleNaN.
From Verif Require Import FloatSpec.

Set Implicit Arguments.
Unset Strict Implicit.
Unset Printing Implicit Defensive.

Section FloatErr.
Variables (prec emax : Z).
Local Notation F := (binary_float prec emax).

(** The relative error of one rounding, and the absolute error of one rounding to a
    subnormal number: half of the least positive number. *)
Definition unit_error : R := bpow radix2 (- prec).
Definition tiny_error : R := bpow radix2 (2 - emax - prec).
Local Notation u := unit_error.

(** ** Sums of products *)
Definition sum_of (l : seq R) : R := foldr Rplus 0%R l.
Definition terms (l : seq (F * F)) : seq R := [seq (B2R x.1 * B2R x.2)%R | x <- l].
(** The true sum of the products of the pairs [l], and the sum of their absolute values. *)
Definition total (l : seq (F * F)) : R := sum_of (terms l).
Definition magnitude (l : seq (F * F)) : R := sum_of [seq Rabs t | t <- terms l].
(** The bound for the error of the computed sum. *)
Definition sum_error (l : seq (F * F)) : R :=
  (((1 + u) ^ size l - 1) * magnitude l + INR (size l) * (1 + u) ^ (size l).-1 * tiny_error)%R.
Definition near_total (l : seq (F * F)) (x : F) : Prop :=
  finite x /\ (Rabs (B2R x - total l) <= sum_error l)%R.
(** Only such sums can overflow. *)
Definition too_large (l : seq (F * F)) : Prop :=
  (bpow radix2 emax <= magnitude l + sum_error l)%R.

(** [x] is an integer multiple of 2^[e]. *)
Definition scaled (e : Z) (x : F) : Prop := exists z, float_is x (IZR z * bpow radix2 e)%R.

(** All sums of integer multiples of 2^[e] of this magnitude are floats. *)
Definition exact_sum (e : Z) (l : seq (F * F)) : Prop :=
  (magnitude l <= bpow radix2 (prec + e))%R /\ (magnitude l < bpow radix2 emax)%R.

(** ** Multiples and powers *)
(** [r] is [t] with at most [k] relative errors of one rounding. *)
Definition after_roundings (k : nat) (t r : R) : Prop :=
  exists c, ((1 - u) ^ k <= c <= (1 + u) ^ k)%R /\ r = (t * c)%R.
End FloatErr.
