(** * DivErrSpec.v -- how far the quotient and the remainder of polynomials over floats may be
    from those of the dividend. *)

From Coq Require Import ZArith Reals.
From mathcomp Require Import all_ssreflect.
From Flocq Require Import Core BinarySingleNaN.
From Verif Require Import FloatSpec FloatErrSpec LuSpec.

Set Implicit Arguments.
Unset Strict Implicit.
Unset Printing Implicit Defensive.

Section DivErr.
Variables (prec emax : Z).
Local Notation F := (binary_float prec emax).
Local Notation u := (unit_error prec).
Local Notation eta := (tiny_error prec emax).
Implicit Types (v w q r : seq F) (k : nat).

(** The coefficients; those beyond the end are zero. *)
Definition coef v k : R := B2R (nth (B754_zero false) v k).
Definition all_finite v : Prop := forall k, k < size v -> finite (nth (B754_zero false) v k).

(** The [k]th coefficient of the product of [q] and [w], and the sum of the absolute values
    of the products in it. *)
Definition product_coef q w k : R :=
  total_of (size q) (fun i => if (i <= k)%N then coef q i * coef w (k - i) else 0)%R.
Definition product_size q w k : R :=
  total_of (size q) (fun i => if (i <= k)%N then Rabs (coef q i * coef w (k - i)) else 0)%R.

(** The bound for the error of the [k]th coefficient of [q * w + r] as an approximation of
    the dividend. *)
Definition division_error w q r k : R :=
  let d := minn (size q) (size w).-1 in
  (((1 + u) ^ d.+1 - 1) * (product_size q w k + Rabs (coef r k)) +
   (1 + u) ^ d * (2 * INR d + Rabs (coef w (size w).-1)) * eta)%R.

(** The quotient [q] and the remainder [r] of [v] by [w]. *)
Record near_division v w q r : Prop := {
  nd_quo : size q = size v - (size w).-1;
  nd_rem : size r < size w;
  nd_quo_finite : all_finite q;
  nd_rem_finite : all_finite r;
  nd_trimmed : (0 < size r)%N -> coef r (size r).-1 <> 0%R;
  nd_near : forall k, k < size v ->
    (Rabs (coef v k - (product_coef q w k + coef r k)) <= division_error w q r k)%R
}.
End DivErr.
