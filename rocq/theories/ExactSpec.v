(** * ExactSpec.v -- floats that refuse to round.

    [ExactFloats] is not in the crate. It has the methods of ApproxFloats<E>, but every
    operation panics if its result is not the exact one. The theorems say that the floats
    of the crate return whatever the exact floats return, in every structure the crate
    builds on top of them, and that the exact floats are a field of rational numbers. *)

From Coq Require Import ZArith Reals.
From mathcomp Require Import all_ssreflect.
From Flocq Require Import Core BinarySingleNaN.
From Verif Require Import Rust Traits MFloats FloatSpec.

Set Implicit Arguments.
Unset Strict Implicit.
Unset Printing Implicit Defensive.

Section ExactFloats.
Variables (cfg : Cfg) (prec emax : Z).
Context (prec_gt_0 : Prec_gt_0 prec) (prec_lt_emax : Prec_lt_emax prec emax).
Local Notation F := (binary_float prec emax).
Local Notation A := (ApproxFloats cfg prec_gt_0 prec_lt_emax).

(** Go on only if the result is finite and its value is [r]. *)
Definition exactly (r : R) (m : M F) : M F :=
  let! z := m in
  do! assert (is_finite z && Req_bool (B2R z) r) in
  ret z.

Definition exact_mul (x y : F) : M F := exactly (B2R x * B2R y) (mul A x y).
Definition exact_add (x y : F) : M F := exactly (B2R x + B2R y) (add A x y).
Definition exact_neg (x : F) : M F := exactly (- B2R x) (neg A x).
Definition exact_sub (x y : F) : M F := exactly (B2R x - B2R y) (sub A x y).
Definition exact_times (n : Z) (x : F) : M F := exactly (IZR n * B2R x) (ztimes A n x).
Definition exact_div (x y : F) : M F := exactly (B2R x / B2R y) (fdiv A x y).
Definition exact_inv (x : F) : M F := exactly (/ B2R x) (finv A x).
(** No inverse is reported for zero only. *)
Definition exact_try_inv (x : F) : M (option F) :=
  let! o := try_inv A x in
  match o with
  | Some z => let! z := exactly (/ B2R x) (ret z) in ret (Some z)
  | None => do! assert (Req_bool (B2R x) 0) in ret None
  end.

(** The other methods are the default ones, as in approx_floats.rs. *)
Definition exact_ring : RingAlg F :=
  let add_assign := default_add_assign exact_add in
  let double := default_double exact_add in
  mkRingAlg
    (mkMonoidAlg A
      (mkSemigroup exact_mul (default_mul_assign exact_mul) (default_square exact_mul))
      (mkMonoid (one A) (is_one A) exact_try_inv (default_invertible exact_try_inv)))
    (mkCommMonoid (zero A) (is_zero A) exact_add add_assign double
      (default_ntimes (zero A) add_assign double))
    (mkAbelianGroup exact_neg (default_neg_assign exact_neg) exact_sub
      (default_sub_assign exact_neg add_assign) exact_times)
    (mkUnitaryRing (default_int exact_times (one A))).
Definition ExactFloats : FieldAlg F :=
  field_alg exact_ring
    (mkField exact_inv exact_div (default_fpower cfg exact_ring (is_zero A) (zero A))).

(** [r] is the value of a finite float. *)
Definition is_float (r : R) : Prop := exists x : F, float_is x r.

(** The call returns exactly [r] if this is a float, and panics otherwise. *)
Definition exact_result (m : M F) (r : R) : Prop :=
  (is_float r -> yields m r) /\ (~ is_float r -> panics m).

Record exact_arithmetic (G : FieldAlg F) : Prop := {
  ex_add : forall x y a b, float_is x a -> float_is y b -> exact_result (add G x y) (a + b);
  ex_sub : forall x y a b, float_is x a -> float_is y b -> exact_result (sub G x y) (a - b);
  ex_mul : forall x y a b, float_is x a -> float_is y b -> exact_result (mul G x y) (a * b);
  ex_neg : forall x a, float_is x a -> yields (neg G x) (- a);
  ex_div : forall x y a b, float_is x a -> float_is y b -> b <> 0%R ->
    exact_result (fdiv G x y) (a / b);
  ex_inv : forall x a, float_is x a -> a <> 0%R -> exact_result (finv G x) (/ a);
  ex_try_inv : forall x a, float_is x a -> a <> 0%R ->
    (is_float (/ a) -> exists2 y, returns (try_inv G x) (Some y) & float_is y (/ a)) /\
    (~ is_float (/ a) -> panics (try_inv G x));
  ex_try_inv_zero : forall x, float_is x 0 -> returns (try_inv G x) None
}.
End ExactFloats.
