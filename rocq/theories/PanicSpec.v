(** * PanicSpec.v -- the documented panics (traits.rs:183-311), in terms of calls.

    A method that divides by [y] panics if [is_zero y] answers true; if [is_zero y]
    answers false it finishes, and does not panic (or may panic for another reason,
    overflow, if [p] holds).  The other methods accept zeros. *)

From Coq Require Import ZArith.
From mathcomp Require Import all_ssreflect.
From Verif Require Import Rust Traits.

Set Implicit Arguments.
Unset Strict Implicit.
Unset Printing Implicit Defensive.

Section Panics.
Variables (p : Prop) (E : Type) (mem : E -> Prop).

(** The call finishes. *)
Definition runs {T} (m : M T) : Prop := ensures p m (fun _ => True).
(** The call panics exactly if the question is answered by yes. *)
Definition panics_if {T} (q : M bool) (m : M T) : Prop :=
  [/\ runs q, returns q true -> panics m & returns q false -> runs m].

Record idom_panics (A : IDomAlg E) : Prop := {
  pan_try_div : forall x y, mem x -> mem y -> panics_if (is_zero A y) (try_div A x y);
  pan_associate_coef : forall x, mem x -> panics_if (is_zero A x) (associate_coef A x);
  run_divisible : forall x y, mem x -> mem y -> runs (divisible A x y);
  run_associates : forall x y, mem x -> mem y -> runs (associates A x y);
  run_associate_repr : forall x, mem x -> runs (associate_repr A x);
  run_try_inv : forall x, mem x -> runs (try_inv A x);
  run_invertible : forall x, mem x -> runs (invertible A x)
}.
Record eucl_panics (A : EuclAlg E) : Prop := {
  pan_idom : idom_panics A;
  pan_quo_rem : forall x y, mem x -> mem y -> panics_if (is_zero A y) (quo_rem A x y);
  pan_quo : forall x y, mem x -> mem y -> panics_if (is_zero A y) (quo A x y);
  pan_rem : forall x y, mem x -> mem y -> panics_if (is_zero A y) (rem A x y);
  run_reduced : forall x y, mem x -> mem y -> runs (reduced A x y);
  run_gcd : forall x y, mem x -> mem y -> runs (gcd A x y);
  run_lcm : forall x y, mem x -> mem y -> runs (lcm A x y);
  run_extended_gcd : forall x y, mem x -> mem y -> runs (extended_gcd A x y);
  run_relative_primes : forall x y, mem x -> mem y -> runs (relative_primes A x y)
}.
Record field_panics (A : FieldAlg E) : Prop := {
  pan_eucl : eucl_panics A;
  pan_inv : forall x, mem x -> panics_if (is_zero A x) (finv A x);
  pan_div : forall x y, mem x -> mem y -> panics_if (is_zero A y) (fdiv A x y)
}.
End Panics.
