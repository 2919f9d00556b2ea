(** * CostSpec.v -- how often loops are run through.

    A call of the model is a function of the number of times that every [while] condition
    may be tested and the number of nested calls of a recursive function (Rust.v).
    [within k m Q]: with [k] of them the call [m] has finished -- more do not change
    anything -- and if it has returned a value, the value satisfies [Q]. *)

From Coq Require Import ZArith List.
From mathcomp Require Import all_ssreflect.
From Verif Require Import Rust Traits.

Set Implicit Arguments.
Unset Strict Implicit.
Unset Printing Implicit Defensive.

Definition within (A : Type) (k : nat) (m : M A) (Q : A -> Prop) : Prop :=
  [/\ m k <> Unfinished, forall n, (k <= n)%N -> m n = m k & forall v, m k = Done v -> Q v].
Definition finishes (A : Type) (k : nat) (m : M A) : Prop := within k m (fun _ => True).

(** The Fibonacci numbers. *)
Fixpoint fib2 (n : nat) : Z * Z :=
  if n is m.+1 then let: (a, b) := fib2 m in (b, (a + b)%Z) else (0%Z, 1%Z).
Definition fib (n : nat) : Z := (fib2 n).1.

(** The methods of a field that others are built from, on arguments with the property
    [P]: each finishes within [k], and gives again an element with this property. *)
Record quick_field (E : Type) (k : nat) (P : E -> Prop) (A : FieldAlg E) : Prop := {
  qk_zero : within k (zero A) P;
  qk_one : within k (one A) P;
  qk_equals : forall x y, P x -> P y -> finishes k (equals A x y);
  qk_is_zero : forall x, P x -> finishes k (is_zero A x);
  qk_is_one : forall x, P x -> finishes k (is_one A x);
  qk_add : forall x y, P x -> P y -> within k (add A x y) P;
  qk_neg : forall x, P x -> within k (neg A x) P;
  qk_sub : forall x y, P x -> P y -> within k (sub A x y) P;
  qk_mul : forall x y, P x -> P y -> within k (mul A x y) P;
  qk_inv : forall x, P x -> within k (finv A x) P;
  qk_div : forall x y, P x -> P y -> within k (fdiv A x y) P;
  qk_try_inv : forall x, P x -> within k (try_inv A x) (fun o => forall y, o = Some y -> P y)
}.
