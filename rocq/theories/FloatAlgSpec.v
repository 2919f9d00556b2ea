(** * FloatAlgSpec.v -- statements about vectors of floats. *)

From Coq Require Import ZArith SpecFloat.
From mathcomp Require Import all_ssreflect.
From Flocq Require Import Core BinarySingleNaN.
From Verif Require Import Rust MFloats.

Set Implicit Arguments.
Unset Strict Implicit.
Unset Printing Implicit Defensive.

(** Multiplying by such a number is exact. *)
Definition small_num (n : Z) : Prop := (-1 <= n <= 1)%Z.

(** The call returns the floats with these signs, mantissas and exponents. *)
Definition shows_all (m : M (seq f64)) (s : seq spec_float) : Prop :=
  exists2 v, returns m v & map (fun x : f64 => B2SF x) v = s.
Definition shows_some (m : M (option (seq f64))) (s : seq spec_float) : Prop :=
  exists2 v, returns m (Some v) & map (fun x : f64 => B2SF x) v = s.
