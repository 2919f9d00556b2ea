(** * ValSpec.v -- polynomials and the vectors of their values. *)

From mathcomp Require Import all_ssreflect all_algebra.
From Verif Require Import RingSpec.

Import GRing.Theory.
Local Open Scope ring_scope.

Set Implicit Arguments.
Unset Strict Implicit.
Unset Printing Implicit Defensive.

(** [x] is a polynomial of degree below n, and [y] is the vector of its values at the
    points a_0, ..., a_(n-1). *)
Definition values_at (E : Type) (F : fieldType) (rep : E -> F -> Prop) (n : nat) (a : 'I_n -> F)
    (x y : seq E) : Prop :=
  exists U : {poly F}, [/\ poly_of rep x U, (size x <= n)%N &
    vector_of rep y [ffun i : 'I_n => U.[a i]]].
