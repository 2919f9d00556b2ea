(** * NumSpec.v -- vocabulary for the theorems about machine integers.

    [fits w z]: [z] is a value of the signed type of [w] bits; [ufits w z]: of the
    unsigned type of [w] bits.  [checked P m v]: the call [m] returns [v] if [P]
    and panics if not [P]. *)

From Coq Require Import ZArith.
From Verif Require Import Rust.

Definition fits (w z : Z) : Prop := (- 2 ^ (w - 1) <= z < 2 ^ (w - 1))%Z.
Definition ufits (w z : Z) : Prop := (0 <= z < 2 ^ w)%Z.
Definition checked {A : Type} (P : Prop) (m : M A) (v : A) : Prop :=
  (P -> returns m v) /\ (~ P -> panics m).
(** The one division whose quotient does not fit: the smallest value by -1. *)
Definition min_by_m1 (w x y : Z) : Prop := x = (- 2 ^ (w - 1))%Z /\ y = (-1)%Z.
(** The number of binary digits of [n]. *)
Definition digits (n : Z) : Z := if (n =? 0)%Z then 0%Z else (Z.log2 n + 1)%Z.
