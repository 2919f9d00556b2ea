(** * IntPolySpec.v -- integers as fractions of machine integers.

    [is_frac w x a]: the fraction [x] is the integer [a] over 1, and [a] fits into a signed
    type of [w] bits. *)

From Coq Require Import ZArith.
From Verif Require Import NumSpec.

Definition is_frac (w : Z) (x : Z * Z) (a : Z) : Prop := x = (a, 1%Z) /\ fits w a.
