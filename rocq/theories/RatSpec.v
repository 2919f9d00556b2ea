(** * RatSpec.v -- vocabulary for the theorems on fractions of machine integers.

    [lowest n d] is the fraction [n / d] in lowest terms, for [d > 0].
    [small b x]: the fraction [x] is in lowest terms and its numerator and
    denominator are at most [b] in absolute value. *)

From Coq Require Import ZArith.
From Verif Require Import FracSpec.

Definition lowest (n d : Z) : Z * Z := (n / Z.gcd n d, d / Z.gcd n d)%Z.
Definition small (b : Z) (x : Z * Z) : Prop :=
  canonical_pair x /\ (Z.abs (fst x) <= b)%Z /\ (snd x <= b)%Z.
