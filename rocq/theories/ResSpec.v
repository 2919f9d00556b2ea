(** * ResSpec.v -- vocabulary for the theorems about residues of machine integers.

    [is_residue m x]: [x] is one of the numbers 0, ..., |m| - 1 that represent the classes
    modulo [m]. [inverse_of m x z]: the residue [z] times [x] is one modulo [m].
    [finds_inverse m x o]: [o] is an inverse of [x] modulo [m] if there is one, and nothing
    otherwise. *)

From Coq Require Import ZArith.

Definition is_residue (m x : Z) : Prop := (0 <= x < Z.abs m)%Z.
Definition inverse_of (m x z : Z) : Prop :=
  is_residue m z /\ ((x * z) mod Z.abs m = 1)%Z.
Definition finds_inverse (m x : Z) (o : option Z) : Prop :=
  match o with
  | Some z => inverse_of m x z
  | None => forall z : Z, ~ inverse_of m x z
  end.
