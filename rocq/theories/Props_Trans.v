(** * Props_Trans.v -- C77: Permutations on arbitrary vectors.

    [length_passes cfg n v] (TransSpec.v): the length of [v] is [n] or debug assertions are
    off; [positions m v]: the entries of [v] are below [m]; [then_ v u]: "first [v], then
    [u]"; [last_places n v w]: [w] lists the last places of 0, ..., n - 1 in [v], and 0 for the
    numbers that do not occur; [transformation n v]: [v] has length [n] and entries below [n].
    The model does not truncate positions to u32, so read this for vectors of length at
    most 2^32. *)

From mathcomp Require Import all_ssreflect zify.
From Coq Require Import ZArith.
From Verif Require Import Rust Traits MInts MConstr Spec TransSpec.
From Verif Require Import PTrans Refuted.

(** The outcome of every method on every vector, in both build profiles. *)
Theorem C77_any_vectors : forall (cfg : Cfg) (n : nat), any_vectors cfg n (Permutations cfg n).
Proof. exact any_vectors_ok. Qed.
Print Assumptions C77_any_vectors.
(** Short and long vectors in a release build, and in a debug build. *)
Example C77_any_vectors_case :
  [/\ returns (mul (Permutations release64 3) [:: 4; 0]%nat [:: 5; 6; 7; 8; 9]%nat)
        [:: 9; 5; 0]%nat,
      returns (mul_assign (Permutations release64 3) [:: 4; 0]%nat [:: 5; 6; 7; 8; 9]%nat)
        [:: 9; 5]%nat,
      panics (mul (Permutations release64 3) [:: 0; 0; 0; 0]%nat [:: 1; 2; 0]%nat),
      panics (mul (Permutations debug64 3) [:: 1; 0]%nat [:: 1; 2; 0]%nat) &
      panics (mul (Permutations debug64 3) [:: 1; 3; 0]%nat [:: 1; 2; 0]%nat)] /\
  [/\ returns (is_one (Permutations release64 3) [:: 0; 1]%nat) true,
      panics (is_one (Permutations debug64 3) [:: 0; 1]%nat),
      returns (try_inv (Permutations release64 3) [:: 1; 2; 1; 2; 1]%nat)
        (Some [:: 0; 4; 3]%nat) &
      panics (try_inv (Permutations release64 3) [:: 3; 1; 2]%nat)].
Proof. by split; split; run 20%nat. Qed.

(** Vectors with repeated entries are maps of 0, ..., n - 1 into itself. mul composes them, power
    iterates them. *)
Theorem C77_transformations : forall (cfg : Cfg) (n : nat),
  transformations cfg n (Permutations cfg n).
Proof. exact transformations_ok. Qed.
Print Assumptions C77_transformations.
Example C77_transformations_case :
  [/\ transformation 4 [:: 1; 2; 3; 3]%nat,
      returns (gpower (Permutations debug64 4) 2 [:: 1; 2; 3; 3]%nat) [:: 2; 3; 3; 3]%nat,
      returns (gpower (Permutations debug64 4) 3 [:: 1; 2; 3; 3]%nat) [:: 3; 3; 3; 3]%nat,
      returns (try_inv (Permutations debug64 4) [:: 1; 2; 3; 3]%nat) (Some [:: 0; 0; 1; 3]%nat) &
      returns (gpower (Permutations debug64 4) (-2) [:: 1; 2; 3; 3]%nat) [:: 0; 0; 0; 3]%nat].
Proof. by split; [|run 20%nat|run 20%nat|run 20%nat|run 20%nat]. Qed.
(** try_inv finds something for all of them, but an inverse for the permutations only. *)
Theorem C77_inverse : forall (cfg : Cfg) (n : nat) (v w : seq nat), transformation n v ->
  returns (try_inv (Permutations cfg n) v) (Some w) ->
  returns (mul (Permutations cfg n) v w) (iota 0 n) <-> uniq v.
Proof. exact trans_inverse. Qed.
Print Assumptions C77_inverse.
Example C77_inverse_case :
  [/\ transformation 4 [:: 1; 2; 3; 3]%nat,
      returns (try_inv (Permutations debug64 4) [:: 1; 2; 3; 3]%nat) (Some [:: 0; 0; 1; 3]%nat) &
      returns (mul (Permutations debug64 4) [:: 1; 2; 3; 3]%nat [:: 0; 0; 1; 3]%nat)
        [:: 0; 1; 3; 3]%nat].
Proof. by split; [|run 20%nat|run 20%nat]. Qed.
