(** * Props_Perm.v -- the properties of Permutations (C28, C29).

    [permutation_of v s] (RingSpec.v): the vector [v] lists the images of
    0, ..., n - 1 under the permutation [s] of the library; [s * t] is "[s], then [t]". *)

From mathcomp Require Import all_ssreflect all_algebra all_fingroup zify ssrZ.
From Coq Require Import ZArith.
From Verif Require Import Rust Traits MInts MConstr Spec PropSpec RingSpec NumSpec Laws.
From Verif Require Import POrdProps Refuted.

(** ** C28: the symmetric group *)

Theorem C28_methods : forall (cfg : Cfg) (p : Prop) (n : nat), [/\
    ensures p (one (Permutations cfg n)) (fun z => @permutation_of n z 1%g),
    forall v (s : {perm 'I_n}), permutation_of v s ->
    [/\ ensures p (square (Permutations cfg n) v) (fun z => permutation_of z (s * s)%g),
        ensures p (ginv (Permutations cfg n) v) (fun z => permutation_of z s^-1%g),
        ensures p (try_inv (Permutations cfg n) v)
          (fun o => exists2 z, o = Some z & permutation_of z s^-1%g),
        answers p (is_one (Permutations cfg n) v) (s == 1%g) &
        answers p (invertible (Permutations cfg n) v) true],
    forall v (s : {perm 'I_n}) k, permutation_of v s -> good_isize cfg k ->
      ensures p (gpower (Permutations cfg n) k v) (fun z => permutation_of z
        match k with
        | Z0 => 1%g | Zpos m => (s ^+ Pos.to_nat m)%g | Zneg m => (s ^- Pos.to_nat m)%g
        end) &
    forall v (s : {perm 'I_n}) u (t : {perm 'I_n}), permutation_of v s -> permutation_of u t ->
      [/\ ensures p (mul (Permutations cfg n) v u) (fun z => permutation_of z (s * t)%g),
          ensures p (mul_assign (Permutations cfg n) v u) (fun z => permutation_of z (s * t)%g) &
          answers p (equals (Permutations cfg n) v u) (s == t)]].
Proof. exact permutation_methods. Qed.
Print Assumptions C28_methods.
(** The vector (1, 2, 0) lists a permutation. *)
Example C28_methods_case :
  (exists s : {perm 'I_3}, permutation_of [:: 1; 2; 0]%nat s) /\
  [/\ returns (mul (Permutations debug64 3) [:: 1; 2; 0]%nat [:: 1; 0; 2]%nat) [:: 0; 2; 1]%nat,
      returns (ginv (Permutations debug64 3) [:: 1; 2; 0]%nat) [:: 2; 0; 1]%nat &
      returns (is_one (Permutations debug64 3) [:: 1; 2; 0]%nat) false].
Proof.
split; last by split; run 20%nat.
by apply/permutation_exists; split=> // a; rewrite !inE => /or3P [] /eqP ->.
Qed.
(** The vectors that [contains] accepts correspond to the n! permutations. *)
Theorem C28_contains : forall (cfg : Cfg) (n : nat) (v : seq nat),
  returns (contains (Permutations cfg n) v) true <->
  exists s : {perm 'I_n}, permutation_of v s.
Proof. exact permutation_accepted. Qed.
Print Assumptions C28_contains.
Example C28_contains_case :
  [/\ returns (contains (Permutations debug64 3) [:: 1; 2; 0]%nat) true,
      returns (contains (Permutations debug64 3) [:: 1; 1; 0]%nat) false &
      panics (contains (Permutations debug64 3) [:: 1; 3; 0]%nat)].
Proof. by split; run 20%nat. Qed.
Theorem C28_bijective : forall n : nat,
  (forall s : {perm 'I_n}, exists v, permutation_of v s) /\
  (forall v (s t : {perm 'I_n}), permutation_of v s -> permutation_of v t -> s = t) /\
  (forall v u (s : {perm 'I_n}), permutation_of v s -> permutation_of u s -> v = u) /\
  #|{: {perm 'I_n}}| = (n`!)%nat.
Proof. exact permutation_bijective. Qed.
Print Assumptions C28_bijective.
Example C28_bijective_case : #|{: {perm 'I_4}}| = 24%nat.
Proof. by have [_ [_ [_ ->]]] := C28_bijective 4. Qed.
Theorem C28_members : forall (n : nat) (v : seq nat),
  (exists s : {perm 'I_n}, permutation_of v s) <->
  [/\ size v = n, uniq v & forall a, a \in v -> (a < n)%nat].
Proof. exact permutation_exists. Qed.
Print Assumptions C28_members.
Example C28_members_case :
  [/\ size [:: 1; 2; 0]%nat = 3%nat, uniq [:: 1; 2; 0]%nat &
      forall a, a \in [:: 1; 2; 0]%nat -> (a < 3)%nat].
Proof. by split=> // a; rewrite !inE => /or3P [] /eqP ->. Qed.
(** The laws of a group, as statements about calls of the methods. *)
Theorem C28_laws : forall (cfg : Cfg) (p : Prop) (n : nat), Z.le 2 (ptr_bits cfg) ->
  group_alg_laws p (fun v => exists s : {perm 'I_n}, permutation_of v s) cfg
    (Permutations cfg n).
Proof. exact permutation_laws. Qed.
Print Assumptions C28_laws.
(** (0 1 2 3) then (0 1)(2 3) sends 0 to 0; powers of a cycle of length 3. *)
Example C28_case :
  [/\ returns (mul (Permutations debug64 4) [:: 1; 2; 3; 0]%nat [:: 1; 0; 3; 2]%nat)
        [:: 0; 3; 2; 1]%nat,
      returns (ginv (Permutations debug64 4) [:: 1; 2; 3; 0]%nat) [:: 3; 0; 1; 2]%nat,
      returns (gpower (Permutations debug64 3) 4 [:: 1; 2; 0]%nat) [:: 1; 2; 0]%nat,
      returns (gpower (Permutations debug64 3) (-2) [:: 1; 2; 0]%nat) [:: 1; 2; 0]%nat &
      returns (contains (Permutations debug64 3) [:: 1; 2; 1]%nat) false].
Proof. by split; run 20%nat. Qed.

(** ** C29: contains on all vectors

    False: entries that are too large make it panic. *)
Theorem C29_refuted : forall cfg : Cfg,
  panics (contains (Permutations cfg 3) [:: 0; 1; 3]%nat).
Proof. exact (fun _ => perm_contains_3). Qed.
Print Assumptions C29_refuted.
(** What holds: [contains] decides for vectors of another length, for vectors whose
    entries are smaller than [n], and for vectors where a repeated entry comes before
    the first entry that is too large; missing: the remaining vectors, on which it
    panics. *)
Theorem C29_contains_partial : forall (cfg : Cfg) (n : nat) (v : seq nat),
  [/\ size v <> n -> returns (contains (Permutations cfg n) v) false,
      size v = n -> (forall a, a \in v -> (a < n)%nat) ->
        returns (contains (Permutations cfg n) v) (uniq v),
      forall v1 a v2, size v = n -> v = v1 ++ a :: v2 -> (n <= a)%nat -> uniq v1 ->
        (forall b, b \in v1 -> (b < n)%nat) -> panics (contains (Permutations cfg n) v) &
      forall v1 a v2, size v = n -> v = v1 ++ a :: v2 -> a \in v1 -> uniq v1 ->
        (forall b, b \in v1 -> (b < n)%nat) ->
        returns (contains (Permutations cfg n) v) false].
Proof. exact permutation_contains. Qed.
Print Assumptions C29_contains_partial.
Example C29_case cfg :
  [/\ returns (contains (Permutations cfg 3) [:: 0; 1]%nat) false,
      returns (contains (Permutations cfg 3) [:: 2; 0; 1]%nat) true,
      returns (contains (Permutations cfg 3) [:: 0; 0; 7]%nat) false &
      panics (contains (Permutations cfg 3) [:: 0; 7; 0]%nat)].
Proof. by split; run 20%nat. Qed.
