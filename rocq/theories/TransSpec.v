(** * TransSpec.v -- what the methods of Permutations do on arbitrary vectors.

    Nothing is assumed of the vectors: their length may be wrong, entries may be repeated or
    too large. *)

From Coq Require Import ZArith.
From mathcomp Require Import all_ssreflect.
From Verif Require Import Rust Traits Spec.

Set Implicit Arguments.
Unset Strict Implicit.
Unset Printing Implicit Defensive.

Section Trans.
Variables (cfg : Cfg) (n : nat).

(** The check of debug builds. *)
Definition length_passes (v : seq nat) : bool := debug_assertions cfg ==> (size v == n).

(** The entries of [v] are positions of a vector of length [m]. *)
Definition positions (m : nat) (v : seq nat) : bool := all (fun a => a < m) v.

(** "First [v], then [u]". *)
Definition then_ (v u : seq nat) : seq nat := [seq nth 0 u a | a <- v].

(** [w] lists, for every [a], the last place at which [a] occurs in [v], and 0 if it does
    not occur. *)
Definition last_places (v w : seq nat) : Prop :=
  size w = n /\ forall a, a < n ->
  if a \in v then
    [/\ nth 0 w a < size v, nth 0 v (nth 0 w a) = a &
        forall j, nth 0 w a < j < size v -> nth 0 v j <> a]
  else nth 0 w a = 0.

Record any_vectors (A : GroupAlg (seq nat)) : Prop := {
  av_equals : forall v u, returns (equals A v u) (v == u);
  av_mul : forall v u,
    if [&& length_passes v, length_passes u, size v <= n & positions (size u) v]
    then returns (mul A v u) (then_ v u ++ nseq (n - size v) 0)
    else panics (mul A v u);
  av_mul_assign : forall v u,
    if [&& length_passes v, length_passes u & positions (size u) v]
    then returns (mul_assign A v u) (then_ v u)
    else panics (mul_assign A v u);
  av_square : forall v,
    if [&& length_passes v, size v <= n & positions (size v) v]
    then returns (square A v) (then_ v v ++ nseq (n - size v) 0)
    else panics (square A v);
  av_one : returns (one A) (iota 0 n);
  av_is_one : forall v,
    if length_passes v then returns (is_one A v) (v == iota 0 (size v))
    else panics (is_one A v);
  av_try_inv : forall v,
    if length_passes v && positions n v
    then exists2 w, last_places v w & returns (try_inv A v) (Some w)
    else panics (try_inv A v);
  av_invertible : forall v, returns (invertible A v) true;
  av_inv : forall v,
    if length_passes v && positions n v
    then exists2 w, last_places v w & returns (ginv A v) w
    else panics (ginv A v) }.

(** The vectors listing the images of any map of [0 .. n-1] into itself. *)
Definition transformation (v : seq nat) : Prop := size v = n /\ positions n v.

(** They are closed under the methods, and form a monoid of maps. *)
Record transformations (A : GroupAlg (seq nat)) : Prop := {
  tr_one : exists2 e, transformation e & returns (one A) e /\ forall i, i < n -> nth 0 e i = i;
  tr_mul : forall v u, transformation v -> transformation u -> exists2 w, transformation w &
    [/\ returns (mul A v u) w, returns (mul_assign A v u) w &
        forall i, i < n -> nth 0 w i = nth 0 u (nth 0 v i)];
  tr_is_one : forall v, transformation v ->
    exists2 b : bool, returns (is_one A v) b & b <-> forall i, i < n -> nth 0 v i = i;
  (** The inverse undoes [v] on the image of [v] only. *)
  tr_inv : forall v, transformation v -> exists2 w, transformation w &
    [/\ returns (try_inv A v) (Some w), returns (ginv A v) w &
        forall i, i < n -> nth 0 v (nth 0 w (nth 0 v i)) = nth 0 v i];
  (** Powers are iterates of [v], or of the result of try_inv. *)
  tr_power : forall v k, transformation v -> (0 <= k)%Z -> good_isize cfg k ->
    exists2 w, transformation w & returns (gpower A k v) w /\
      forall i, i < n -> nth 0 w i = iter (Z.to_nat k) (nth 0 v) i;
  tr_neg_power : forall v u k, transformation v -> returns (try_inv A v) (Some u) ->
    (k < 0)%Z -> good_isize cfg k ->
    exists2 w, transformation w & returns (gpower A k v) w /\
      forall i, i < n -> nth 0 w i = iter (Z.to_nat (- k)) (nth 0 u) i }.

End Trans.
