(** * EntrySpec.v -- methods that compute their result entry by entry. *)

From mathcomp Require Import all_ssreflect.
From Verif Require Import Rust Traits SumSpec.

Set Implicit Arguments.
Unset Strict Implicit.
Unset Printing Implicit Defensive.

Section EntrySpec.
Variables (E : Type) (d : E).

(** The call [m] returns a vector of [n] entries if every call [entry k] returns, and then
    the entries are what these calls return; it panics if one of them panics. *)
Definition entrywise (n : nat) (m : M (seq E)) (entry : nat -> M E) : Prop :=
  (forall w, returns m w <->
     size w = n /\ forall k, k < n -> returns (entry k) (nth d w k)) /\
  (panics m <-> exists2 k, k < n & panics (entry k)).

(** The program that adds the products of the pairs in the list, from left to right, to
    zero. *)
Definition sum_of_products (zero : M E) (mul add : E -> E -> M E) (l : seq (E * E)) : M E :=
  foldl (fun sum xy =>
    let! s := sum in let! z := mul xy.1 xy.2 in add s z)%rust zero l.

(** The vectors [v] and [u], if there is one, have length [n]; [g] applies [f] to the
    entries. *)
Definition entrywise1 (Q : E -> Prop) (n : nat) (f : E -> M E) (g : seq E -> M (seq E)) :=
  forall v, size v = n -> (forall k, k < n -> Q (nth d v k)) ->
  entrywise n (g v) (fun k => f (nth d v k)).
Definition entrywise2 (Q : E -> Prop) (n : nat) (f : E -> E -> M E)
    (g : seq E -> seq E -> M (seq E)) :=
  forall v u, size v = n -> size u = n ->
  (forall k, k < n -> Q (nth d v k)) -> (forall k, k < n -> Q (nth d u k)) ->
  entrywise n (g v u) (fun k => f (nth d v k) (nth d u k)).
(** The calls come to an end, and return values satisfying [Q]. *)
Definition ends (Q : E -> Prop) (m : M E) : Prop :=
  (exists2 v, returns m v & Q v) \/ panics m.
Definition ends1 (Q : E -> Prop) (f : E -> M E) : Prop := forall x, Q x -> ends Q (f x).
Definition ends2 (Q : E -> Prop) (f : E -> E -> M E) : Prop :=
  forall x y, Q x -> Q y -> ends Q (f x y).
End EntrySpec.
