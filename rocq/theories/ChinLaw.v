(** * ChinLaw.v -- the Chinese remainder theorem as statements about calls.

    [same], [agree], [both] and [holds] are those of Laws.v. *)

From Coq Require Import ZArith.
From mathcomp Require Import all_ssreflect.
From Verif Require Import Rust Traits MConstr Laws.

Set Implicit Arguments.
Unset Strict Implicit.
Unset Printing Implicit Defensive.

Section Chinese.
Variables (cfg : Cfg) (E : Type) (A : EuclAlg E).

(** What a user of the library writes to find an element that is [x] modulo [m] and [y] modulo
    [n]: x + ((y - x) / m) m, with the difference and the quotient taken modulo [n]. *)
Definition chinese (m n x y : E) : M E :=
  let Q := QuotientRing cfg A n in
  let! o := try_inv Q m in
  if o is Some i then
    let! d := sub Q y x in
    let! k := mul Q d i in
    let! c := mul A k m in
    add A x c
  else panic.

(** The two elements have the same remainder. *)
Definition same_residue (m x y : E) : M bool := same A (rem A x m) (rem A y m).

Variables (p : Prop) (mem : E -> Prop).
Local Notation holds := (holds p).

(** [mn] stands for the product of [m] and [n]. *)
Record chinese_laws (m n mn : E) : Prop := {
  (* it solves both congruences *)
  ch_left : forall x y, mem x -> mem y ->
    holds (let! z := chinese m n x y in same_residue m z x);
  ch_right : forall x y, mem x -> mem y ->
    holds (let! z := chinese m n x y in same_residue n z y);
  (* and the solution is unique modulo the product *)
  ch_unique : forall x y, mem x -> mem y -> holds (agree
    (both (same_residue m x y) (same_residue n x y)) (same_residue mn x y))
}.

(** An element is a unit modulo the product if it is one modulo each factor. *)
Definition chinese_units (m n mn : E) : Prop := forall x, mem x -> holds (agree
  (invertible (QuotientRing cfg A mn) x)
  (both (invertible (QuotientRing cfg A m) x) (invertible (QuotientRing cfg A n) x))).

(** The product divides the least common multiple exactly if the factors are relative primes. *)
Definition chinese_lcm (m n mn : E) : Prop := holds (agree
  (relative_primes A m n) (let! l := lcm A m n in divisible A l mn)).
End Chinese.
