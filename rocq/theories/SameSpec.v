(** * SameSpec.v -- structures whose values correspond.

    Two implementations may store the elements of one algebraic structure differently.
    Their members are related when the values they denote correspond under [phi]. *)

From mathcomp Require Import all_ssreflect all_algebra.
From Verif Require Import Spec PropSpec.

Import GRing.Theory.
Local Open Scope ring_scope.

Set Implicit Arguments.
Unset Strict Implicit.
Unset Printing Implicit Defensive.

Definition transported E1 E2 V1 V2 (rep1 : E1 -> V1 -> Prop) (rep2 : E2 -> V2 -> Prop)
    (phi : V1 -> V2) (x : E1) (y : E2) : Prop := exists2 u, rep1 x u & rep2 y (phi u).

(** Each member of the first structure has exactly one partner, and no two share one. *)
Record pairs_off E1 E2 (mem1 : E1 -> Prop) (mem2 : E2 -> Prop) (R : E1 -> E2 -> Prop) : Prop := {
  po_members : forall x y, R x y -> mem1 x /\ mem2 y;
  po_partner : forall x, mem1 x -> exists y, R x y;
  po_one : forall x y y', R x y -> R x y' -> y = y';
  po_inj : forall x x' y, R x y -> R x' y -> x = x'
}.
(** Each member of the second structure is a partner as well. *)
Definition exhausts E1 E2 (mem2 : E2 -> Prop) (R : E1 -> E2 -> Prop) : Prop :=
  forall y, mem2 y -> exists x, R x y.

(** [phi] maps a monoid one-to-one into another, and elements without an inverse to
    elements without an inverse. *)
Record monoid_embedding (V1 V2 : Type) op1 (e1 : V1) op2 (e2 : V2) (phi : V1 -> V2) : Prop := {
  em_inj : injective phi;
  em_op : forall u v, phi (op1 u v) = op2 (phi u) (phi v);
  em_one : phi e1 = e2;
  em_unit : forall u v, inverse_of op2 e2 (phi u) v -> exists w, inverse_of op1 e1 u w
}.

(** Remainders modulo [m1] and modulo [m2] that are congruent. *)
Definition same_class E1 E2 (R : idomainType) (S1 S2 : eucl_struct R) (rep1 : E1 -> R -> Prop)
    (rep2 : E2 -> R -> Prop) (m1 m2 : R) (x : E1) (y : E2) : Prop :=
  exists a b, [/\ residue_of S1 m1 rep1 x a, residue_of S2 m2 rep2 y b & dvds m1 (a - b)].
