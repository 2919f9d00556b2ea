(** * OpsSpec.v -- numbers of calls of the base. *)

From Coq Require Import ZArith.
From mathcomp Require Import all_ssreflect.
From Verif Require Import Rust MOps.

Set Implicit Arguments.
Unset Strict Implicit.
Unset Printing Implicit Defensive.

(** Without the labels the call does the same, for every bound on the iterations. *)
Definition unlabelled A (w : W A) : M A := fun k =>
  match w k with Done x => Done x.1 | Panicked => Panicked | Unfinished => Unfinished end.
Definition records A (w : W A) (m : M A) : Prop := unlabelled w =1 m.

(** How often a label occurs *)
Definition muls (t : seq op) : nat := count (fun o => if o is Mul then true else false) t.
Definition squares (t : seq op) : nat := count (fun o => if o is Square then true else false) t.
Definition adds (t : seq op) : nat := count (fun o => if o is Add then true else false) t.
Definition doubles (t : seq op) : nat := count (fun o => if o is Double then true else false) t.
Definition negs (t : seq op) : nat := count (fun o => if o is Neg then true else false) t.
Definition subs (t : seq op) : nat := count (fun o => if o is Sub then true else false) t.
Definition invs (t : seq op) : nat := count (fun o => if o is Inv then true else false) t.
Definition divs (t : seq op) : nat := count (fun o => if o is Div then true else false) t.
Definition tests (t : seq op) : nat := count (fun o => if o is Test then true else false) t.
Definition consts (t : seq op) : nat := count (fun o => if o is Const then true else false) t.

(** Whenever the call returns [a] after the calls [t], they satisfy [Q]. *)
Definition makes A (w : W A) (Q : A -> seq op -> Prop) : Prop :=
  forall k a t, w k = Done (a, t) -> Q a t.
(** At least [lo] and at most [hi] labels in [p] *)
Definition between (p : op -> bool) (lo hi : nat) A (w : W A) : Prop :=
  makes w (fun _ t => lo <= count p t <= hi).

(** The number of binary digits and of ones among them *)
Fixpoint pos_bits (n : positive) : nat :=
  match n with xO m | xI m => (pos_bits m).+1 | xH => 1 end.
Fixpoint pos_ones (n : positive) : nat :=
  match n with xO m => pos_ones m | xI m => (pos_ones m).+1 | xH => 1 end.
Definition bits (n : Z) : nat := if n is Zpos m then pos_bits m else 0.
Definition ones (n : Z) : nat := if n is Zpos m then pos_ones m else 0.
