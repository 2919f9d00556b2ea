(** * FiniteSpec.v -- a copy of a field of the mathematical library inside a structure of
    the crate: [code u] is the value standing for the element [u]. *)

From mathcomp Require Import all_ssreflect all_algebra.
From Verif Require Import Rust Traits.

Set Implicit Arguments.
Unset Strict Implicit.
Unset Printing Implicit Defensive.

Import GRing.Theory.
Local Open Scope ring_scope.

Record field_code (K : fieldType) (E : Type) (A : FieldAlg E) (code : K -> E) : Prop := {
  fc_inj : injective code;
  fc_contains : forall u, returns (contains A (code u)) true;
  fc_equals : forall u v, returns (equals A (code u) (code v)) (u == v);
  fc_zero : returns (zero A) (code 0);
  fc_one : returns (one A) (code 1);
  fc_is_zero : forall u, returns (is_zero A (code u)) (u == 0);
  fc_is_one : forall u, returns (is_one A (code u)) (u == 1);
  fc_add : forall u v, returns (add A (code u) (code v)) (code (u + v));
  fc_neg : forall u, returns (neg A (code u)) (code (- u));
  fc_sub : forall u v, returns (sub A (code u) (code v)) (code (u - v));
  fc_mul : forall u v, returns (mul A (code u) (code v)) (code (u * v));
  fc_inv : forall u, u != 0 -> returns (finv A (code u)) (code u^-1);
  fc_inv_zero : panics (finv A (code 0));
  fc_div : forall u v, v != 0 -> returns (fdiv A (code u) (code v)) (code (u / v));
  fc_div_zero : forall u, panics (fdiv A (code u) (code 0))
}.

(** A copy of a finite Boolean algebra of the mathematical library ([finCDistrLatticeType]:
    a finite complemented distributive lattice with bounds): every member stands for an
    element. *)
Record boolean_code (disp : unit) (B : finCDistrLatticeType disp) (E : Type)
    (A : BooleanAlg E) (code : B -> E) : Prop := {
  bc_inj : injective code;
  bc_members : forall x, returns (contains A x) true <-> exists u, code u = x;
  bc_equals : forall u v, returns (equals A (code u) (code v)) (u == v);
  bc_max : returns (omax A) (code 1%O);
  bc_min : returns (omin A) (code 0%O);
  bc_leq : forall u v, returns (leq A (code u) (code v)) (u <= v)%O;
  bc_less_than : forall u v, returns (less_than A (code u) (code v)) (u < v)%O;
  bc_comparable : forall u v, returns (comparable A (code u) (code v)) (u >=< v)%O;
  bc_meet : forall u v, returns (meet A (code u) (code v)) (code (Order.meet u v));
  bc_join : forall u v, returns (join A (code u) (code v)) (code (Order.join u v));
  bc_not : forall u, returns (bnot A (code u)) (code (Order.compl u))
}.
