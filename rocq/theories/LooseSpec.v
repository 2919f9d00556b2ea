(** * LooseSpec.v -- polynomials with superfluous leading zeros (C76).

    PolynomialAlgebra stores a polynomial as the vector of its coefficients, and the leading
    one has to be non-zero. Here the vectors with further zeros at the end are allowed,
    which are not members. *)

From Coq Require Import ZArith List.
From mathcomp Require Import all_ssreflect all_algebra.
From Verif Require Import Rust Traits Spec RingSpec.

Set Implicit Arguments.
Unset Strict Implicit.
Unset Printing Implicit Defensive.

Import GRing.Theory.
Local Open Scope ring_scope.

Section Loose.
Variables (E : Type) (R : ringType) (rep : E -> R -> Prop).

(** The vector lists the coefficients of the polynomial followed by [n] zeros. *)
Definition padded (n : nat) (v : seq E) (P : {poly R}) : Prop :=
  Forall2 rep v (polyseq P ++ nseq n 0).
(** So for some number of zeros. *)
Definition loose (v : seq E) (P : {poly R}) : Prop := exists n, padded n v P.

(** The methods of a ring: the coefficients are right; some of the methods remove the
    superfluous zeros, the others do not. *)
Record loose_ring (cfg : Cfg) (p : Prop) (B : RingAlg (seq E)) : Prop := {
  lr_add : forall v P u Q, loose v P -> loose u Q ->
    ensures p (add B v u) (fun w =>
      if size v == size u then poly_of rep w (P + Q)
      else size w = maxn (size v) (size u) /\ loose w (P + Q));
  lr_sub : forall v P u Q, loose v P -> loose u Q ->
    ensures p (sub B v u) (fun w =>
      if size v == size u then poly_of rep w (P - Q)
      else size w = maxn (size v) (size u) /\ loose w (P - Q));
  lr_add_assign : forall v u, add_assign B v u = add B v u;
  lr_sub_assign : forall v P u Q, loose v P -> loose u Q ->
    ensures p (sub_assign B v u) (fun w =>
      if size v == size u then poly_of rep w (P - Q)
      else size w = maxn (size v) (size u) /\ loose w (P - Q));
  lr_double : forall v P, loose v P -> ensures p (double B v) (fun w => poly_of rep w (P + P));
  lr_neg : forall n v P, padded n v P -> ensures p (neg B v) (fun w => padded n w (- P));
  lr_mul : forall v P u Q, loose v P -> loose u Q ->
    ensures p (mul B v u) (fun w => loose w (P * Q) /\
      size w = if (size v == 0%N) || (size u == 0%N) then 0%N else (size v + size u - 1)%N);
  lr_square : forall v, square B v = mul B v v;
  lr_ntimes : forall n v P, Z.le 0 n -> loose v P ->
    ensures p (ntimes B n v) (fun w => loose w (P *+ Z.to_nat n));
  lr_ztimes : forall n v P, good_isize cfg n -> loose v P ->
    ensures p (ztimes B n v) (fun w => poly_of rep w
      match n with
      | Z0 => 0 | Zpos k => P *+ Pos.to_nat k | Zneg k => - (P *+ Pos.to_nat k)
      end)
}.

(** The questions: a vector with superfluous zeros is neither zero nor one nor
    invertible nor a member, and equal only to those with as many zeros. *)
Record loose_questions (p : Prop) (B : RingAlg (seq E)) : Prop := {
  lq_contains : forall n v P, padded n v P -> answers p (contains B v) (n == 0%N);
  lq_equals : forall m v P n u Q, padded m v P -> padded n u Q ->
    answers p (equals B v u) ((m == n) && (P == Q));
  lq_is_zero : forall n v P, padded n v P -> answers p (is_zero B v) ((n == 0%N) && (P == 0));
  lq_is_one : forall n v P, padded n v P -> answers p (is_one B v) ((n == 0%N) && (P == 1));
  lq_try_inv : forall n v P, padded n v P -> (0 < n)%N ->
    ensures p (try_inv B v) (fun o => o = None);
  lq_invertible : forall n v P, padded n v P -> (0 < n)%N -> answers p (invertible B v) false
}.
End Loose.
