(** * ModSpec.v -- arithmetic modulo an integer, in terms of the standard library's
    integers: the structure [A] computes with the residues 0, ..., k-1 modulo [k].
    With [p := False] the methods do not panic, with [p := True] they may. *)

From Coq Require Import ZArith.
From Verif Require Import Rust Traits.

Local Open Scope Z_scope.

Section ModSpec.
Variables (cfg : Cfg) (p : Prop) (k : Z).

Definition residue_z (x : Z) : Prop := 0 <= x < k.
Definition exactly {T : Type} (c : M T) (v : T) : Prop := ensures p c (fun z => z = v).
(** All of [isize] but its smallest value. *)
Definition usual_isize (n : Z) : Prop :=
  is_isize cfg n = true /\ n <> imin (ptr_bits cfg).

Record residue_ring (A : RingAlg Z) : Prop := {
  rr_contains : forall x, residue_z x -> exactly (contains A x) true;
  rr_equals : forall x y, residue_z x -> residue_z y -> exactly (equals A x y) (x =? y);
  rr_zero : exactly (zero A) 0;
  rr_one : exactly (one A) 1;
  rr_is_zero : forall x, residue_z x -> exactly (is_zero A x) (x =? 0);
  rr_is_one : forall x, residue_z x -> exactly (is_one A x) (x =? 1);
  rr_add : forall x y, residue_z x -> residue_z y -> exactly (add A x y) ((x + y) mod k);
  rr_add_assign : forall x y, residue_z x -> residue_z y ->
    exactly (add_assign A x y) ((x + y) mod k);
  rr_double : forall x, residue_z x -> exactly (double A x) ((2 * x) mod k);
  rr_neg : forall x, residue_z x -> exactly (neg A x) ((- x) mod k);
  rr_neg_assign : forall x, residue_z x -> exactly (neg_assign A x) ((- x) mod k);
  rr_sub : forall x y, residue_z x -> residue_z y -> exactly (sub A x y) ((x - y) mod k);
  rr_sub_assign : forall x y, residue_z x -> residue_z y ->
    exactly (sub_assign A x y) ((x - y) mod k);
  rr_mul : forall x y, residue_z x -> residue_z y -> exactly (mul A x y) ((x * y) mod k);
  rr_mul_assign : forall x y, residue_z x -> residue_z y ->
    exactly (mul_assign A x y) ((x * y) mod k);
  rr_square : forall x, residue_z x -> exactly (square A x) ((x * x) mod k);
  rr_ntimes : forall n x, 0 <= n -> residue_z x -> exactly (ntimes A n x) ((n * x) mod k);
  rr_ztimes : forall n x, usual_isize n -> residue_z x ->
    exactly (ztimes A n x) ((n * x) mod k);
  rr_int : forall n, usual_isize n -> exactly (int A n) (n mod k);
  rr_try_inv : forall x, residue_z x -> ensures p (try_inv A x) (fun o =>
    match o with
    | Some y => residue_z y /\ (x * y) mod k = 1
    | None => forall y, (x * y) mod k <> 1
    end);
  rr_invertible : forall x, residue_z x ->
    ensures p (invertible A x) (fun b => b = true <-> Z.gcd x k = 1)
}.

Record residue_field (A : FieldAlg Z) : Prop := {
  rf_ring : residue_ring A;
  rf_inv : forall x, residue_z x -> x <> 0 ->
    ensures p (finv A x) (fun y => residue_z y /\ (x * y) mod k = 1);
  rf_inv_zero : panics (finv A 0);
  rf_div : forall x y, residue_z x -> residue_z y -> y <> 0 ->
    ensures p (fdiv A x y) (fun z => residue_z z /\ (z * y) mod k = x);
  rf_div_zero : forall x, residue_z x -> panics (fdiv A x 0);
  rf_power : forall n x, 0 <= n -> usual_isize n -> residue_z x -> x <> 0 ->
    exactly (fpower A n x) (x ^ n mod k);
  rf_power_neg : forall n x, n < 0 -> usual_isize n -> residue_z x -> x <> 0 ->
    ensures p (fpower A n x) (fun z => residue_z z /\ (z * x ^ (- n)) mod k = 1)
}.
End ModSpec.
