(** * FracSpec.v -- arithmetic of rational numbers, in terms of the standard
    library's [Q]: the structure [A] computes with the pairs in [mem], the pair
    [(n, d)] denoting [n / d].  With [p := False] the methods do not panic, with
    [p := True] they may. *)

From Coq Require Import ZArith QArith.
From Verif Require Import Rust Traits ModSpec.

Local Open Scope Q_scope.

Definition q_of (z : Z * Z) : Q := fst z # Z.to_pos (snd z).
(** In lowest terms with positive denominator. *)
Definition canonical_pair (z : Z * Z) : Prop :=
  (0 < snd z)%Z /\ Z.gcd (fst z) (snd z) = 1%Z.

Section FracSpec.
Variables (cfg : Cfg) (p : Prop) (mem : Z * Z -> Prop).

Definition gives_q (c : M (Z * Z)) (q : Q) : Prop :=
  ensures p c (fun z => mem z /\ q_of z == q).

Record rational_field (A : FieldAlg (Z * Z)) : Prop := {
  rq_contains : forall x, mem x -> ensures p (contains A x) (fun b => b = true);
  rq_equals : forall x y, mem x -> mem y ->
    ensures p (equals A x y) (fun b => b = true <-> q_of x == q_of y);
  rq_zero : gives_q (zero A) 0;
  rq_one : gives_q (one A) 1;
  rq_is_zero : forall x, mem x -> ensures p (is_zero A x) (fun b => b = true <-> q_of x == 0);
  rq_is_one : forall x, mem x -> ensures p (is_one A x) (fun b => b = true <-> q_of x == 1);
  rq_add : forall x y, mem x -> mem y -> gives_q (add A x y) (q_of x + q_of y);
  rq_add_assign : forall x y, mem x -> mem y -> gives_q (add_assign A x y) (q_of x + q_of y);
  rq_double : forall x, mem x -> gives_q (double A x) (q_of x + q_of x);
  rq_neg : forall x, mem x -> gives_q (neg A x) (- q_of x);
  rq_neg_assign : forall x, mem x -> gives_q (neg_assign A x) (- q_of x);
  rq_sub : forall x y, mem x -> mem y -> gives_q (sub A x y) (q_of x - q_of y);
  rq_sub_assign : forall x y, mem x -> mem y -> gives_q (sub_assign A x y) (q_of x - q_of y);
  rq_mul : forall x y, mem x -> mem y -> gives_q (mul A x y) (q_of x * q_of y);
  rq_mul_assign : forall x y, mem x -> mem y -> gives_q (mul_assign A x y) (q_of x * q_of y);
  rq_square : forall x, mem x -> gives_q (square A x) (q_of x * q_of x);
  rq_ntimes : forall n x, (0 <= n)%Z -> mem x -> gives_q (ntimes A n x) (inject_Z n * q_of x);
  rq_ztimes : forall n x, usual_isize cfg n -> mem x ->
    gives_q (ztimes A n x) (inject_Z n * q_of x);
  rq_int : forall n, usual_isize cfg n -> gives_q (int A n) (inject_Z n);
  rq_try_inv : forall x, mem x -> ensures p (try_inv A x) (fun o =>
    match o with
    | Some y => mem y /\ q_of x * q_of y == 1
    | None => q_of x == 0
    end);
  rq_invertible : forall x, mem x ->
    ensures p (invertible A x) (fun b => b = true <-> ~ q_of x == 0);
  rq_inv : forall x, mem x -> ~ q_of x == 0 -> gives_q (finv A x) (/ q_of x);
  rq_inv_zero : forall x, mem x -> q_of x == 0 -> panics (finv A x);
  rq_div : forall x y, mem x -> mem y -> ~ q_of y == 0 -> gives_q (fdiv A x y) (q_of x / q_of y);
  rq_div_zero : forall x y, mem x -> mem y -> q_of y == 0 -> panics (fdiv A x y);
  rq_power : forall n x, usual_isize cfg n -> mem x -> ~ q_of x == 0 ->
    gives_q (fpower A n x) (q_of x ^ n)
}.
End FracSpec.
