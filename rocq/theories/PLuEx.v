(** * PLuEx.v -- examples of eliminations in rounded arithmetic. *)

From Coq Require Import ZArith Reals Lra Lia.
From mathcomp Require Import all_ssreflect.
From Flocq Require Import Core BinarySingleNaN.
From Verif Require Import FloatSpec FloatErrSpec LuSpec PFloat PFloat3 PFloat4.

Set Implicit Arguments.
Unset Strict Implicit.
Unset Printing Implicit Defensive.

(** Matrices of two rows of small integers after each step *)
Definition trace (m : seq (seq Z)) (t i j : nat) : R :=
  IZR (nth Z0 (nth [::] m t) (i * 2 + j)).
(** (1 2; 3 4), one step and one more *)
Definition regular : nat -> nat -> nat -> R :=
  trace [:: [:: 1; 2; 3; 4]; [:: 1; 2; 0; -2]; [:: 1; 2; 0; 1]]%Z.
(** (1 2; 2 4), one step *)
Definition singular : nat -> nat -> nat -> R := trace [:: [:: 1; 2; 2; 4]; [:: 1; 2; 0; 0]]%Z.

Local Notation rnd := (rounded 53 1024).
Lemma rnd_small z : (Z.abs z < 2 ^ 53)%Z -> rnd (IZR z) = IZR z.
Proof.
move=> h; apply: rnd_gf; apply: generic_format_FLT.
exists (Float radix2 z 0) => //=; first by rewrite /F2R /= Rmult_1_r.
Qed.
Lemma rnd_mul a b : (Z.abs (a * b) < 2 ^ 53)%Z -> rnd (IZR a * IZR b) = IZR (a * b).
Proof. by rewrite -mult_IZR; exact: rnd_small. Qed.
Lemma rnd_add a b : (Z.abs (a + b) < 2 ^ 53)%Z -> rnd (IZR a + IZR b) = IZR (a + b).
Proof. by rewrite -plus_IZR; exact: rnd_small. Qed.
Lemma rnd_inv1 : rnd (/ 1) = 1%R.
Proof. by rewrite Rinv_1; exact: (@rnd_small 1). Qed.

Lemma bounded z : (Z.abs z < 2 ^ 53)%Z -> (Rabs (IZR z) < bpow radix2 1024)%R.
Proof.
move=> h; rewrite -abs_IZR; apply: (Rlt_trans _ (IZR (2 ^ 53))); first exact: IZR_lt.
by rewrite (_ : IZR (2 ^ 53) = bpow radix2 53) //; apply: bpow_lt.
Qed.

Lemma regular_steps : elimination 53 1024 2 2 regular.
Proof.
have r1 : (rnd (2 * rnd (/ 1)) = 2)%R by rewrite rnd_inv1 (@rnd_mul 2 1).
have r2 : (rnd (4 + rnd (2 * Ropp 3)) = -2)%R.
  by rewrite -(opp_IZR 3) (@rnd_mul 2 (-3)) // (@rnd_add 4 (-6)).
split.
- by case=> [|[|t]] // _; rewrite /regular /trace /=; lra.
- by case=> [|[|t]] // _; exact: bounded.
- by case=> [|[|t]] [|[|j]] //.
- case=> [|[|t]] [|[|i]] [|[|j]] // _ _ _; rewrite /regular /trace /=; exact/esym.
Qed.

Lemma singular_steps : elimination 53 1024 2 1 singular /\
  forall i, 1 <= i < 2 -> singular 1 i 1 = 0%R.
Proof.
have r1 : (rnd (2 * rnd (/ 1)) = 2)%R by rewrite rnd_inv1 (@rnd_mul 2 1).
have r2 : (rnd (4 + rnd (2 * Ropp 2)) = 0)%R.
  by rewrite -(opp_IZR 2) (@rnd_mul 2 (-2)) // (@rnd_add 4 (-4)).
split; last by case=> [|[|t]].
split.
- by case=> [|t] // _; rewrite /singular /trace /=; lra.
- by case=> [|t] // _; exact: bounded.
- by case=> [|t] [|[|j]] //.
- case=> [|t] [|[|i]] [|[|j]] // _ _ _; rewrite /singular /trace /=; exact/esym.
Qed.

(** The product of the pivots 1 and -2 *)
Lemma regular_pivots : pivot_product 53 1024 regular 2 = (-2)%R.
Proof. by rewrite /= /regular /trace /= (@rnd_mul 1 1) // (@rnd_mul 1 (-2)). Qed.
