(** * PJordanEx.v -- examples of Gauss-Jordan eliminations in rounded arithmetic. *)

From Coq Require Import ZArith Reals Lra Lia.
From mathcomp Require Import all_ssreflect.
From Flocq Require Import Core BinarySingleNaN.
From Verif Require Import Rust Traits MConstr MFloats FloatSpec FloatErrSpec LuSpec JordanSpec.
From Verif Require Import PFloat PFloat3 PFloat4 PLu PLu2 PLuEx PJordan PJordan2.

Set Implicit Arguments.
Unset Strict Implicit.
Unset Printing Implicit Defensive.

(** Matrices of two rows and four columns of small integers after each step *)
Definition trace4 (m : seq (seq Z)) (t i j : nat) : R :=
  IZR (nth Z0 (nth [::] m t) (i * 4 + j)).
(** (1 2; 2 5) and the identity matrix, after one step and one more: the inverse is
    (5 -2; -2 1) *)
Definition inverted : nat -> nat -> nat -> R :=
  trace4 [:: [:: 1; 2; 1; 0; 2; 5; 0; 1]; [:: 1; 2; 1; 0; 0; 1; -2; 1];
             [:: 1; 0; 5; -2; 0; 1; -2; 1]]%Z.
(** (1 2; 2 4) and the identity matrix, after one step *)
Definition not_inverted : nat -> nat -> nat -> R :=
  trace4 [:: [:: 1; 2; 1; 0; 2; 4; 0; 1]; [:: 1; 2; 1; 0; 0; 0; -2; 1]]%Z.

Local Notation rnd := (rounded 53 1024).

Lemma scaled z : (Z.abs z < 2 ^ 53)%Z -> rnd (IZR z * rnd (/ 1)) = IZR z.
Proof. by move=> h; rewrite rnd_inv1 (@rnd_mul z 1) Z.mul_1_r. Qed.
Lemma cleared a b c : (Z.abs (b * - c) < 2 ^ 53)%Z -> (Z.abs (a + b * - c) < 2 ^ 53)%Z ->
  rnd (IZR a + rnd (IZR b * - IZR c)) = IZR (a + b * - c).
Proof. by move=> h1 h2; rewrite -(opp_IZR c) rnd_mul // rnd_add. Qed.

Lemma inverted_steps : jordan 53 1024 2 2 inverted.
Proof.
split.
- by case=> [|[|t]] // _; rewrite /inverted /trace4 /=; lra.
- by case=> [|[|t]] // _; exact: bounded.
- by case=> [|[|t]] [|[|[|[|j]]]] // _ _; rewrite /inverted /trace4 /= scaled.
- by case=> [|[|t]] [|[|i]] [|[|[|[|j]]]] // _ _ _ _; rewrite /inverted /trace4 /= cleared.
Qed.

Lemma not_inverted_steps : jordan 53 1024 2 1 not_inverted /\
  forall i, 1 <= i < 2 -> not_inverted 1 i 1 = 0%R.
Proof.
split; last by case=> [|[|t]].
split.
- by case=> [|t] // _; rewrite /not_inverted /trace4 /=; lra.
- by case=> [|t] // _; exact: bounded.
- by case=> [|t] [|[|[|[|j]]]] // _ _; rewrite /not_inverted /trace4 /= scaled.
- by case=> [|t] [|[|i]] [|[|[|[|j]]]] // _ _ _ _; rewrite /not_inverted /trace4 /= cleared.
Qed.

(** Everything at once *)
Section Code.
Variables (cfg : Cfg) (prec emax : Z).
Context (prec_gt_0 : Prec_gt_0 prec) (prec_lt_emax : Prec_lt_emax prec emax).
Local Notation A := (ApproxFloats cfg prec_gt_0 prec_lt_emax).
Local Notation d := (B754_zero false : binary_float prec emax).

Lemma jd_residual n v : (3 <= prec)%Z -> size v = n * n -> (forall k, k < n * n -> finite (nth d v k)) ->
  ensures True (try_inv (MatrixRing cfg A n) v) (fun o => forall w, o = Some w ->
    [/\ size w = n * n, forall k, k < n * n -> finite (nth d w k) &
     exists s W, [/\ permutes n s, jordan prec emax n n W,
      forall i j, i < n -> j < n -> W 0 i j = B2R (nth d v (s i * n + j)) /\
                                    W 0 i (n + j) = (if s i == j then 1 else 0)%R &
      forall i j, i < n -> j < n ->
       (Rabs (total_of n (fun t => B2R (nth d v (s i * n + t)) * B2R (nth d w (t * n + j)))
             - (if s i == j then 1 else 0)) <=
        residual_error prec emax n W (fun a b => B2R (nth d w (a * n + b))) i j)%R]]).
Proof.
move=> p3 sv fv; apply: Wp.ensures_mono (@jd_try_inv cfg _ _ _ _ n v sv fv) _.
move=> o [k [s [W [kn [ps sW] jW hW]]]] w ow; rewrite ow in hW; case: hW => kE [sw hw].
rewrite kE in jW; split=> //.
  move=> m ml; have n0 : 0 < n by rewrite lt0n; apply: contraTneq ml => ->.
  rewrite (divn_eq m n); have h1 : m %/ n < n by rewrite ltn_divLR.
  have h2 : m %% n < n by rewrite ltn_pmod.
  by have [] := hw _ _ h1 h2.
exists s, W; split=> // i j ilt jlt; have [w0 w1] := sW i j ilt jlt; rewrite -w1.
have hX a b : a < n -> b < n -> W n a (n + b) = B2R (nth d w (a * n + b)).
  by move=> alt blt; have [_ ->] := hw a b alt blt.
have := residual_near prec_gt_0 p3 jW hX ilt jlt.
rewrite (_ : total_of n _ = total_of n (fun t => W 0%nat i t * B2R (nth d w (t * n + j)))%R) //.
by apply: total_ext => t tn; have [-> _] := sW i t ilt tn.
Qed.
End Code.
