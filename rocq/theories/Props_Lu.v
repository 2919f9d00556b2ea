(** * Props_Lu.v -- how far determinants over floats may be from the true ones (C84). *)

From Coq Require Import ZArith Reals SpecFloat.
From mathcomp Require Import all_ssreflect.
From Flocq Require Import Core BinarySingleNaN.
From Verif Require Import Rust Traits MInts MConstr MFloats Spec FloatSpec FloatErrSpec LuSpec.
From Verif Require Import PFloat3 PFloatEx PLu PLu2 PLuEx Refuted.

(** ** C84: the determinant over floats is that of a nearby matrix *)

(** What is computed: the determinant of a matrix of finite floats panics, or it eliminates
    the matrix [X 0], whose rows are those of the argument in another order, in rounded
    arithmetic; the result is the rounded product of the pivots, or zero if the elimination
    ends with a column of zeros. *)
Theorem C84_determinant : forall (cfg : Cfg) (prec emax : Z)
    (hp : Prec_gt_0 prec) (he : Prec_lt_emax prec emax) (n : nat)
    (v : seq (binary_float prec emax)),
  let d := B754_zero false in
  size v = n * n -> (forall k, k < n * n -> finite (nth d v k)) ->
  ensures True (determinant (ApproxFloats cfg hp he) n v) (fun z => exists k X,
    [/\ k <= n,
        exists s, permutes n s /\
          forall i j, i < n -> j < n -> X 0 i j = B2R (nth d v (s i * n + j)),
        elimination prec emax n k X &
        if k == n then float_is z (pivot_product prec emax X n)
        else float_is z 0 /\ forall i, k <= i < n -> X k i k = 0%R]).
Proof. exact lu_determinant. Qed.
Print Assumptions C84_determinant.

(** (0.1 0.2; 0.3 0.4) *)
Example C84_determinant_case :
  (size (take 4 tenths) = 2 * 2 /\
   (forall k, k < 2 * 2 -> finite (nth (B754_zero false) (take 4 tenths) k))) /\
  shows (determinant (F64 debug64) 2 (take 4 tenths)) (S754_finite true 5764607523034234 (-58)).
Proof.
split; last by show 20%nat.
by split=> // k hk; rewrite nth_take //; apply: tenths_finite; case: k hk => [|[|[|[|k]]]].
Qed.

(** How exact it is: the matrix is near the product of the factors. *)
Theorem C84_factors : forall (prec emax : Z)
    (hp : Prec_gt_0 prec) (n k : nat) (X : nat -> nat -> nat -> R),
  (3 <= prec)%Z -> elimination prec emax n k X ->
  forall i j, i < n -> j < n ->
  (Rabs (X 0%nat i j - factored prec emax X k i j) <= factor_error prec emax X k i j)%R.
Proof. exact factors_near. Qed.
Print Assumptions C84_factors.

(** ... and the product of the pivots is near that of the diagonal of the lower factor; the
    diagonal of the upper factor consists of ones. *)
Theorem C84_pivots : forall (prec emax : Z)
    (hp : Prec_gt_0 prec) (n k : nat) (X : nat -> nat -> nat -> R),
  (3 <= prec)%Z -> elimination prec emax n k X ->
  (Rabs (pivot_product prec emax X k - prod_of k (fun t => lower prec emax X t t)) <=
   product_error prec emax X k)%R.
Proof. exact pivots_near. Qed.
Print Assumptions C84_pivots.

(** If the elimination ends with a column of zeros, then the nearby matrix is singular. *)
Theorem C84_singular : forall (prec emax : Z) (n k : nat) (X : nat -> nat -> nat -> R),
  k < n -> (forall i, k <= i < n -> X k i k = 0%R) ->
  exists z : nat -> R, (exists2 j, j < n & z j <> 0%R) /\
    forall i, i < n -> total_of n (fun j => factored prec emax X k i j * z j)%R = 0%R.
Proof. exact factored_singular. Qed.
Print Assumptions C84_singular.

(** (1 2; 3 4) in two steps with the pivots 1 and -2, (1 2; 2 4) in one step. *)
Example C84_factors_case : elimination 53 1024 2 2 regular.
Proof. exact regular_steps. Qed.
Example C84_pivots_case : elimination 53 1024 2 2 regular /\ pivot_product 53 1024 regular 2 = (-2)%R.
Proof. exact (conj regular_steps regular_pivots). Qed.
Example C84_singular_case : elimination 53 1024 2 1 singular /\
  forall i, 1 <= i < 2 -> singular 1 i 1 = 0%R.
Proof. exact singular_steps. Qed.

(** The factors may be much larger than the matrix, because the first number that is not zero
    becomes the pivot, however small it is.  So the claim that the computed determinant is
    near the true one is false: the determinant of (2^-60 1 1; 1 1 0; 1 0 1) is 2^-60 - 2,
    and the computed one is zero. *)
Theorem C84_near_refuted :
  let o := f64_num 1 0 in
  let z := f64_num 0 0 in
  let Q := QQ debug64 in
  shows (determinant (F64 debug64) 3 [:: f64_num 1 (-60); o; o; o; o; z; o; z; o]) (S754_zero false) /\
  returns (determinant Q 3
      [:: (1, 2 ^ 60); (1, 1); (1, 1); (1, 1); (1, 1); (0, 1); (1, 1); (0, 1); (1, 1)]%Z)
    (1 - 2 ^ 61, 2 ^ 60)%Z.
Proof. by split; [show 20%nat|run 200%nat]. Qed.
Print Assumptions C84_near_refuted.
