(** * Props_Jordan.v -- how far inverses of matrices over floats may be from true ones (C86). *)

From Coq Require Import ZArith Reals SpecFloat.
From mathcomp Require Import all_ssreflect.
From Flocq Require Import Core BinarySingleNaN.
From Verif Require Import Rust Traits MInts MConstr MFloats Spec FloatSpec FloatErrSpec LuSpec.
From Verif Require Import FloatAlgSpec JordanSpec PFloat3 PFloatEx PFloatAlg PLu2 PJordan PJordan2 PJordanEx Refuted.

(** ** C86: the residual of inverses over floats *)

(** What is computed: [try_inv] of a matrix of finite floats panics, or it eliminates the
    matrix [W 0], whose rows are those of the argument beside those of the identity matrix
    in the same order, in rounded arithmetic; the result is the right half of the matrix
    after [n] steps, or there is none if a column of zeros remains. *)
Theorem C86_try_inv : forall (cfg : Cfg) (prec emax : Z)
    (hp : Prec_gt_0 prec) (he : Prec_lt_emax prec emax) (n : nat)
    (v : seq (binary_float prec emax)),
  let d := B754_zero false in
  size v = n * n -> (forall k, k < n * n -> finite (nth d v k)) ->
  ensures True (try_inv (MatrixRing cfg (ApproxFloats cfg hp he) n) v) (fun o => exists k s W,
    [/\ k <= n,
        permutes n s /\ (forall i j, i < n -> j < n ->
          W 0 i j = B2R (nth d v (s i * n + j)) /\
          W 0 i (n + j) = if s i == j then 1%R else 0%R),
        jordan prec emax n k W &
        match o with
        | Some w => k = n /\ (size w = n * n /\ forall i j, i < n -> j < n ->
            float_is (nth d w (i * n + j)) (W n i (n + j)))
        | None => k < n /\ forall i, k <= i < n -> W k i k = 0%R
        end]).
Proof. exact jd_try_inv. Qed.
Print Assumptions C86_try_inv.

(** How exact the result is: the product of the matrix and the result is near the identity
    matrix, by a bound that the numbers of the elimination determine. *)
Theorem C86_residual : forall (cfg : Cfg) (prec emax : Z)
    (hp : Prec_gt_0 prec) (he : Prec_lt_emax prec emax) (n : nat)
    (v : seq (binary_float prec emax)),
  let d := B754_zero false in
  (3 <= prec)%Z ->
  size v = n * n -> (forall k, k < n * n -> finite (nth d v k)) ->
  ensures True (try_inv (MatrixRing cfg (ApproxFloats cfg hp he) n) v) (fun o =>
    forall w, o = Some w ->
    [/\ size w = n * n, forall k, k < n * n -> finite (nth d w k) &
     exists s W, [/\ permutes n s, jordan prec emax n n W,
      forall i j, i < n -> j < n ->
        W 0 i j = B2R (nth d v (s i * n + j)) /\ W 0 i (n + j) = (if s i == j then 1 else 0)%R &
      forall i j, i < n -> j < n ->
       (Rabs (total_of n (fun t => B2R (nth d v (s i * n + t)) * B2R (nth d w (t * n + j)))
             - (if s i == j then 1 else 0)) <=
        residual_error prec emax n W (fun a b => B2R (nth d w (a * n + b))) i j)%R]]).
Proof. exact jd_residual. Qed.
Print Assumptions C86_residual.

(** (1 2; 2 5) has the inverse (5 -2; -2 1), and (1 2; 2 4) has none. *)
Example C86_try_inv_case :
  let m := [:: f64_num 1 0; f64_num 2 0; f64_num 2 0; f64_num 5 0] in
  (size m = 2 * 2 /\ forall k, k < 2 * 2 -> finite (nth (B754_zero false) m k)) /\
  shows_some (try_inv (MatrixRing debug64 (F64 debug64) 2) m)
    [:: S754_finite false 5629499534213120 (-50); S754_finite true 4503599627370496 (-51);
        S754_finite true 4503599627370496 (-51); S754_finite false 4503599627370496 (-52)] /\
  returns (try_inv (MatrixRing debug64 (F64 debug64) 2)
    [:: f64_num 1 0; f64_num 2 0; f64_num 2 0; f64_num 4 0]) None.
Proof.
split; last by split; [show_some 20%nat|run 20%nat].
by split=> // -[|[|[|[|k]]]].
Qed.
Example C86_residual_case : (3 <= 53)%Z /\
  (size (take 4 tenths) = 2 * 2 /\
   (forall k, k < 2 * 2 -> finite (nth (B754_zero false) (take 4 tenths) k))).
Proof.
split=> //; split=> // k hk.
by rewrite nth_take //; apply: tenths_finite; case: k hk => [|[|[|[|k]]]].
Qed.

(** The eliminations themselves: [k] exact steps with the same multipliers reduce a matrix
    near the given one to one that begins with [k] columns of the identity matrix. *)
Theorem C86_steps : forall (prec emax : Z)
    (hp : Prec_gt_0 prec) (n k : nat) (W : nat -> nat -> nat -> R),
  (3 <= prec)%Z -> jordan prec emax n k W -> k <= n ->
  forall i j, i < n -> j < n + n ->
  (Rabs (W 0%nat i j - undo_all prec emax W k (after_steps W k j) i) <=
   jordan_error prec emax W k i j)%R.
Proof. exact jordan_near. Qed.
Print Assumptions C86_steps.

(** If the elimination ends with a column of zeros, then this nearby matrix is singular. *)
Theorem C86_singular : forall (prec emax : Z) (n k : nat) (W : nat -> nat -> nat -> R),
  k < n -> (forall i, k <= i < n -> W k i k = 0%R) ->
  exists z : nat -> R, (exists2 j, j < n & z j <> 0%R) /\
    forall i, i < n ->
      total_of n (fun j => z j * undo_all prec emax W k (after_steps W k j) i)%R = 0%R.
Proof. exact (fun prec emax n k W lt => @jordan_singular prec emax n k W (ltnW lt) lt). Qed.
Print Assumptions C86_singular.

Example C86_steps_case : jordan 53 1024 2 2 inverted.
Proof. exact inverted_steps. Qed.
Example C86_singular_case : jordan 53 1024 2 1 not_inverted /\
  forall i, 1 <= i < 2 -> not_inverted 1 i 1 = 0%R.
Proof. exact not_inverted_steps. Qed.

(** The bound need not be small, because the first number that is not zero becomes the
    pivot, however small it is.  So the claim that the result is near the inverse is false:
    the inverse of (2^-60 1; 1 1) begins with -2^60 / (2^60 - 1), which is nearly -1, and the
    computed one with 0. *)
Theorem C86_near_refuted :
  let o := f64_num 1 0 in
  let Q := QQ debug64 in
  shows_some (try_inv (MatrixRing debug64 (F64 debug64) 2) [:: f64_num 1 (-60); o; o; o])
    [:: S754_zero false; S754_finite false 4503599627370496 (-52);
        S754_finite false 4503599627370496 (-52); S754_finite true 4503599627370496 (-112)] /\
  returns (try_inv (MatrixRing debug64 Q 2) [:: (1, 2 ^ 60); (1, 1); (1, 1); (1, 1)]%Z)
    (Some [:: (- 2 ^ 60, 2 ^ 60 - 1); (2 ^ 60, 2 ^ 60 - 1);
              (2 ^ 60, 2 ^ 60 - 1); (- 1, 2 ^ 60 - 1)]%Z).
Proof. by split; [show_some 20%nat|run 200%nat]. Qed.
Print Assumptions C86_near_refuted.
