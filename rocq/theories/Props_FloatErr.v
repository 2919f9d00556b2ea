(** * Props_FloatErr.v -- errors of products, multiples and powers over floats (C74). *)

From Coq Require Import ZArith Reals SpecFloat.
From mathcomp Require Import all_ssreflect.
From Flocq Require Import Core BinarySingleNaN.
From Verif Require Import Rust Traits MConstr MFloats Spec FloatSpec FloatErrSpec SumSpec FloatAlgSpec.
From Verif Require Import PFloat3 PFloatAlg PFloatErr PFloatPow PFloatEx Refuted.

(** ** C74: how far computed products, multiples and powers are from the true ones *)

(** Matrices: every entry has the error of one sum of [n] products, and the product panics
    only if some sum is too large. *)
Theorem C74_matrices : forall (cfg : Cfg) (prec emax : Z)
    (hp : Prec_gt_0 prec) (he : Prec_lt_emax prec emax) (n : nat)
    (v u : seq (binary_float prec emax)),
  let d := B754_zero false in
  size v = n * n -> size u = n * n ->
  (forall k, k < n * n -> finite (nth d v k)) -> (forall k, k < n * n -> finite (nth d u k)) ->
  ensures (exists i j, [/\ i < n, j < n & too_large (row_column d n v u i j)])
    (mul (MatrixRing cfg (ApproxFloats cfg hp he) n) v u)
    (fun w => size w = n * n /\ forall i j, i < n -> j < n ->
       near_total (row_column d n v u i j) (nth d w (i * n + j))).
Proof. exact matrix_near. Qed.
Print Assumptions C74_matrices.

(** (0.1 0.2; 0.3 0.4) (0.5 0.6; 0.7 0.8): the true entries 0.19, 0.22, 0.43 and 0.5 are
    not met by all. *)
Example C74_matrices_case :
  (size (take 4 tenths) = 2 * 2 /\ size (drop 4 tenths) = 2 * 2 /\
   (forall k, k < 2 * 2 -> finite (nth (B754_zero false) (take 4 tenths) k)) /\
   (forall k, k < 2 * 2 -> finite (nth (B754_zero false) (drop 4 tenths) k))) /\
  shows_all (mul (MatrixRing debug64 (F64 debug64) 2) (take 4 tenths) (drop 4 tenths))
    [:: S754_finite false 6845471433603154 (-55); S754_finite false 7926335344172074 (-55);
        S754_finite false 7746191359077252 (-54); S754_finite false 4503599627370496 (-53)].
Proof.
split; last by show_all 20%nat.
by do 2 split=> //; split=> k hk; [rewrite nth_take //|rewrite nth_drop]; apply: tenths_finite;
  case: k hk => [|[|[|[|k]]]].
Qed.

(** Polynomials: every coefficient of a product *)
Theorem C74_polynomials : forall (cfg : Cfg) (prec emax : Z)
    (hp : Prec_gt_0 prec) (he : Prec_lt_emax prec emax) (v u : seq (binary_float prec emax)),
  let d := B754_zero false in
  (forall k, k < size v -> finite (nth d v k)) -> (forall k, k < size u -> finite (nth d u k)) ->
  ensures (exists2 k, k < (size v + size u).-1 & too_large (convolution d v u k))
    (mul (PolyRing (ApproxFloats cfg hp he)) v u)
    (fun w => size w = (if (size v == 0) || (size u == 0) then 0 else (size v + size u).-1) /\
       forall k, k < size w -> near_total (convolution d v u k) (nth d w k)).
Proof. exact poly_near. Qed.
Print Assumptions C74_polynomials.

(** (0.1 + 0.2 x) (0.5 + 0.6 x) *)
Example C74_polynomials_case :
  ((forall k, k < 2 -> finite (nth (B754_zero false) (take 2 tenths) k)) /\
   (forall k, k < 2 -> finite (nth (B754_zero false) (take 2 (drop 4 tenths)) k))) /\
  shows_all (mul (PolyRing (F64 debug64)) (take 2 tenths) (take 2 (drop 4 tenths)))
    [:: S754_finite false 7205759403792794 (-57); S754_finite false 5764607523034235 (-55);
        S754_finite false 8646911284551352 (-56)].
Proof.
split; last by show_all 20%nat.
by split; case=> [|[|k]].
Qed.

(** Products of integers (or of integer multiples of powers of two) are exact as long as
    the sums of the absolute values are at most 2^[prec] (times that power). *)
Theorem C74_matrices_exact : forall (cfg : Cfg) (prec emax : Z)
    (hp : Prec_gt_0 prec) (he : Prec_lt_emax prec emax) (n : nat) (e f : Z),
  (3 - emax - prec <= e + f)%Z ->
  forall v u : seq (binary_float prec emax),
  let d := B754_zero false in
  size v = n * n -> size u = n * n ->
  (forall k, k < n * n -> scaled e (nth d v k)) -> (forall k, k < n * n -> scaled f (nth d u k)) ->
  (forall i j, i < n -> j < n -> exact_sum (e + f) (row_column d n v u i j)) ->
  ensures False (mul (MatrixRing cfg (ApproxFloats cfg hp he) n) v u)
    (fun w => size w = n * n /\ forall i j, i < n -> j < n ->
       float_is (nth d w (i * n + j)) (total (row_column d n v u i j))).
Proof. exact matrix_exact. Qed.
Print Assumptions C74_matrices_exact.

(** The square of (3 -5; 7 11) is (-26 -70; 98 86). *)
Example C74_matrices_exact_case :
  ((3 - 1024 - 53 <= 0 + 0)%Z /\ size ints = 2 * 2 /\
   (forall k, k < 2 * 2 -> scaled 0 (nth (B754_zero false) ints k)) /\
   (forall i j, i < 2 -> j < 2 ->
      exact_sum (0 + 0) (row_column (B754_zero false) 2 ints ints i j))) /\
  shows_all (mul (MatrixRing debug64 (F64 debug64) 2) ints ints)
    [:: B2SF (f64_num (-26) 0); B2SF (f64_num (-70) 0); B2SF (f64_num 98 0); B2SF (f64_num 86 0)].
Proof.
split; last by show_all 20%nat.
by do 2 split=> //; split; [exact: ints_scaled|exact: ints_rows].
Qed.

Theorem C74_polynomials_exact : forall (cfg : Cfg) (prec emax : Z)
    (hp : Prec_gt_0 prec) (he : Prec_lt_emax prec emax) (e f : Z),
  (3 - emax - prec <= e + f)%Z ->
  forall v u : seq (binary_float prec emax),
  let d := B754_zero false in
  (forall k, k < size v -> scaled e (nth d v k)) -> (forall k, k < size u -> scaled f (nth d u k)) ->
  (forall k, k < (size v + size u).-1 -> exact_sum (e + f) (convolution d v u k)) ->
  ensures False (mul (PolyRing (ApproxFloats cfg hp he)) v u)
    (fun w => size w = (if (size v == 0) || (size u == 0) then 0 else (size v + size u).-1) /\
       forall k, k < size w -> float_is (nth d w k) (total (convolution d v u k))).
Proof. exact poly_exact. Qed.
Print Assumptions C74_polynomials_exact.

(** (3 - 5 x) (7 + 11 x) = 21 - 2 x - 55 x^2 *)
Example C74_polynomials_exact_case :
  ((forall k, k < 2 -> scaled 0 (nth (B754_zero false) (take 2 ints) k)) /\
   (forall k, k < 2 -> scaled 0 (nth (B754_zero false) (drop 2 ints) k)) /\
   (forall k, k < (2 + 2).-1 ->
      exact_sum (0 + 0) (convolution (B754_zero false) (take 2 ints) (drop 2 ints) k))) /\
  shows_all (mul (PolyRing (F64 debug64)) (take 2 ints) (drop 2 ints))
    [:: B2SF (f64_num 21 0); B2SF (f64_num (-2) 0); B2SF (f64_num (-55) 0)].
Proof.
split; last by show_all 20%nat.
split; first by move=> k hk; rewrite nth_take //; apply: ints_scaled; apply: leq_trans hk _.
by split; [move=> k hk; rewrite nth_drop; apply: ints_scaled; rewrite (ltn_add2l 2 k 2)|exact: ints_conv].
Qed.

(** Multiples by repeated addition: the computed multiple has at most log2 [n] rounding
    errors. *)
Theorem C74_times : forall (cfg : Cfg) (prec emax : Z)
    (hp : Prec_gt_0 prec) (he : Prec_lt_emax prec emax)
    (x : binary_float prec emax) (a : R) (n : Z),
  float_is x a -> (0 <= n)%Z ->
  ensures (bpow radix2 emax <= 2 * IZR n * (Rabs a * (1 + unit_error prec) ^ Z.to_nat (Z.log2 n)))%R
    (ntimes (ApproxFloats cfg hp he) n x)
    (fun y => exists2 r, float_is y r & after_roundings prec (Z.to_nat (Z.log2 n)) (IZR n * a) r).
Proof. exact times_near. Qed.
Print Assumptions C74_times.

(** Seven times 0.1 is 0.7000000000000001, which is not the float nearest to 0.7. *)
Example C74_times_case :
  finite tenth /\ shows (ntimes (F64 debug64) 7 tenth) (S754_finite false 6305039478318695 (-53)) /\
  B2SF (nth (B754_zero false) tenths 6) = S754_finite false 6305039478318694 (-53).
Proof. by split; last split; [|show 20%nat|vm_compute]. Qed.

Theorem C74_times_exact : forall (cfg : Cfg) (prec emax : Z)
    (hp : Prec_gt_0 prec) (he : Prec_lt_emax prec emax)
    (x : binary_float prec emax) (z e n : Z),
  let a := (IZR z * bpow radix2 e)%R in
  float_is x a -> (0 <= n)%Z -> (n * Z.abs z <= 2 ^ prec)%Z -> (3 - emax - prec <= e)%Z ->
  ensures (bpow radix2 emax <= 2 * IZR n * Rabs a)%R
    (ntimes (ApproxFloats cfg hp he) n x) (fun y => float_is y (IZR n * a)).
Proof. exact times_exact. Qed.
Print Assumptions C74_times_exact.

(** 1000 times -5 *)
Example C74_times_exact_case :
  float_is (nth (B754_zero false) ints 1) (IZR (-5) * bpow radix2 0) /\
  (1000 * Z.abs (-5) <= 2 ^ 53)%Z /\
  shows (ntimes (F64 debug64) 1000 (nth (B754_zero false) ints 1)) (B2SF (f64_num (-5000) 0)).
Proof. by split; last split; [rewrite Rmult_1_r; exact: (@ints_is 1)| |show 20%nat]. Qed.

(** Positive powers: at most [n] - 1 rounding errors, if no power becomes subnormal. The
    loop squares once more than needed, and so panics although the power itself would not
    overflow. *)
Theorem C74_power : forall (cfg : Cfg) (prec emax : Z)
    (hp : Prec_gt_0 prec) (he : Prec_lt_emax prec emax)
    (x : binary_float prec emax) (a : R) (n : Z),
  float_is x a -> (0 < n)%Z ->
  (bpow radix2 (2 - emax) <= (Rabs a * (1 - unit_error prec)) ^ Z.to_nat n)%R ->
  ensures (bpow radix2 emax <= (Rabs a * (1 + unit_error prec)) ^ Z.to_nat (2 * n))%R
    (fpower (ApproxFloats cfg hp he) n x)
    (fun y => exists2 r, float_is y r &
       after_roundings prec (Z.to_nat n).-1 (a ^ Z.to_nat n) r).
Proof. exact power_near. Qed.
Print Assumptions C74_power.

(** 1.1^5 *)
Example C74_power_case :
  (float_is eleven eleven_r /\
   (bpow radix2 (2 - 1024) <= (Rabs eleven_r * (1 - unit_error 53)) ^ Z.to_nat 5)%R) /\
  shows (fpower (F64 debug64) 5 eleven) (S754_finite false 7253092235876460 (-52)).
Proof. by split; [split; [exact: eleven_is|exact: eleven_normal]|show 20%nat]. Qed.

(** Negative powers: the element is inverted first, so that its error is multiplied. *)
Theorem C74_power_negative : forall (cfg : Cfg) (prec emax : Z)
    (hp : Prec_gt_0 prec) (he : Prec_lt_emax prec emax)
    (x : binary_float prec emax) (a : R) (n : Z),
  float_is x a -> a <> 0%R -> (n < 0)%Z -> good_isize cfg n ->
  (bpow radix2 (2 - emax) <= (Rabs (/ a) * (1 - unit_error prec) ^ 2) ^ Z.to_nat (- n))%R ->
  ensures (bpow radix2 emax <= (Rabs (/ a) * (1 + unit_error prec) ^ 2) ^ Z.to_nat (2 * - n))%R
    (fpower (ApproxFloats cfg hp he) n x)
    (fun y => exists2 r, float_is y r &
       after_roundings prec (2 * Z.to_nat (- n)).-1 (/ a ^ Z.to_nat (- n)) r).
Proof. exact power_neg_near. Qed.
Print Assumptions C74_power_negative.

(** 1.1^(-5) *)
Example C74_power_negative_case :
  (float_is eleven eleven_r /\ eleven_r <> 0%R /\ good_isize debug64 (-5) /\
   (bpow radix2 (2 - 1024) <=
      (Rabs (/ eleven_r) * (1 - unit_error 53) ^ 2) ^ Z.to_nat (- -5))%R) /\
  shows (fpower (F64 debug64) (-5) eleven) (S754_finite false 5592762078311212 (-53)).
Proof.
split; last by show 20%nat.
by split; [exact: eleven_is|split; [exact: eleven_nz|split; [|exact: eleven_normal_inv]]].
Qed.

Theorem C74_power_exact : forall (cfg : Cfg) (prec emax : Z)
    (hp : Prec_gt_0 prec) (he : Prec_lt_emax prec emax)
    (x : binary_float prec emax) (z e n : Z),
  let a := (IZR z * bpow radix2 e)%R in
  float_is x a -> (0 < n)%Z -> (Z.abs z ^ n <= 2 ^ prec)%Z -> (3 - emax - prec <= n * e)%Z ->
  ensures (bpow radix2 (emax - 1) <= Rabs a ^ Z.to_nat (2 * n))%R
    (fpower (ApproxFloats cfg hp he) n x) (fun y => float_is y (a ^ Z.to_nat n)).
Proof. exact power_exact. Qed.
Print Assumptions C74_power_exact.

(** (-5)^21, and a power which the loop does not reach although it is a float: 10^160 *)
Example C74_power_exact_case :
  float_is (nth (B754_zero false) ints 1) (IZR (-5) * bpow radix2 0) /\
  (Z.abs (-5) ^ 21 <= 2 ^ 53)%Z /\
  shows (fpower (F64 debug64) 21 (nth (B754_zero false) ints 1)) (B2SF (f64_num (- 5 ^ 21) 0)) /\
  panics (fpower (F64 debug64) 1 (f64_num (10 ^ 160) 0)).
Proof.
split; first by rewrite Rmult_1_r; exact: (@ints_is 1).
split; first by apply/Z.leb_le; vm_compute.
split; [show 20%nat|run 20%nat].
Qed.
