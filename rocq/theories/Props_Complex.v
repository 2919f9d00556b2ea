(** * Props_Complex.v -- complex numbers with float components (C92). *)

From Coq Require Import ZArith Reals SpecFloat.
From mathcomp Require Import all_ssreflect.
From Flocq Require Import Core BinarySingleNaN.
From Verif Require Import Rust Traits MConstr MFloats Spec FloatSpec FloatErrSpec ComplexSpec.
From Verif Require Import FloatAlgSpec PFloat3 PFloatAlg PFloatEx PComplex PComplex2 PComplex3 Refuted.

(** ** C92: floats modulo x^2 + 1 are the complex numbers with rounded components

    QuotientField over PolynomialAlgebra over ApproxFloats with the modulus x^2 + 1. *)

(** Addition rounds the two sums; it panics exactly if one of them overflows.  It leaves no
    superfluous zero. *)
Theorem C92_add : forall (cfg : Cfg) (prec emax : Z)
    (hp : Prec_gt_0 prec) (he : Prec_lt_emax prec emax) (i2 v w : seq (binary_float prec emax))
    (a b c d : R),
  square_plus_one i2 -> complex_is v a b -> complex_is w c d ->
  settled (fits prec emax (a + c) /\ fits prec emax (b + d))
    (add (QuotientField cfg (PolyEucl (ApproxFloats cfg hp he)) i2) v w)
    (fun t => complex_is t (rounded prec emax (a + c)) (rounded prec emax (b + d)) /\
              (trimmed v -> trimmed w -> trimmed t)).
Proof. exact complex_add. Qed.
Print Assumptions C92_add.

(** (3 + 4 i) + (1 + 2 i) *)
Example C92_add_case :
  let C := QuotientField debug64 (PolyEucl (F64 debug64)) i2_64 in
  let v := [:: f64_num 3 0; f64_num 4 0] in
  let w := [:: f64_num 1 0; f64_num 2 0] in
  [/\ square_plus_one i2_64, complex_is v 3 4, complex_is w 1 2 & trimmed v /\ trimmed w] /\
  shows_all (add C v w) [:: S754_finite false 4503599627370496 (-50);
    S754_finite false 6755399441055744 (-50)].
Proof. by split; [exact: three_four|show_all 50%nat]. Qed.

(** Negation is exact and does not panic. *)
Theorem C92_neg : forall (cfg : Cfg) (prec emax : Z)
    (hp : Prec_gt_0 prec) (he : Prec_lt_emax prec emax) (i2 v : seq (binary_float prec emax))
    (a b : R),
  square_plus_one i2 -> complex_is v a b ->
  settled True (neg (QuotientField cfg (PolyEucl (ApproxFloats cfg hp he)) i2) v)
    (fun t => complex_is t (- a) (- b) /\ (trimmed v -> trimmed t)).
Proof. exact complex_neg. Qed.
Print Assumptions C92_neg.

Example C92_neg_case :
  let C := QuotientField debug64 (PolyEucl (F64 debug64)) i2_64 in
  let v := [:: f64_num 3 0; f64_num 4 0] in
  (square_plus_one i2_64 /\ complex_is v 3 4 /\ trimmed v) /\
  shows_all (neg C v) [:: S754_finite true 6755399441055744 (-51);
    S754_finite true 4503599627370496 (-50)].
Proof. by split; [have [h1 h2 _ [h3 _]] := three_four|show_all 50%nat]. Qed.

(** Subtraction rounds the two differences; it panics exactly if one of them overflows. *)
Theorem C92_sub : forall (cfg : Cfg) (prec emax : Z)
    (hp : Prec_gt_0 prec) (he : Prec_lt_emax prec emax) (i2 v w : seq (binary_float prec emax))
    (a b c d : R),
  square_plus_one i2 -> complex_is v a b -> complex_is w c d ->
  settled (fits prec emax (a - c) /\ fits prec emax (b - d))
    (sub (QuotientField cfg (PolyEucl (ApproxFloats cfg hp he)) i2) v w)
    (fun t => complex_is t (rounded prec emax (a - c)) (rounded prec emax (b - d)) /\
              (trimmed v -> trimmed w -> trimmed t)).
Proof. exact complex_sub. Qed.
Print Assumptions C92_sub.

(** (3 + 4 i) - (1 + 2 i) *)
Example C92_sub_case :
  let C := QuotientField debug64 (PolyEucl (F64 debug64)) i2_64 in
  let v := [:: f64_num 3 0; f64_num 4 0] in
  let w := [:: f64_num 1 0; f64_num 2 0] in
  [/\ square_plus_one i2_64, complex_is v 3 4, complex_is w 1 2 & trimmed v /\ trimmed w] /\
  shows_all (sub C v w) [:: S754_finite false 4503599627370496 (-51);
    S754_finite false 4503599627370496 (-51)].
Proof. by split; [exact: three_four|show_all 50%nat]. Qed.

(** Multiplication rounds the four products, then the difference and the sum; it panics
    exactly if one of these six overflows.  The product of two numbers that are not real has
    no superfluous zero. *)
Theorem C92_mul : forall (cfg : Cfg) (prec emax : Z)
    (hp : Prec_gt_0 prec) (he : Prec_lt_emax prec emax) (i2 v w : seq (binary_float prec emax))
    (a b c d : R),
  square_plus_one i2 -> complex_is v a b -> complex_is w c d ->
  settled (product_fits prec emax a b c d)
    (mul (QuotientField cfg (PolyEucl (ApproxFloats cfg hp he)) i2) v w)
    (fun t => complex_is t (product_re prec emax a b c d) (product_im prec emax a b c d) /\
              (size v = 2 -> size w = 2 -> trimmed t)).
Proof. exact complex_mul. Qed.
Print Assumptions C92_mul.

(** (3 + 4 i) (1 + 2 i) = -5 + 10 i; the product of 2^600 and 2^600 i overflows. *)
Example C92_mul_case :
  let C := QuotientField debug64 (PolyEucl (F64 debug64)) i2_64 in
  let v := [:: f64_num 3 0; f64_num 4 0] in
  let w := [:: f64_num 1 0; f64_num 2 0] in
  [/\ square_plus_one i2_64, complex_is v 3 4, complex_is w 1 2 & trimmed v /\ trimmed w] /\
  (shows_all (mul C v w) [:: S754_finite true 5629499534213120 (-50);
     S754_finite false 5629499534213120 (-49)] /\
   panics (mul C [:: f64_num 1 600] [:: f64_num 0 0; f64_num 1 600])).
Proof. by split; [exact: three_four|split; [show_all 50%nat|run 50%nat]]. Qed.

(** The errors of the two components of a product. *)
Theorem C92_mul_error : forall (prec emax : Z) (hp : Prec_gt_0 prec) (a b c d : R),
  let u := unit_error prec in
  let eta := tiny_error prec emax in
  (Rabs (product_re prec emax a b c d - (a * c - b * d)) <=
     ((1 + u) ^ 2 - 1) * (Rabs (a * c) + Rabs (b * d)) + 2 * (1 + u) * eta)%R /\
  (Rabs (product_im prec emax a b c d - (a * d + b * c)) <=
     ((1 + u) ^ 2 - 1) * (Rabs (a * d) + Rabs (b * c)) + 2 * (1 + u) * eta)%R.
Proof. exact product_error. Qed.
Print Assumptions C92_mul_error.

(** Both are small relative to the absolute value of the product. *)
Theorem C92_mul_norm : forall (prec emax : Z) (hp : Prec_gt_0 prec) (a b c d : R),
  let u := unit_error prec in
  let eta := tiny_error prec emax in
  let N := sqrt ((a * a + b * b) * (c * c + d * d)) in
  let E := (((1 + u) ^ 2 - 1) * N + 2 * (1 + u) * eta)%R in
  (Rabs (product_re prec emax a b c d - (a * c - b * d)) <= E)%R /\
  (Rabs (product_im prec emax a b c d - (a * d + b * c)) <= E)%R.
Proof. exact product_norm. Qed.
Print Assumptions C92_mul_norm.

(** Products of Gaussian integers that are not too large are exact. *)
Theorem C92_gaussian : forall (cfg : Cfg) (prec emax : Z)
    (hp : Prec_gt_0 prec) (he : Prec_lt_emax prec emax) (i2 v w : seq (binary_float prec emax))
    (a b c d : Z),
  square_plus_one i2 -> complex_is v (IZR a) (IZR b) -> complex_is w (IZR c) (IZR d) ->
  (Z.abs (a * c) + Z.abs (b * d) <= 2 ^ prec)%Z ->
  (Z.abs (a * d) + Z.abs (b * c) <= 2 ^ prec)%Z ->
  exists2 t, returns (mul (QuotientField cfg (PolyEucl (ApproxFloats cfg hp he)) i2) v w) t &
    complex_is t (IZR (a * c - b * d)) (IZR (a * d + b * c)).
Proof. exact gaussian. Qed.
Print Assumptions C92_gaussian.

Example C92_gaussian_case :
  [/\ square_plus_one i2_64, complex_is [:: f64_num 3 0; f64_num 4 0] 3 4,
      complex_is [:: f64_num 1 0; f64_num 2 0] 1 2 &
      (Z.abs (3 * 1) + Z.abs (4 * 2) <= 2 ^ 53)%Z /\
      (Z.abs (3 * 2) + Z.abs (4 * 1) <= 2 ^ 53)%Z].
Proof. by have [h1 h2 h3 _] := three_four. Qed.

(** The inverse of a number that is not real: the roundings of the extended Euclidean
    algorithm, which panics exactly if one of the first five overflows. *)
Theorem C92_inv : forall (cfg : Cfg) (prec emax : Z)
    (hp : Prec_gt_0 prec) (he : Prec_lt_emax prec emax) (i2 v : seq (binary_float prec emax))
    (a b : R),
  square_plus_one i2 -> complex_is v a b -> b <> 0%R ->
  settled (inverse_fits prec emax a b)
    (finv (QuotientField cfg (PolyEucl (ApproxFloats cfg hp he)) i2) v)
    (fun t => complex_is t (inverse_re prec emax a b) (inverse_im prec emax a b)).
Proof. exact complex_inv. Qed.
Print Assumptions C92_inv.

(** 1 / (1 + i); 1 / (3 + 4 i) = 0.12 - 0.16 i; 1 / (1 + 2^-600 i), which is near 1, but an
    intermediate result overflows. *)
Example C92_inv_case :
  let C := QuotientField debug64 (PolyEucl (F64 debug64)) i2_64 in
  [/\ square_plus_one i2_64, complex_is [:: f64_num 1 0; f64_num 1 0] 1 1, 1%R <> 0%R &
      inverse_fits 53 1024 1 1] /\
  [/\ shows_all (finv C [:: f64_num 1 0; f64_num 1 0])
        [:: S754_finite false 4503599627370496 (-53); S754_finite true 4503599627370496 (-53)],
      shows_all (finv C [:: f64_num 3 0; f64_num 4 0])
        [:: S754_finite false 8646911284551352 (-56); S754_finite true 5764607523034235 (-55)] &
      panics (finv C [:: f64_num 1 0; f64_num 1 (-600)])].
Proof.
split; first by have [h1 h2 _ h3] := one_one; split=> //; exact: R1_neq_R0.
by split; [show_all 50%nat|show_all 50%nat|run 50%nat].
Qed.

(** Unless a result is subnormal, both components of the inverse have small relative errors. *)
Theorem C92_inv_error : forall (prec emax : Z) (hp : Prec_gt_0 prec)
    (he : Prec_lt_emax prec emax) (a b : R),
  b <> 0%R -> inverse_normal prec emax a b ->
  after_roundings2 prec 5 5 (a / (a * a + b * b)) (inverse_re prec emax a b) /\
  after_roundings2 prec 3 5 (- b / (a * a + b * b)) (inverse_im prec emax a b).
Proof. exact (complex_inv_error debug64). Qed.
Print Assumptions C92_inv_error.

Example C92_inv_error_case : 1%R <> 0%R /\ inverse_normal 53 1024 1 1.
Proof. by split; [exact: R1_neq_R0|have [] := one_one]. Qed.

(** Division multiplies by the inverse. *)
Theorem C92_div : forall (cfg : Cfg) (prec emax : Z)
    (hp : Prec_gt_0 prec) (he : Prec_lt_emax prec emax) (i2 v w : seq (binary_float prec emax))
    (a b c d : R),
  square_plus_one i2 -> complex_is v a b -> complex_is w c d -> d <> 0%R ->
  let re := inverse_re prec emax c d in
  let im := inverse_im prec emax c d in
  settled (inverse_fits prec emax c d /\ product_fits prec emax a b re im)
    (fdiv (QuotientField cfg (PolyEucl (ApproxFloats cfg hp he)) i2) v w)
    (fun t => complex_is t (product_re prec emax a b re im) (product_im prec emax a b re im)).
Proof. exact complex_div. Qed.
Print Assumptions C92_div.

(** (3 + 4 i) / (1 + i) = 3.5 + 0.5 i *)
Example C92_div_case :
  let C := QuotientField debug64 (PolyEucl (F64 debug64)) i2_64 in
  let v := [:: f64_num 3 0; f64_num 4 0] in
  let w := [:: f64_num 1 0; f64_num 1 0] in
  [/\ square_plus_one i2_64, complex_is v 3 4, complex_is w 1 1 & 1%R <> 0%R] /\
  shows_all (fdiv C v w)
    [:: S754_finite false 7881299347898368 (-51); S754_finite false 4503599627370496 (-53)].
Proof.
split; last by show_all 50%nat.
by have [h1 h2 _ _] := three_four; have [_ h3 _ _] := one_one; split=> //; exact: R1_neq_R0.
Qed.

(** The inverse of a real number, of zero, and of a list with a superfluous zero. *)
Theorem C92_inv_real : forall (cfg : Cfg) (prec emax : Z)
    (hp : Prec_gt_0 prec) (he : Prec_lt_emax prec emax) (i2 : seq (binary_float prec emax)),
  square_plus_one i2 ->
  let C := QuotientField cfg (PolyEucl (ApproxFloats cfg hp he)) i2 in
  [/\ forall x a, float_is x a -> a <> 0%R ->
        settled (fits prec emax (/ a)) (finv C [:: x])
          (fun t => complex_is t (rounded prec emax (/ a)) 0),
      panics (finv C [::]) &
      forall x y a, float_is x a -> float_is y 0 -> panics (finv C [:: x; y])].
Proof. exact complex_inv_real. Qed.
Print Assumptions C92_inv_real.

Example C92_inv_real_case :
  let C := QuotientField debug64 (PolyEucl (F64 debug64)) i2_64 in
  [/\ square_plus_one i2_64, float_is (f64_num 2 0) 2, float_is (f64_num 0 0) 0 &
      shows_all (finv C [:: f64_num 2 0]) [:: S754_finite false 4503599627370496 (-53)]].
Proof.
by split; [have [h _ _ _] := three_four|exact: int_is|exact: int_is|show_all 50%nat].
Qed.

(** Hence products may be contained and nonzero without having an inverse: 2^-1000 times
    1 + 2^-1000 i is 2^-1000 with a superfluous zero, since the imaginary part underflows;
    its inverse 2^1000 would be a float, and [inv] of the shorter list returns it. *)
Theorem C92_inverse_refuted :
  let C := QuotientField debug64 (PolyEucl (F64 debug64)) i2_64 in
  let x := f64_num 1 (-1000) in
  let v := [:: x] in
  let w := [:: f64_num 1 0; x] in
  let p := [:: x; f64_num 0 0] in
  [/\ returns (contains C v) true, returns (contains C w) true, returns (mul C v w) p &
      returns (contains C p) true] /\
  [/\ returns (is_zero C p) false, returns (invertible C p) true, panics (finv C p) &
      shows_all (finv C v) [:: S754_finite false 4503599627370496 948]].
Proof. exact no_inverse. Qed.
Print Assumptions C92_inverse_refuted.
