(** * Props_DivErr.v -- how exact the division of polynomials over floats is (C85). *)

From Coq Require Import ZArith Reals SpecFloat.
From mathcomp Require Import all_ssreflect.
From Flocq Require Import Core BinarySingleNaN.
From Verif Require Import Rust Traits MConstr MFloats Spec FloatSpec FloatErrSpec LuSpec.
From Verif Require Import FloatAlgSpec DivErrSpec PFloat3 PFloatAlg PFloatEx PDivErr Refuted.

(** ** C85: quotient, divisor and remainder give back a polynomial near the dividend *)

(** [quo_rem] panics, or every coefficient of quotient * divisor + remainder is near that of
    the dividend; the remainder is shorter than the divisor and has no superfluous zeros. *)
Theorem C85_division : forall (cfg : Cfg) (prec emax : Z)
    (hp : Prec_gt_0 prec) (he : Prec_lt_emax prec emax) (v w : seq (binary_float prec emax)),
  all_finite v -> all_finite w -> 0 < size w -> size w <= size v ->
  coef w (size w).-1 <> 0%R ->
  ensures True (quo_rem (PolyEucl (ApproxFloats cfg hp he)) v w)
    (fun qr => near_division v w qr.1 qr.2).
Proof. exact division_near. Qed.
Print Assumptions C85_division.

(** (0.1 + 0.2 x + 0.3 x^2 + 0.4 x^3) / (0.5 + 0.6 x) *)
Example C85_division_case :
  let v := take 4 tenths in
  let w := take 2 (drop 4 tenths) in
  let P := PolyEucl (F64 debug64) in
  (all_finite v /\ all_finite w /\ 0 < size w <= size v /\ coef w (size w).-1 <> 0%R) /\
  shows_all (quo P v w) [:: S754_finite false 6838799434155199 (-54);
    S754_finite true 8006399337547560 (-57); S754_finite false 6004799503160662 (-53)] /\
  shows_all (rem P v w) [:: S754_finite true 6471839464517604 (-56)].
Proof.
split; last by split; show_all 50%nat.
split; first by case=> [|[|[|[|k]]]].
split; first by case=> [|[|k]].
by split=> //; rewrite /coef (_ : nth _ _ _ = nth (B754_zero false) tenths 5) // (proj2 sixth_is);
  exact: sixth_nz.
Qed.

(** The bound is relative to quotient * divisor, which may be much larger than the dividend:
    that the result is near the dividend itself is false.  Dividing 1 + x by 1 + 2^-60 x
    gives the quotient 2^60 and the remainder -2^60 (instead of 1 - 2^60), so that
    quotient * divisor + remainder is x. *)
Theorem C85_near_refuted :
  let o := f64_num 1 0 in
  let P := PolyEucl (F64 debug64) in
  shows_all (quo P [:: o; o] [:: o; f64_num 1 (-60)]) [:: S754_finite false (2 ^ 52) 8] /\
  shows_all (rem P [:: o; o] [:: o; f64_num 1 (-60)]) [:: S754_finite true (2 ^ 52) 8].
Proof. by split; show_all 50%nat. Qed.
Print Assumptions C85_near_refuted.
