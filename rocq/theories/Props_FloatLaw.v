(** * Props_FloatLaw.v -- laws of floating point arithmetic (C54). *)

From Coq Require Import ZArith Reals SpecFloat.
From mathcomp Require Import all_ssreflect.
From Flocq Require Import Core BinarySingleNaN.
From Verif Require Import Rust Traits MFloats FloatSpec FloatLaw.
From Verif Require Import PFloat PFloat3 PFloat4 Refuted.

(** ** C54: the laws of arithmetic that floats obey *)
Theorem C54_laws : forall (cfg : Cfg) (prec emax : Z)
    (hp : Prec_gt_0 prec) (he : Prec_lt_emax prec emax),
  float_laws (ApproxFloats cfg hp he).
Proof. exact floats_laws. Qed.
Print Assumptions C54_laws.
Example C54_types cfg : float_laws (F32 cfg) /\ float_laws (F64 cfg).
Proof. by split; exact: C54_laws. Qed.

(** The other field laws fail: addition and multiplication are not associative,
    multiplication does not distribute, and x * inv(x) need not be one. *)
Theorem C54_failing : forall cfg : Cfg,
  (shows (let! s := add (F64 cfg) (f64_num 1 0) (f64_num 1 (-53)) in
          add (F64 cfg) s (f64_num 1 (-53))) (S754_finite false (2 ^ 52) (-52)) /\
   shows (let! s := add (F64 cfg) (f64_num 1 (-53)) (f64_num 1 (-53)) in
          add (F64 cfg) (f64_num 1 0) s) (S754_finite false (2 ^ 52 + 1) (-52))) /\
  (panics (let! p := mul (F64 cfg) (f64_num 1 1000) (f64_num 1 1000) in
           mul (F64 cfg) p (f64_num 1 (-1000))) /\
   shows (let! p := mul (F64 cfg) (f64_num 1 1000) (f64_num 1 (-1000)) in
          mul (F64 cfg) (f64_num 1 1000) p) (S754_finite false (2 ^ 52) 948)) /\
  (shows (let! s := add (F64 cfg) (f64_num 1 0) (f64_num 1 (-53)) in
          mul (F64 cfg) (f64_num 3 0) s) (S754_finite false (3 * 2 ^ 51) (-51)) /\
   shows (let! p := mul (F64 cfg) (f64_num 3 0) (f64_num 1 0) in
          let! q := mul (F64 cfg) (f64_num 3 0) (f64_num 1 (-53)) in
          add (F64 cfg) p q) (S754_finite false (3 * 2 ^ 51 + 1) (-51))) /\
  shows (let! i := finv (F64 cfg) (f64_num 49 0) in mul (F64 cfg) (f64_num 49 0) i)
    (S754_finite false (2 ^ 53 - 1) (-53)).
Proof. exact f64_laws_fail. Qed.
Print Assumptions C54_failing.

(** 5/4 - 1 is exact; 1/10 + 2/10 is within the bound but not exact; the difference of
    the two least normal numbers is the least positive number. *)
Example C54_case cfg :
  shows (sub (F64 cfg) (f64_num 5 (-2)) (f64_num 1 0)) (S754_finite false (2 ^ 52) (-54)) /\
  shows (add (F64 cfg) (f64_num 7205759403792794 (-56)) (f64_num 7205759403792794 (-55)))
    (S754_finite false 5404319552844596 (-54)) /\
  shows (sub (F64 cfg) (f64_num (2 ^ 52 + 1) (-1074)) (f64_num (2 ^ 52) (-1074)))
    (S754_finite false 1 (-1074)).
Proof. by split; [|split]; show 0%nat. Qed.
