(** * Props_Exc.v -- C83: infinities and NaN as arguments of the floating point methods.

    [exceptional x] (ExcSpec.v): [x] is an infinity or NaN. The records
    [exceptional_arithmetic] and [exceptional_order] list what every method does if one of
    its arguments is exceptional. *)

From Coq Require Import ZArith Reals SpecFloat.
From mathcomp Require Import all_ssreflect.
From Flocq Require Import Core BinarySingleNaN.
From Verif Require Import Rust Traits MFloats ModSpec FloatSpec ExcSpec PFloat3 PExc Refuted.

Theorem C83_arithmetic : forall (cfg : Cfg) (prec emax : Z)
    (hp : Prec_gt_0 prec) (he : Prec_lt_emax prec emax),
  (0 < ptr_bits cfg)%Z -> (ptr_bits cfg <= emax)%Z ->
  exceptional_arithmetic cfg (ApproxFloats cfg hp he).
Proof. exact floats_exceptional. Qed.
Print Assumptions C83_arithmetic.
Theorem C83_order : forall (prec emax : Z)
    (tie : binary_float prec emax -> binary_float prec emax -> bool),
  exceptional_order (ApproxFloats_lattice tie).
Proof. exact floats_exceptional_order. Qed.
Print Assumptions C83_order.
Example C83_arithmetic_types :
  exceptional_arithmetic debug64 (F32 debug64) /\ exceptional_arithmetic release64 (F64 release64).
Proof. by split; apply: C83_arithmetic. Qed.
(** 3 / -inf = -0, (-inf)^-3 = -0, (-inf)^-2 = 0, inf^2 panics, 0 * inf is NaN if 0 is an
    isize and panics if it is a float. *)
Example C83_arithmetic_case :
  [/\ shows (fdiv (F64 debug64) (f64_num 3 0) (B754_infinity true)) (S754_zero true),
      shows (fpower (F64 debug64) (-3) (B754_infinity true)) (S754_zero true),
      shows (fpower (F64 debug64) (-2) (B754_infinity true)) (S754_zero false),
      panics (fpower (F64 debug64) 2 (B754_infinity true)) &
      shows (ztimes (F64 debug64) 0 (B754_infinity true)) S754_nan /\
      panics (mul (F64 debug64) (B754_zero false) (B754_infinity true))].
Proof. by split; [show 5%nat|show 5%nat|show 5%nat|run 5%nat|split; [show 5%nat|run 5%nat]]. Qed.
Example C83_order_case tie :
  [/\ returns (leq (F64_lattice tie) (f64_num 3 0) (B754_infinity false)) true,
      shows (meet (F64_lattice tie) (f64_num 3 0) B754_nan) (B2SF (f64_num 3 0)),
      shows (join (F64_lattice tie) (f64_num 3 0) (B754_infinity true)) (B2SF (f64_num 3 0)) &
      returns (equals (F64_lattice tie) B754_nan B754_nan) false].
Proof. by split; [run 0%nat|show 0%nat|show 0%nat|run 0%nat]. Qed.
