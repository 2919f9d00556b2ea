(** * Props_AssignF.v -- the methods of floats that change their argument (C40). *)

From Coq Require Import ZArith SpecFloat.
From mathcomp Require Import all_ssreflect.
From Flocq Require Import Core BinarySingleNaN.
From Verif Require Import Rust Traits MConstr MFloats CallSpec FloatSpec PFloat3 PAssignF Refuted.

(** Also the signs of zeros and the panics agree, for all arguments; sub_assign does not
    differ from sub as it does for machine integers. *)
Theorem C40_floats_partial : forall (cfg : Cfg) (prec emax : Z)
    (hp : Prec_gt_0 prec) (he : Prec_lt_emax prec emax),
  inplace_ring (ApproxFloats cfg hp he) /\
  forall x y, same_run (sub_assign (ApproxFloats cfg hp he) x y) (sub (ApproxFloats cfg hp he) x y).
Proof. exact inplace_floats_all. Qed.
Print Assumptions C40_floats_partial.
Theorem C40_float_towers_partial : forall (cfg : Cfg) (prec emax : Z)
    (hp : Prec_gt_0 prec) (he : Prec_lt_emax prec emax) (n : nat),
  [/\ inplace_ring (VectorRing cfg n (ApproxFloats cfg hp he)),
      inplace_ring (PolyRing (ApproxFloats cfg hp he)) &
      inplace_ring (MatrixRing cfg (ApproxFloats cfg hp he) n)].
Proof. exact inplace_floats_towers. Qed.
Print Assumptions C40_float_towers_partial.
(** 0.0 - 0.0 is 0.0, -0.0 - 0.0 is -0.0, 1 - 2^60 is rounded. *)
Example C40_floats_case :
  [/\ shows (sub_assign (F64 debug64) (B754_zero false) (B754_zero false)) (S754_zero false),
      shows (sub_assign (F64 debug64) (B754_zero true) (B754_zero false)) (S754_zero true),
      shows (sub_assign (F64 debug64) (f64_num 1 0) (f64_num 1 60)) (B2SF (f64_num (-1) 60)) &
      shows (sub (F64 debug64) (f64_num 1 0) (f64_num 1 60)) (B2SF (f64_num (-1) 60))].
Proof. by split; show 20%nat. Qed.
