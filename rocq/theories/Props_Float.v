(** * Props_Float.v -- floating point numbers (C38, C39).

    [prec] bits of precision and exponents below [emax]: 24 and 128 for f32, 53 and 1024
    for f64. [float_is x a] (FloatSpec.v): the float [x] is finite and its value is the
    real number [a]; [rounded prec emax r]: [r] rounded to nearest, ties to even;
    [overflows prec emax r]: the rounded number is too large; [rounds m r]: the call
    returns the rounded [r], or it panics and that overflows. *)

From Coq Require Import ZArith Reals SpecFloat.
From mathcomp Require Import all_ssreflect.
From Flocq Require Import Core BinarySingleNaN.
From Verif Require Import Rust Traits MFloats FloatSpec ProfSpec Laws.
From Verif Require Import PFloat PFloat2 PFloat3 Refuted.

(** ** C38: results are finite and correctly rounded

    False: the product of an isize and a float can be infinite, and it is rounded twice;
    repeated addition and powers accumulate errors. *)
Theorem C38_refuted : forall cfg : Cfg,
  shows (ztimes (F64 cfg) 2 f64_max) (S754_infinity false) /\
  (shows (ztimes (F64 cfg) (2 ^ 53 + 1) (f64_num 3 0)) (S754_finite false (3 * 2 ^ 51) 2) /\
   B2SF (f64_num (3 * 2 ^ 53 + 4) 0) = S754_finite false (3 * 2 ^ 51 + 1) 2) /\
  (shows (ntimes (F64 cfg) 7 f64_x) (S754_finite false 5917135671031380 (-49)) /\
   (Z.abs (8 * 5917135671031379 - 7 * 6762440766893005) <
    Z.abs (8 * 5917135671031380 - 7 * 6762440766893005))%Z) /\
  (shows (fpower (F64 cfg) 3 f64_y) (S754_finite false 8458137385004868 (-52)) /\
   (Z.abs (2 ^ 104 * 8458137385004869 - 5556458751665950 ^ 3) <
    Z.abs (2 ^ 104 * 8458137385004868 - 5556458751665950 ^ 3))%Z).
Proof.
exact (fun cfg => conj (f64_times_infinite cfg) (conj (f64_times_twice cfg)
  (conj (f64_ntimes_far cfg) (f64_power_far cfg)))).
Qed.
Print Assumptions C38_refuted.

(** What holds: the methods that make one operation are correctly rounded, and panic
    exactly if the result overflows or the divisor is zero. Missing: times, which may
    return an infinity, and the rounding of times (both) and power. *)
Theorem C38_rounding_partial : forall (cfg : Cfg) (prec emax : Z)
    (hp : Prec_gt_0 prec) (he : Prec_lt_emax prec emax),
  rounding_arithmetic (ApproxFloats cfg hp he).
Proof. exact floats_rounding. Qed.
Print Assumptions C38_rounding_partial.
(** The rounded number is the nearest float, and it overflows from
    2^emax - 2^(emax - prec - 1) on. *)
Theorem C38_nearest_partial : forall (prec emax : Z)
    (hp : Prec_gt_0 prec) (x : binary_float prec emax) (r : R),
  float_is x (rounded prec emax r) -> nearest x r.
Proof. exact rounded_nearest. Qed.
Print Assumptions C38_nearest_partial.
(** 2^53 + 1 rounded (by C38_int_partial below). *)
Example C38_nearest_partial_case :
  exists2 x : f64, float_is x (rounded 53 1024 (IZR (2 ^ 53 + 1))) & nearest x (IZR (2 ^ 53 + 1)).
Proof.
have [//|//|//|x _ hx] := @int_rounds debug64 53 1024 prec64 emax64 _ _ (2 ^ 53 + 1)%Z.
by exists x => //; apply: (C38_nearest_partial 53 1024 prec64 x _ hx).
Qed.
Theorem C38_overflow_partial : forall (prec emax : Z)
    (hp : Prec_gt_0 prec) (he : Prec_lt_emax prec emax) (r : R),
  overflows prec emax r <->
  (bpow radix2 emax - bpow radix2 (emax - prec - 1) <= Rabs r)%R.
Proof. exact overflow_threshold. Qed.
Print Assumptions C38_overflow_partial.
Example C38_overflow_partial_case :
  overflows 53 1024 (bpow radix2 1024) /\ ~ overflows 53 1024 (bpow radix2 1023).
Proof.
split; first apply/(C38_overflow_partial 53 1024 prec64 emax64).
  rewrite Rabs_pos_eq; last exact: bpow_ge_0.
  by have := bpow_ge_0 radix2 (1024 - 53 - 1); Lra.lra.
move/(C38_overflow_partial 53 1024 prec64 emax64).
rewrite Rabs_pos_eq; last exact: bpow_ge_0.
have := bpow_gt_0 radix2 1023; have : (bpow radix2 (1024 - 53 - 1) < bpow radix2 1023)%R by apply: bpow_lt.
have -> : bpow radix2 1024 = (2 * bpow radix2 1023)%R by rewrite -[2%R]/(bpow radix2 1) -bpow_plus.
by Lra.lra.
Qed.
(** The integers are correctly rounded; the product of an isize and a float is the
    rounded product of the rounded integer, or infinite; no second rounding happens for
    integers up to 2^prec. *)
Theorem C38_int_partial : forall (cfg : Cfg) (prec emax : Z)
    (hp : Prec_gt_0 prec) (he : Prec_lt_emax prec emax),
  (0 < ptr_bits cfg)%Z -> (ptr_bits cfg <= emax)%Z -> forall n : Z, is_isize cfg n ->
  yields (int (ApproxFloats cfg hp he) n) (rounded prec emax (IZR n)).
Proof. exact int_rounds. Qed.
Print Assumptions C38_int_partial.
Example C38_int_partial_case : is_isize debug64 (2 ^ 53 + 1) /\
  shows (int (F64 debug64) (2 ^ 53 + 1)) (S754_finite false (2 ^ 52) 1).
Proof. by split; [|show 0%nat]. Qed.
Theorem C38_times_partial : forall (cfg : Cfg) (prec emax : Z)
    (hp : Prec_gt_0 prec) (he : Prec_lt_emax prec emax),
  (0 < ptr_bits cfg)%Z -> (ptr_bits cfg <= emax)%Z ->
  forall (n : Z) (x : binary_float prec emax) (a : R), is_isize cfg n -> float_is x a ->
  exists2 v, returns (ztimes (ApproxFloats cfg hp he) n x) v &
    let r := (rounded prec emax (IZR n) * a)%R in
    (~ overflows prec emax r -> float_is v (rounded prec emax r)) /\
    (overflows prec emax r -> exists s, v = B754_infinity s).
Proof. exact times_cases. Qed.
Print Assumptions C38_times_partial.
(** A multiple rounded twice, and an infinite one. *)
Example C38_times_partial_case :
  [/\ is_isize debug64 (2 ^ 53 + 1), float_is (f64_num 3 0) 3,
      shows (ztimes (F64 debug64) (2 ^ 53 + 1) (f64_num 3 0)) (S754_finite false (3 * 2 ^ 51) 2) &
      shows (ztimes (F64 debug64) (-2) (f64_num 1 1023)) (S754_infinity true)].
Proof.
split; [by []|split=> //; rewrite -SF2R_B2SF|show 0%nat|show 0%nat].
have -> : B2SF (f64_num 3 0) = S754_finite false 6755399441055744 (-51) by vm_compute.
by rewrite /SF2R /F2R /=; Lra.lra.
Qed.
Theorem C38_times_small_partial : forall (cfg : Cfg) (prec emax : Z)
    (hp : Prec_gt_0 prec) (he : Prec_lt_emax prec emax),
  (0 < ptr_bits cfg)%Z -> (ptr_bits cfg <= emax)%Z ->
  forall (n : Z) (x : binary_float prec emax) (a : R),
  is_isize cfg n -> (Z.abs n <= 2 ^ prec)%Z -> float_is x a ->
  exists2 v, returns (ztimes (ApproxFloats cfg hp he) n x) v &
    (~ overflows prec emax (IZR n * a) -> float_is v (rounded prec emax (IZR n * a))) /\
    (overflows prec emax (IZR n * a) -> exists s, v = B754_infinity s).
Proof. exact times_rounds. Qed.
Print Assumptions C38_times_small_partial.
Example C38_times_small_partial_case :
  [/\ is_isize debug64 (-7), (Z.abs (-7) <= 2 ^ 53)%Z, float_is (f64_num 3 0) 3 &
      shows (ztimes (F64 debug64) (-7) (f64_num 3 0)) (B2SF (f64_num (-21) 0))].
Proof. by have [_ h _ _] := C38_times_partial_case; split; [| |exact: h|show 0%nat]. Qed.
(** On finite arguments all the other methods end, and return only finite values. *)
Theorem C38_finite_partial : forall (cfg : Cfg) (prec emax : Z)
    (hp : Prec_gt_0 prec) (he : Prec_lt_emax prec emax),
  let A := ApproxFloats cfg hp he in let fin := @finite prec emax in
  [/\ domain_rel (@settles) fin A A, semigroup_rel (@settles) fin A A,
      monoid_rel (@settles) fin A A, cmonoid_rel (@settles) fin A A &
      [/\ rel1 (@settles) fin (neg A) (neg A),
          rel1 (@settles) fin (neg_assign A) (neg_assign A),
          rel2 (@settles) fin (sub A) (sub A) &
          rel2 (@settles) fin (sub_assign A) (sub_assign A)]] /\
  [/\ idom_rel (@settles) fin A A, eucl_rel (@settles) fin A A &
      field_rel (@settles) (fun _ => True) fin A A].
Proof. exact floats_settle. Qed.
Print Assumptions C38_finite_partial.
Example C38_types cfg : rounding_arithmetic (F32 cfg) /\ rounding_arithmetic (F64 cfg).
Proof. by split; exact: C38_rounding_partial. Qed.
Example C38_machine : (0 < ptr_bits debug64)%Z /\ (ptr_bits debug64 <= 128)%Z.
Proof. by []. Qed.
(** 1/3 and 1/10 rounded; 2^1023 + 2^1023 panics; the least positive number
    has no inverse. *)
Example C38_case cfg :
  [/\ shows (finv (F64 cfg) (f64_num 3 0)) (S754_finite false 6004799503160661 (-54)),
      panics (add (F64 cfg) (f64_num 1 1023) (f64_num 1 1023)),
      (exists2 v, returns (fdiv (F64 cfg) (f64_num 1 0) (f64_num 10 0)) v &
         B2SF v = S754_finite false 7205759403792794 (-56)),
      panics (finv (F64 cfg) f64_tiny) & returns (try_inv (F64 cfg) f64_tiny) None].
Proof.
by split; [show 0%nat|run 0%nat|show 0%nat|case: (f64_inv_tiny cfg)|case: (f64_inv_tiny cfg)].
Qed.

(** ** C39: order and lattice *)
Theorem C39_order : forall (prec emax : Z)
    (tie : binary_float prec emax -> binary_float prec emax -> bool),
  real_order (ApproxFloats_lattice tie).
Proof. exact floats_order_ok. Qed.
Print Assumptions C39_order.
Theorem C39_laws : forall (prec emax : Z)
    (tie : binary_float prec emax -> binary_float prec emax -> bool),
  lattice_alg_laws False (@finite prec emax) (ApproxFloats_lattice tie) /\
  lattice_distributes False (@finite prec emax) (ApproxFloats_lattice tie)
    (ApproxFloats_lattice tie).
Proof. exact floats_lattice_laws. Qed.
Print Assumptions C39_laws.
Example C39_types : real_order (F32_lattice (fun _ _ => true)) /\
  real_order (F64_lattice (fun x _ => is_finite x)).
Proof. by split; apply: C39_order. Qed.
Example C39_zeros tie :
  [/\ returns (equals (F64_lattice tie) (B754_zero false) (B754_zero true)) true,
      returns (leq (F64_lattice tie) f64_tiny (B754_zero true)) false,
      shows (meet (F64_lattice tie) f64_tiny (f64_num (-3) 0)) (B2SF (f64_num (-3) 0)) &
      shows (meet (F64_lattice (fun _ _ => true)) (B754_zero false) (B754_zero true))
        (S754_zero false)].
Proof. by split; [run 0%nat|run 0%nat|show 0%nat|show 0%nat]. Qed.
