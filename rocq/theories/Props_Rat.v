(** * Props_Rat.v -- when the arithmetic of fractions of machine integers panics
    (C53).  See /verif/DESIGN.md. *)

From mathcomp Require Import all_ssreflect all_algebra zify ssrZ.
From Coq Require Import ZArith QArith.
From Verif Require Import Rust Traits MInts MConstr NumSpec FracSpec RatSpec Refuted PRat.

(** ** C53: fractions of machine integers panic exactly when a sum or a product of
    their components does not fit *)

Theorem C53_mul : forall (cfg : Cfg) (w : Z), Z.le 2 w -> forall n1 d1 n2 d2 : Z,
  (0 < d1)%Z -> (0 < d2)%Z ->
  checked (fits w (n1 * n2) /\ fits w (d1 * d2))
    (mul (ReducedFractions cfg (CheckedInts cfg w)) (n1, d1) (n2, d2))
    (lowest (n1 * n2) (d1 * d2)).
Proof. exact rat_mul. Qed.
Print Assumptions C53_mul.
(** The components are multiplied before they are reduced. *)
Example C53_mul_case :
  [/\ panics (mul (ReducedFractions debug64 (I8 debug64)) (16, 3)%Z (8, 5)%Z) &
      returns (mul (ReducedFractions debug64 (I8 debug64)) (11, 3)%Z (3, 11)%Z) (1, 1)%Z].
Proof. by split; run 10%nat. Qed.

(** Equal denominators are not multiplied. *)
Theorem C53_add : forall (cfg : Cfg) (w : Z), Z.le 2 w -> forall n1 d1 n2 d2 : Z,
  fits w d1 -> (0 < d1)%Z -> (0 < d2)%Z ->
  if (d1 =? d2)%Z then
    checked (fits w (n1 + n2))
      (add (ReducedFractions cfg (CheckedInts cfg w)) (n1, d1) (n2, d2))
      (lowest (n1 + n2) d1)
  else
    checked (fits w (n1 * d2) /\ fits w (d1 * n2) /\ fits w (n1 * d2 + d1 * n2) /\
        fits w (d1 * d2))
      (add (ReducedFractions cfg (CheckedInts cfg w)) (n1, d1) (n2, d2))
      (lowest (n1 * d2 + d1 * n2) (d1 * d2)).
Proof. exact rat_add. Qed.
Print Assumptions C53_add.
Example C53_add_case :
  [/\ returns (add (ReducedFractions debug64 (I8 debug64)) (60, 127)%Z (60, 127)%Z) (120, 127)%Z,
      panics (add (ReducedFractions debug64 (I8 debug64)) (1, 16)%Z (1, 8)%Z) &
      returns (add (ReducedFractions debug64 (I8 debug64)) (1, 6)%Z (1, 3)%Z) (1, 2)%Z].
Proof. by split; run 10%nat. Qed.

Theorem C53_neg : forall (cfg : Cfg) (w n d : Z),
  checked (fits w (- n)) (neg (ReducedFractions cfg (CheckedInts cfg w)) (n, d))
    (- n, d)%Z.
Proof. exact rat_neg. Qed.
Print Assumptions C53_neg.

Theorem C53_times : forall (cfg : Cfg) (w : Z), Z.le 2 w -> forall k n d : Z,
  fits w d -> (0 < d)%Z ->
  checked (fits w k /\ fits w (k * n))
    (ztimes (ReducedFractions cfg (CheckedInts cfg w)) k (n, d)) (lowest (k * n) d).
Proof. exact rat_ztimes. Qed.
Print Assumptions C53_times.
Example C53_times_case :
  [/\ returns (ztimes (ReducedFractions debug64 (I8 debug64)) 6 (20, 3)%Z) (40, 1)%Z &
      panics (ztimes (ReducedFractions debug64 (I8 debug64)) 9 (20, 3)%Z)].
Proof. by split; run 10%nat. Qed.

Theorem C53_inv : forall (cfg : Cfg) (w : Z), Z.le 2 w -> forall n d : Z,
  fits w n -> fits w d -> (0 < d)%Z ->
  checked (n <> 0 /\ n <> - 2 ^ (w - 1))%Z
    (finv (ReducedFractions cfg (CheckedInts cfg w)) (n, d)) (Z.sgn n * d, Z.abs n)%Z.
Proof. exact rat_inv. Qed.
Print Assumptions C53_inv.
Example C53_inv_case :
  [/\ returns (finv (ReducedFractions debug64 (I8 debug64)) (-2, 3)%Z) (-3, 2)%Z,
      panics (finv (ReducedFractions debug64 (I8 debug64)) (0, 1)%Z) &
      panics (finv (ReducedFractions debug64 (I8 debug64)) (-128, 3)%Z)].
Proof. by split; run 10%nat. Qed.

(** So nothing panics, and the results are the correct ones, for fractions whose
    components are at most [b] with [2 b^2 < 2^(w-1)]. *)
Theorem C53_small : forall (cfg : Cfg) (w : Z), Z.le 2 w ->
  forall b : Z, (2 * b * b < 2 ^ (w - 1))%Z ->
  forall x y : Z * Z, small b x -> small b y ->
  let A := ReducedFractions cfg (CheckedInts cfg w) in
  let value := gives_q False (fun z => fits w z.1 /\ fits w z.2 /\ canonical_pair z) in
  value (add A x y) (q_of x + q_of y)%Q /\ value (sub A x y) (q_of x - q_of y)%Q /\
  value (mul A x y) (q_of x * q_of y)%Q /\ value (neg A x) (- q_of x)%Q /\
  (x.1 <> 0%Z -> value (finv A x) (/ q_of x)%Q) /\
  (y.1 <> 0%Z -> value (fdiv A x y) (q_of x / q_of y)%Q).
Proof. exact small_all. Qed.
Print Assumptions C53_small.

(** On i8: 5/6 - 3/8 = 11/24 and -5/6 / (7/8) = -20/21; the components are at most
    b = 7 for all such, 2 * 49 < 128 (8 happens to work here). 1/12 + 1/11 = 23/132
    does not fit, 1/120 + 7/120 = 1/15 does because the denominators agree. *)
Example C53_case :
  returns (sub (ReducedFractions debug64 (I8 debug64)) (5, 6)%Z (3, 8)%Z) (11, 24)%Z /\
  returns (fdiv (ReducedFractions debug64 (I8 debug64)) (-5, 6)%Z (7, 8)%Z) (-20, 21)%Z /\
  panics (add (ReducedFractions debug64 (I8 debug64)) (1, 12)%Z (1, 11)%Z) /\
  returns (add (ReducedFractions debug64 (I8 debug64)) (1, 120)%Z (7, 120)%Z) (1, 15)%Z.
Proof. by split; [|split; [|split]]; run 30%nat. Qed.
Example C53_hyp : (2 * 7 * 7 < 2 ^ (8 - 1))%Z /\ small 7 (5, 6)%Z /\ small 7 (-3, 7)%Z.
Proof. by []. Qed.
(** The smallest value as a numerator: its negative and its inverse do not exist. *)
Example C53_min_case :
  panics (neg (ReducedFractions debug64 (I8 debug64)) (-128, 1)%Z) /\
  panics (finv (ReducedFractions debug64 (I8 debug64)) (-128, 1)%Z) /\
  returns (finv (ReducedFractions debug64 (I8 debug64)) (-127, 3)%Z) (-3, 127)%Z.
Proof. by split; [|split]; run 30%nat. Qed.
