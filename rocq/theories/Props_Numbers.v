(** * Props_Numbers.v -- the properties of the number structures.

    C01, C02 (ZZ), C41 (NN), C07, C08, C09 (CheckedInts), C10 (CheckedUints),
    C12 (BB), C33 (order and lattice).  The vocabulary is that of Rust.v
    ([returns], [panics]), NumSpec.v and Laws.v. *)

From Coq Require Import ZArith.
From mathcomp Require Import all_ssreflect.
From Verif Require Import Rust Traits MInts Laws NumSpec Spec.
From Verif Require Import PInts PCISim POrders PNum PNumLaws PTimes PCheck2 Refuted.

Local Open Scope Z_scope.

(** ** C01: integers are exact *)

Theorem C01_ring : forall x y : Z,
  [/\ returns (zero ZZ) 0, returns (one ZZ) 1, returns (add ZZ x y) (x + y) &
      returns (mul ZZ x y) (x * y)] /\
  [/\ returns (neg ZZ x) (- x), returns (sub ZZ x y) (x - y),
      returns (double ZZ x) (x + x) & returns (square ZZ x) (x * x)] /\
  [/\ returns (add_assign ZZ x y) (x + y), returns (mul_assign ZZ x y) (x * y),
      returns (neg_assign ZZ x) (- x) & returns (sub_assign ZZ x y) (x - y)] /\
  [/\ returns (is_zero ZZ x) (x =? 0), returns (is_one ZZ x) (x =? 1),
      returns (equals ZZ x y) (x =? y) & returns (contains ZZ x) true].
Proof. exact zz_ring. Qed.
Print Assumptions C01_ring.

Theorem C01_times : forall n x : Z,
  [/\ returns (ztimes ZZ n x) (n * x), returns (ntimes ZZ n x) (n * x) &
      returns (int ZZ n) n].
Proof. exact zz_times. Qed.
Print Assumptions C01_times.

Theorem C01_units : forall x : Z,
  returns (try_inv ZZ x) (if Z.abs x =? 1 then Some x else None) /\
  returns (invertible ZZ x) (Z.abs x =? 1).
Proof. exact zz_units. Qed.
Print Assumptions C01_units.

Theorem C01_try_div : forall x y : Z, y <> 0 -> exists o,
  returns (try_div ZZ x y) o /\
  match o with
  | Some q => x = q * y
  | None => ~ Z.divide y x
  end.
Proof. exact zz_try_div. Qed.
Print Assumptions C01_try_div.
Example C01_try_div_case :
  returns (try_div ZZ (-12) 4) (Some (-3)) /\ returns (try_div ZZ (-12) 5) None.
Proof. by split; run 1%nat. Qed.

Theorem C01_try_div_zero : forall x : Z, panics (try_div ZZ x 0).
Proof. exact zz_try_div_zero. Qed.
Print Assumptions C01_try_div_zero.

Theorem C01_divisible : forall x y : Z, exists b : bool,
  returns (divisible ZZ x y) b /\ (b <-> Z.divide y x).
Proof. exact zz_divisible. Qed.
Print Assumptions C01_divisible.

Theorem C01_associates : forall x y : Z,
  returns (associates ZZ x y) (Z.abs x =? Z.abs y).
Proof. exact zz_associates. Qed.
Print Assumptions C01_associates.

Theorem C01_associate_repr : forall x : Z, returns (associate_repr ZZ x) (Z.abs x).
Proof. exact zz_associate_repr. Qed.
Print Assumptions C01_associate_repr.

Theorem C01_associate_coef : forall x : Z, x <> 0 ->
  returns (associate_coef ZZ x) (Z.sgn x).
Proof. exact zz_associate_coef. Qed.
Print Assumptions C01_associate_coef.
Example C01_associate_coef_case : returns (associate_coef ZZ (-7)) (-1).
Proof. run 1%nat. Qed.

Theorem C01_associate_coef_zero : panics (associate_coef ZZ 0).
Proof. exact zz_associate_coef_zero. Qed.
Print Assumptions C01_associate_coef_zero.

(** All ring, integral domain and Euclidean laws hold, without panics. *)
Theorem C01_laws : forall cfg : Cfg, 2 <= ptr_bits cfg ->
  eucl_alg_laws False (fun _ => True) cfg ZZ.
Proof. exact zz_laws. Qed.
Print Assumptions C01_laws.
Example C01_laws_case : 2 <= ptr_bits debug64 /\ 2 <= ptr_bits release64.
Proof. by split. Qed.

(** ** C02: Euclidean division of integers *)

Theorem C02_quo_rem : forall x y : Z, y <> 0 -> exists q r,
  returns (quo_rem ZZ x y) (q, r) /\
  [/\ x = q * y + r, 0 <= r < Z.abs y &
      forall q' r', x = q' * y + r' -> 0 <= r' < Z.abs y -> q' = q /\ r' = r] /\
  returns (quo ZZ x y) q /\ returns (rem ZZ x y) r.
Proof. exact zz_quo_rem. Qed.
Print Assumptions C02_quo_rem.
Example C02_quo_rem_case :
  [/\ returns (quo_rem ZZ 7 3) (2, 1), returns (quo_rem ZZ (-7) 3) (-3, 2),
      returns (quo_rem ZZ 7 (-3)) (-2, 1) & returns (quo_rem ZZ (-7) (-3)) (3, 2)].
Proof. by split; run 1%nat. Qed.

Theorem C02_zero_divisor : forall x : Z,
  [/\ panics (quo_rem ZZ x 0), panics (quo ZZ x 0) & panics (rem ZZ x 0)].
Proof. exact zz_quo_rem_zero. Qed.
Print Assumptions C02_zero_divisor.

Theorem C02_reduced : forall x y : Z,
  returns (reduced ZZ x y) ((y =? 0) || (0 <=? x) && (x <? Z.abs y)).
Proof. exact zz_reduced. Qed.
Print Assumptions C02_reduced.

(** ** C41: naturals are exact *)

Theorem C41_ring : forall x y : N,
  [/\ returns (zero NN) N.zero, returns (one NN) N.one,
      returns (add NN x y) (N.add x y) & returns (mul NN x y) (N.mul x y)] /\
  [/\ returns (add_assign NN x y) (N.add x y), returns (mul_assign NN x y) (N.mul x y),
      returns (double NN x) (N.add x x) & returns (square NN x) (N.mul x x)] /\
  [/\ returns (is_zero NN x) (N.eqb x N.zero), returns (is_one NN x) (N.eqb x N.one),
      returns (equals NN x y) (N.eqb x y) & returns (contains NN x) true].
Proof. exact nn_ring. Qed.
Print Assumptions C41_ring.

Theorem C41_times : forall (n : Z) (x : N), 0 <= n ->
  returns (ntimes NN n x) (N.mul (Z.to_N n) x).
Proof. exact nn_times. Qed.
Print Assumptions C41_times.
Example C41_times_case : returns (ntimes NN 7 6%num) 42%num.
Proof. run 1%nat. Qed.

Theorem C41_units : forall x : N,
  returns (try_inv NN x) (if N.eqb x N.one then Some N.one else None) /\
  returns (invertible NN x) (N.eqb x N.one).
Proof. exact nn_units. Qed.
Print Assumptions C41_units.

Theorem C41_laws : semiring_alg_laws False (fun _ => True) NN.
Proof. exact nn_laws. Qed.
Print Assumptions C41_laws.

(** ** C07: checked integers never return a wrong number *)

(** Every method of CheckedInts, called on values of the type, terminates, and
    panics or returns what ZZ returns; in both build profiles (any [cfg]). *)
Theorem C07_tracks : forall (cfg : Cfg) (w : Z), 2 <= w ->
  eucl_tracks (fun x => in_i w x) (CheckedInts cfg w) ZZ.
Proof. exact ci_tracks. Qed.
Print Assumptions C07_tracks.
Example C07_tracks_case : in_i 8 (-128) /\ in_i 8 127 /\ ~~ in_i 8 128.
Proof. by []. Qed.

(** Results are again values of the type (membership), and obey the laws. *)
Theorem C07_laws : forall cfg : Cfg, 2 <= ptr_bits cfg -> forall w : Z, 2 <= w ->
  eucl_alg_laws True (fits w) cfg (CheckedInts cfg w).
Proof. exact ci_laws. Qed.
Print Assumptions C07_laws.
(** An addition that overflows panics. *)
Example C07_laws_case :
  [/\ 2 <= ptr_bits debug64, eucl_alg_laws True (fits 8) debug64 (I8 debug64),
      panics (add (I8 debug64) 100 28) & returns (add (I8 debug64) 100 27) 127].
Proof. by split; [|exact: C07_laws|run 10%nat|run 10%nat]. Qed.

(** ** C08: checked integers panic exactly on unrepresentable results *)

Theorem C08_arith : forall (cfg : Cfg) (w x y : Z),
  [/\ checked (fits w (x + y)) (add (CheckedInts cfg w) x y) (x + y),
      checked (fits w (x - y)) (sub (CheckedInts cfg w) x y) (x - y),
      checked (fits w (- x)) (neg (CheckedInts cfg w) x) (- x) &
      checked (fits w (x * y)) (mul (CheckedInts cfg w) x y) (x * y)].
Proof. exact ci_arith. Qed.
Print Assumptions C08_arith.
Example C08_arith_case cfg :
  returns (add (I8 cfg) 100 27) 127 /\ panics (add (I8 cfg) 100 28) /\
  panics (neg (I8 cfg) (-128)) /\ returns (mul (I8 cfg) (-64) 2) (-128).
Proof. by repeat split; run 1%nat. Qed.

Theorem C08_inplace : forall (cfg : Cfg) (w x y : Z),
  [/\ checked (fits w (x + y)) (add_assign (CheckedInts cfg w) x y) (x + y),
      checked (fits w (x + x)) (double (CheckedInts cfg w) x) (x + x),
      checked (fits w (x * y)) (mul_assign (CheckedInts cfg w) x y) (x * y) &
      checked (fits w (x * x)) (square (CheckedInts cfg w) x) (x * x)].
Proof. exact ci_arith2. Qed.
Print Assumptions C08_inplace.

Theorem C08_division : forall (cfg : Cfg) (w : Z), 2 <= w ->
  forall x y : Z, fits w x -> fits w y -> exists q r,
  (y <> 0 -> x = q * y + r /\ 0 <= r < Z.abs y) /\
  [/\ checked (y <> 0 /\ ~ min_by_m1 w x y) (quo_rem (CheckedInts cfg w) x y) (q, r),
      checked (y <> 0 /\ ~ min_by_m1 w x y) (quo (CheckedInts cfg w) x y) q,
      checked (y <> 0 /\ ~ min_by_m1 w x y) (rem (CheckedInts cfg w) x y) r &
      checked (y <> 0 /\ ~ min_by_m1 w x y) (try_div (CheckedInts cfg w) x y)
        (if r =? 0 then Some q else None)].
Proof. exact ci_division. Qed.
Print Assumptions C08_division.
Example C08_division_case cfg :
  [/\ returns (quo_rem (I8 cfg) (-128) 3) (-43, 1), panics (quo_rem (I8 cfg) (-128) (-1)),
      panics (rem (I8 cfg) 5 0) & returns (try_div (I8 cfg) 127 (-1)) (Some (-127))].
Proof. by split; run 1%nat. Qed.

Theorem C08_reduced : forall (cfg : Cfg) (w : Z), 2 <= w -> forall x y : Z, fits w x ->
  returns (reduced (CheckedInts cfg w) x y) ((y =? 0) || (0 <=? x) && (x <? Z.abs y)).
Proof. exact ci_reduced. Qed.
Print Assumptions C08_reduced.
Example C08_reduced_case cfg : returns (reduced (I8 cfg) 127 (-128)) true.
Proof. run 1%nat. Qed.

Theorem C08_divisible : forall (cfg : Cfg) (w : Z), 2 <= w ->
  forall x y : Z, fits w x -> fits w y -> exists b : bool,
  (b <-> Z.divide y x) /\ checked (~ min_by_m1 w x y) (divisible (CheckedInts cfg w) x y) b.
Proof. exact ci_divisible. Qed.
Print Assumptions C08_divisible.
Example C08_divisible_case cfg :
  returns (divisible (I8 cfg) 12 (-3)) true /\ panics (divisible (I8 cfg) (-128) (-1)).
Proof. by split; run 1%nat. Qed.

(** In place: a subtraction negates its second argument first. *)
Theorem C08_neg_sub_assign : forall (cfg : Cfg) (w x y : Z),
  checked (fits w (- x)) (neg_assign (CheckedInts cfg w) x) (- x) /\
  checked (fits w (- y) /\ fits w (x - y)) (sub_assign (CheckedInts cfg w) x y) (x - y).
Proof. exact ci_assign. Qed.
Print Assumptions C08_neg_sub_assign.
Theorem C08_total : forall (cfg : Cfg) (w x y : Z),
  [/\ returns (zero (CheckedInts cfg w)) 0, returns (one (CheckedInts cfg w)) 1,
      returns (is_zero (CheckedInts cfg w) x) (x =? 0) &
      returns (is_one (CheckedInts cfg w) x) (x =? 1)] /\
  [/\ returns (equals (CheckedInts cfg w) x y) (x =? y),
      returns (contains (CheckedInts cfg w) x) true,
      returns (try_inv (CheckedInts cfg w) x) (if Z.abs x =? 1 then Some x else None) &
      returns (invertible (CheckedInts cfg w) x) (Z.abs x =? 1)].
Proof. exact ci_consts. Qed.
Print Assumptions C08_total.
Theorem C08_associates : forall (cfg : Cfg) (w x y : Z), 2 <= w -> fits w x -> fits w y ->
  [/\ checked (fits w (Z.abs x)) (associate_repr (CheckedInts cfg w) x) (Z.abs x),
      checked (x <> 0) (associate_coef (CheckedInts cfg w) x) (Z.sgn x) &
      checked (~ min_by_m1 w x y) (associates (CheckedInts cfg w) x y)
        (Z.abs x =? Z.abs y)].
Proof. exact ci_assoc. Qed.
Print Assumptions C08_associates.
Example C08_associates_case cfg :
  [/\ panics (associate_repr (I8 cfg) (-128)), returns (associate_coef (I8 cfg) (-128)) (-1),
      panics (associates (I8 cfg) (-128) (-1)) & returns (associates (I8 cfg) (-1) (-128)) false].
Proof. by split; run 3%nat. Qed.

(** [times] with an isize multiplier panics unless the multiplier and the
    product fit, the one of CommuntativeMonoid unless the last doubling fits. *)
Theorem C08_times : forall (cfg : Cfg) (w n x : Z),
  checked (fits w n /\ fits w (n * x)) (ztimes (CheckedInts cfg w) n x) (n * x) /\
  (1 < w -> checked (fits w n) (int (CheckedInts cfg w) n) n).
Proof. exact ci_times. Qed.
Print Assumptions C08_times.
Example C08_times_case :
  [/\ returns (ztimes (I8 debug64) 4 (-32)) (-128), panics (ztimes (I8 debug64) 4 32),
      panics (ztimes (I8 debug64) 128 0) & panics (int (I8 debug64) 128)].
Proof. by split; run 10%nat. Qed.
Theorem C08_ntimes : forall (cfg : Cfg) (w n x : Z), 1 < w -> 0 <= n -> fits w x ->
  checked (fits w (x * 2 ^ digits n)) (ntimes (CheckedInts cfg w) n x) (n * x).
Proof. exact ci_ntimes. Qed.
Print Assumptions C08_ntimes.
Example C08_ntimes_case cfg :
  returns (ntimes (I8 cfg) 7 15) 105 /\ panics (ntimes (I8 cfg) 8 15).
Proof. by split; run 6%nat. Qed.
(** So a product that fits is not always computed. *)
Theorem C08_times_refuted : forall cfg : Cfg,
  (panics (ztimes (I8 cfg) 1000 0) /\ fits 8 (1000 * 0)) /\
  (panics (ntimes (I8 cfg) 100 1) /\ fits 8 (100 * 1)).
Proof. exact i8_times_refuted. Qed.
Print Assumptions C08_times_refuted.

(** ** C09: gcd of checked integers only fails on MIN and -1 *)

Theorem C09_gcd : forall (cfg : Cfg) (w : Z), 2 <= w ->
  forall x y : Z, fits w x -> fits w y -> exists g,
  Z.abs g = Z.gcd x y /\ checked (~ min_by_m1 w x y) (gcd (CheckedInts cfg w) x y) g.
Proof. exact ci_gcd. Qed.
Print Assumptions C09_gcd.
Example C09_gcd_case cfg :
  [/\ returns (gcd (I8 cfg) (-128) 96) 32, returns (gcd (I8 cfg) (-1) (-128)) 1 &
      panics (gcd (I8 cfg) (-128) (-1))].
Proof. by split; run 10%nat. Qed.

Theorem C09_relative_primes : forall (cfg : Cfg) (w : Z), 2 <= w ->
  forall x y : Z, fits w x -> fits w y ->
  checked (~ min_by_m1 w x y) (relative_primes (CheckedInts cfg w) x y) (Z.gcd x y =? 1).
Proof. exact ci_relative_primes. Qed.
Print Assumptions C09_relative_primes.
Example C09_relative_primes_case :
  [/\ fits 8 (-128), returns (relative_primes (I8 debug64) (-128) 127) true,
      returns (relative_primes (I8 debug64) 6 4) false &
      panics (relative_primes (I8 debug64) (-128) (-1))].
Proof. by split; [|run 10%nat..]. Qed.

Theorem C09_extended_gcd : forall (cfg : Cfg) (w : Z), 2 <= w ->
  forall x y : Z, 4 <= w -> fits w x -> fits w y -> exists g s t,
  [/\ Z.abs g = Z.gcd x y, g = s * x + t * y &
      checked (~ min_by_m1 w x y) (extended_gcd (CheckedInts cfg w) x y) (g, s, t)].
Proof. exact ci_extended_gcd. Qed.
Print Assumptions C09_extended_gcd.
Example C09_extended_gcd_case cfg :
  returns (extended_gcd (I8 cfg) (-128) 100) (4, 7, 9) /\
  panics (extended_gcd (I8 cfg) (-128) (-1)).
Proof. by split; run 10%nat. Qed.

(** lcm panics only for (MIN, -1) and if the result does not fit. *)
Theorem C09_lcm : forall (cfg : Cfg) (w : Z), 2 <= w ->
  forall x y : Z, fits w x -> fits w y -> exists l,
  [/\ returns (lcm ZZ x y) l, Z.abs l = Z.lcm x y &
      checked (~ min_by_m1 w x y /\ fits w l) (lcm (CheckedInts cfg w) x y) l].
Proof. exact ci_lcm. Qed.
Print Assumptions C09_lcm.
Example C09_lcm_case cfg :
  returns (lcm (I8 cfg) 12 (-18)) (-36) /\ panics (lcm (I8 cfg) 16 9).
Proof. by split; run 10%nat. Qed.

(** ** C10: checked unsigned integers are exact or panic *)

Theorem C10_ring : forall w x y : Z,
  [/\ checked (ufits w (x + y)) (add (CheckedUints w) x y) (x + y),
      checked (ufits w (x * y)) (mul (CheckedUints w) x y) (x * y),
      returns (zero (CheckedUints w)) 0 & returns (one (CheckedUints w)) 1] /\
  [/\ checked (ufits w (x + y)) (add_assign (CheckedUints w) x y) (x + y),
      checked (ufits w (x + x)) (double (CheckedUints w) x) (x + x),
      checked (ufits w (x * y)) (mul_assign (CheckedUints w) x y) (x * y) &
      checked (ufits w (x * x)) (square (CheckedUints w) x) (x * x)] /\
  [/\ returns (is_zero (CheckedUints w) x) (x =? 0),
      returns (is_one (CheckedUints w) x) (x =? 1),
      returns (equals (CheckedUints w) x y) (x =? y) &
      returns (contains (CheckedUints w) x) true].
Proof. exact cu_ring. Qed.
Print Assumptions C10_ring.
Example C10_ring_case :
  returns (add U8 200 55) 255 /\ panics (add U8 200 56) /\ panics (mul U8 16 16).
Proof. by repeat split; run 1%nat. Qed.

Theorem C10_units : forall w x : Z,
  returns (try_inv (CheckedUints w) x) (if x =? 1 then Some 1 else None) /\
  returns (invertible (CheckedUints w) x) (x =? 1).
Proof. exact cu_units. Qed.
Print Assumptions C10_units.

(** [times] panics exactly if [x * 2^(number of binary digits of n)] does not
    fit, and else is exact. *)
Theorem C10_ntimes : forall w n x : Z, 1 <= w -> 0 <= n -> ufits w x ->
  checked (ufits w (x * 2 ^ digits n)) (ntimes (CheckedUints w) n x) (n * x).
Proof. exact cu_ntimes. Qed.
Print Assumptions C10_ntimes.
Example C10_ntimes_case : returns (ntimes U8 127 1) 127.
Proof. run 10%nat. Qed.
(** So [times] also panics for results that fit. *)
Theorem C10_ntimes_refuted :
  exists n x, [/\ 0 <= n, ufits 8 x, ufits 8 (n * x) & panics (ntimes U8 n x)].
Proof. exact u8_times_refuted. Qed.
Print Assumptions C10_ntimes_refuted.

Theorem C10_laws : forall w : Z, 1 <= w ->
  semiring_alg_laws True (ufits w) (CheckedUints w).
Proof. exact cu_laws. Qed.
Print Assumptions C10_laws.
Example C10_laws_case :
  [/\ semiring_alg_laws True (ufits 8) (CheckedUints 8),
      returns (add (CheckedUints 8) 100 155) 255 & panics (add (CheckedUints 8) 100 156)].
Proof. by split; [exact: C10_laws|run 10%nat|run 10%nat]. Qed.

(** ** C12: TwoElementAlgebra is the two element field and Boolean algebra *)

(** Truth tables of all methods. *)
Theorem C12_ring : forall (x y : bool) (n : Z),
  [/\ returns (zero BB) false, returns (one BB) true, returns (add BB x y) (xorb x y) &
      returns (mul BB x y) (x && y)] /\
  [/\ returns (neg BB x) x, returns (sub BB x y) (xorb x y),
      returns (double BB x) false & returns (square BB x) x] /\
  [/\ returns (add_assign BB x y) (xorb x y), returns (mul_assign BB x y) (x && y),
      returns (neg_assign BB x) x & returns (sub_assign BB x y) (xorb x y)] /\
  [/\ returns (is_zero BB x) (~~ x), returns (is_one BB x) x,
      returns (equals BB x y) (Bool.eqb x y) & returns (contains BB x) true] /\
  [/\ returns (ztimes BB n x) (x && Z.odd n), returns (int BB n) (Z.odd n),
      (0 <= n -> returns (ntimes BB n x) (x && Z.odd n)),
      returns (try_inv BB x) (if x then Some true else None) &
      returns (invertible BB x) x].
Proof. exact bb_ring. Qed.
Print Assumptions C12_ring.
Example C12_ring_case : returns (ntimes BB 3 true) true /\ returns (ztimes BB (-4) true) false.
Proof. by split; run 10%nat. Qed.

Theorem C12_field : forall (x y : bool) (n : Z),
  [/\ returns (finv BB true) true, panics (finv BB false), returns (fdiv BB x true) x,
      panics (fdiv BB x false) & returns (fpower BB n x) x] /\
  [/\ returns (try_div BB x true) (Some x), panics (try_div BB x false),
      returns (divisible BB x y) (x ==> y), returns (associates BB x y) (Bool.eqb x y) &
      returns (associate_repr BB x) x] /\
  [/\ returns (quo_rem BB x true) (x, false), panics (quo_rem BB x false),
      returns (gcd BB x y) (x || y), returns (lcm BB x y) (x && y) &
      returns (extended_gcd BB x y) (x || y, ~~ y, y)].
Proof. exact bb_field. Qed.
Print Assumptions C12_field.

(** The same in terms of mathcomp's field with two elements: [bb_rep x v] is
    [v = x%:R]. *)
Theorem C12_F2 : forall cfg : Cfg, field_alg_spec cfg False bb_rep BB.
Proof. exact (fun cfg => BB_ok cfg False). Qed.
Print Assumptions C12_F2.

Theorem C12_field_laws : forall cfg : Cfg, 2 <= ptr_bits cfg ->
  field_alg_laws False (fun _ => True) cfg BB.
Proof. exact bb_laws. Qed.
Print Assumptions C12_field_laws.
Example C12_field_laws_case : field_alg_laws False (fun _ => True) debug64 BB.
Proof. exact: C12_field_laws. Qed.

Theorem C12_boolean : forall x y : bool,
  [/\ returns (leq BB_boolean x y) (implb x y), returns (less_than BB_boolean x y) (~~ x && y) &
      returns (comparable BB_boolean x y) true] /\
  [/\ returns (meet BB_boolean x y) (x && y), returns (join BB_boolean x y) (x || y) &
      returns (bnot BB_boolean x) (~~ x)] /\
  returns (omax BB_boolean) true /\ returns (omin BB_boolean) false.
Proof. exact bb_boolean. Qed.
Print Assumptions C12_boolean.

Theorem C12_boolean_laws : boolean_alg_laws False (fun _ => True) BB_boolean.
Proof. exact bb_boolean_laws. Qed.
Print Assumptions C12_boolean_laws.

(** ** C01, C07, C10, C41: the order of the numbers *)

Theorem C01_order : forall x y : Z,
  [/\ returns (leq ZZ_lattice x y) (x <=? y),
      returns (less_than ZZ_lattice x y) (x <? y) &
      returns (comparable ZZ_lattice x y) true] /\
  returns (meet ZZ_lattice x y) (Z.min x y) /\ returns (join ZZ_lattice x y) (Z.max x y).
Proof. exact zz_order. Qed.
Print Assumptions C01_order.
Example C01_order_case : returns (meet ZZ_lattice (-3) 2) (-3) /\ returns (join ZZ_lattice (-3) 2) 2 /\
  returns (leq ZZ_lattice (-3) 2) true /\ returns (leq ZZ_lattice 2 (-3)) false.
Proof. by have [[a _ _] [b c]] := C01_order (-3) 2; have [[d _ _] _] := C01_order 2 (-3). Qed.

Theorem C07_order : forall x y : Z,
  [/\ returns (leq CheckedInts_lattice x y) (x <=? y),
      returns (less_than CheckedInts_lattice x y) (x <? y) &
      returns (comparable CheckedInts_lattice x y) true] /\
  returns (meet CheckedInts_lattice x y) (Z.min x y) /\
  returns (join CheckedInts_lattice x y) (Z.max x y).
Proof. exact ci_order. Qed.
Print Assumptions C07_order.
Example C07_order_case : returns (meet CheckedInts_lattice (-128) 127) (-128) /\
  returns (join CheckedInts_lattice (-128) 127) 127 /\
  returns (leq CheckedInts_lattice (-128) 127) true /\ returns (leq CheckedInts_lattice 127 (-128)) false.
Proof. by have [[a _ _] [b c]] := C07_order (-128) 127; have [[d _ _] _] := C07_order 127 (-128). Qed.

Theorem C10_order : forall x y : Z,
  [/\ returns (leq CheckedUints_lattice x y) (x <=? y),
      returns (less_than CheckedUints_lattice x y) (x <? y) &
      returns (comparable CheckedUints_lattice x y) true] /\
  returns (meet CheckedUints_lattice x y) (Z.min x y) /\
  returns (join CheckedUints_lattice x y) (Z.max x y).
Proof. exact cu_order. Qed.
Print Assumptions C10_order.
Example C10_order_case : returns (meet CheckedUints_lattice 0 255) 0 /\
  returns (join CheckedUints_lattice 0 255) 255 /\
  returns (leq CheckedUints_lattice 0 255) true /\ returns (leq CheckedUints_lattice 255 0) false.
Proof. by have [[a _ _] [b c]] := C10_order 0 255; have [[d _ _] _] := C10_order 255 0. Qed.

Theorem C41_order : forall x y : N,
  [/\ returns (leq NN_lattice x y) (N.leb x y),
      returns (less_than NN_lattice x y) (N.ltb x y) &
      returns (comparable NN_lattice x y) true] /\
  returns (meet NN_lattice x y) (N.min x y) /\ returns (join NN_lattice x y) (N.max x y).
Proof. exact nn_order. Qed.
Print Assumptions C41_order.
Example C41_order_case : returns (meet NN_lattice (N.of_nat 2) (N.of_nat 7)) (N.of_nat 2) /\ returns (join NN_lattice (N.of_nat 2) (N.of_nat 7)) (N.of_nat 7) /\
  returns (leq NN_lattice (N.of_nat 2) (N.of_nat 7)) true /\ returns (leq NN_lattice (N.of_nat 7) (N.of_nat 2)) false.
Proof. by have [[a _ _] [b c]] := C41_order (N.of_nat 2) (N.of_nat 7); have [[d _ _] _] := C41_order (N.of_nat 7) (N.of_nat 2). Qed.

(** ** C33: number lattices are distributive lattices *)

Theorem C33_ZZ : forall x y : Z,
  [/\ returns (leq ZZ_lattice x y) (x <=? y),
      returns (less_than ZZ_lattice x y) (x <? y) &
      returns (comparable ZZ_lattice x y) true] /\
  returns (meet ZZ_lattice x y) (Z.min x y) /\ returns (join ZZ_lattice x y) (Z.max x y).
Proof. exact zz_order. Qed.
Print Assumptions C33_ZZ.

Theorem C33_NN : forall x y : N,
  [/\ returns (leq NN_lattice x y) (N.leb x y),
      returns (less_than NN_lattice x y) (N.ltb x y) &
      returns (comparable NN_lattice x y) true] /\
  returns (meet NN_lattice x y) (N.min x y) /\ returns (join NN_lattice x y) (N.max x y).
Proof. exact nn_order. Qed.
Print Assumptions C33_NN.

Theorem C33_CheckedInts : forall x y : Z,
  [/\ returns (leq CheckedInts_lattice x y) (x <=? y),
      returns (less_than CheckedInts_lattice x y) (x <? y) &
      returns (comparable CheckedInts_lattice x y) true] /\
  returns (meet CheckedInts_lattice x y) (Z.min x y) /\
  returns (join CheckedInts_lattice x y) (Z.max x y).
Proof. exact ci_order. Qed.
Print Assumptions C33_CheckedInts.

Theorem C33_CheckedUints : forall x y : Z,
  [/\ returns (leq CheckedUints_lattice x y) (x <=? y),
      returns (less_than CheckedUints_lattice x y) (x <? y) &
      returns (comparable CheckedUints_lattice x y) true] /\
  returns (meet CheckedUints_lattice x y) (Z.min x y) /\
  returns (join CheckedUints_lattice x y) (Z.max x y).
Proof. exact cu_order. Qed.
Print Assumptions C33_CheckedUints.

Theorem C33_laws :
  (lattice_alg_laws False (fun _ => True) ZZ_lattice /\
   lattice_distributes False (fun _ => True) ZZ_lattice ZZ_lattice) /\
  (lattice_alg_laws False (fun _ => True) NN_lattice /\
   lattice_distributes False (fun _ => True) NN_lattice NN_lattice) /\
  (forall w, lattice_alg_laws False (fits w) CheckedInts_lattice /\
   lattice_distributes False (fits w) CheckedInts_lattice CheckedInts_lattice) /\
  (forall w, lattice_alg_laws False (ufits w) CheckedUints_lattice /\
   lattice_distributes False (ufits w) CheckedUints_lattice CheckedUints_lattice).
Proof.
exact (conj zz_lattice_laws (conj nn_lattice_laws (conj ci_lattice_laws cu_lattice_laws))).
Qed.
Print Assumptions C33_laws.
