(** * Refuted.v -- witnesses against claims that are false of the code.

    Each lemma runs the model on concrete inputs.  [returns_run]: if the call has
    the same outcome for every bound [n + k], then that is its outcome. *)

From Coq Require Import ZArith Lia.
From mathcomp Require Import all_ssreflect.
From Verif Require Import Rust Traits MInts MConstr.

Set Implicit Arguments.
Unset Strict Implicit.
Unset Printing Implicit Defensive.

Lemma returns_run (n : nat) A (m : M A) v :
  (forall k, m (n + k) = Done v) -> returns m v.
Proof. by move=> h; exists n => k /subnKC <-. Qed.
Lemma panics_run (n : nat) A (m : M A) :
  (forall k, m (n + k) = Panicked) -> panics m.
Proof. by move=> h; exists n => k /subnKC <-. Qed.
Ltac run n :=
  match goal with
  | |- returns _ _ => apply: (returns_run (n := n)) => k; vm_compute; reflexivity
  | |- panics _ => apply: (panics_run (n := n)) => k; vm_compute; reflexivity
  end.

(** A debug and a release build for a 64 bit target. *)
Definition debug64 : Cfg := mkCfg true true 64.
Definition release64 : Cfg := mkCfg false false 64.

(** ** Repeated addition overflows although the result fits (C10, C11) *)
Lemma U8_times_spurious : panics (ntimes U8 200 1%Z) /\ in_u 8 (200 * 1).
Proof. by split; first run 10%N. Qed.
Lemma I8_ntimes_spurious cfg : panics (ntimes (I8 cfg) 100 1%Z) /\ in_i 8 (100 * 1).
Proof. by split; first run 10%N. Qed.
Lemma I8_times_spurious cfg : panics (ztimes (I8 cfg) 1000 0%Z) /\ in_i 8 (1000 * 0).
Proof. by split; first run 10%N. Qed.
Lemma I8_int_spurious cfg : panics (int (I8 cfg) 1000).
Proof. run 10%N. Qed.

(** ** The extreme multiplier isize::MIN (C11) *)
(** 1/2 to the power isize::MIN and isize::MIN times (1 mod 5). *)
Lemma QQ_power_min_debug : panics (fpower (QQ debug64) (imin 64) (1, 2)%Z).
Proof. run 10%N. Qed.
Lemma QQ_power_min_release :
  returns (fpower (QQ release64) (imin 64) (1, 2)%Z) (1, 1)%Z.
Proof. run 10%N. Qed.
Lemma mod5_times_min_debug : panics (ztimes (QuotientRing debug64 ZZ 5%Z) (imin 64) 1%Z).
Proof. run 10%N. Qed.
(** -2^63 = 2 (mod 5), but the release build returns 0. *)
Lemma mod5_times_min_release :
  returns (ztimes (QuotientRing release64 ZZ 5%Z) (imin 64) 1%Z) 0%Z /\
  (imin 64 mod 5)%Z = 2%Z.
Proof. by split; first run 10%N. Qed.

(** ** Division of MIN by -1 (C09): the answers are representable *)
Lemma I8_divisible_min cfg : panics (divisible (I8 cfg) (-128)%Z (-1)%Z).
Proof. run 10%N. Qed.
Lemma I8_gcd_min cfg : panics (gcd (I8 cfg) (-128)%Z (-1)%Z).
Proof. run 10%N. Qed.
Lemma I8_rem_min cfg : panics (rem (I8 cfg) (-128)%Z (-1)%Z).
Proof. run 10%N. Qed.
(** The other order of the arguments works. *)
Lemma I8_gcd_min_swapped cfg : returns (gcd (I8 cfg) (-1)%Z (-128)%Z) 1%Z.
Proof. run 10%N. Qed.
Lemma I8_associate_repr_min cfg : panics (associate_repr (I8 cfg) (-128)%Z).
Proof. run 10%N. Qed.

(** ** Quotients by units and by zero (C13, C16) *)
Lemma quotient_field_new_accepts cfg :
  [/\ returns (quotient_field_new ZZ 1%Z) tt, returns (quotient_field_new ZZ 0%Z) tt,
      returns (quotient_field_new ZZ 6%Z) tt & returns (quotient_field_new (I8 cfg) (-1)%Z) tt].
Proof. by split; run 10%N. Qed.
Lemma quotient_one_not_member cfg :
  returns (let! o := one (QuotientField cfg ZZ 1%Z) in
           contains (QuotientField cfg ZZ 1%Z) o) false.
Proof. run 10%N. Qed.
Lemma quotient_ring_one_not_member cfg :
  returns (quotient_ring_new ZZ 1%Z) tt /\
  returns (let! o := one (QuotientRing cfg ZZ 1%Z) in
           contains (QuotientRing cfg ZZ 1%Z) o) false.
Proof. by split; run 10%N. Qed.
Lemma quotient_zero_modulus cfg :
  [/\ returns (contains (QuotientField cfg ZZ 0%Z) 3%Z) true,
      panics (mul (QuotientField cfg ZZ 0%Z) 1%Z 1%Z) &
      panics (add (QuotientRing cfg ZZ 0%Z) 1%Z 1%Z)].
Proof. by split; run 10%N. Qed.
Lemma quotient_field_6 cfg :
  returns (contains (QuotientField cfg ZZ 6%Z) 2%Z) true /\
  panics (finv (QuotientField cfg ZZ 6%Z) 2%Z).
Proof. by split; run 10%N. Qed.

Lemma quotient_new_refuted cfg :
  returns (quotient_field_new ZZ 1%Z) tt /\
  returns (let! o := one (QuotientField cfg ZZ 1%Z) in
           contains (QuotientField cfg ZZ 1%Z) o) false /\
  returns (quotient_field_new ZZ 6%Z) tt /\
  returns (contains (QuotientField cfg ZZ 6%Z) 2%Z) true /\
  panics (finv (QuotientField cfg ZZ 6%Z) 2%Z).
Proof. by split; [|split; [|split; [|split]]]; run 10%N. Qed.

(** ** contains does not decide membership (C42, C29) *)
(** GF(4) = GF(2)[x]/(x^2+x+1): the coefficient vectors [5; 7] and [0; 0] are
    accepted, although no operation returns them, and equality goes wrong. *)
Definition GF4 cfg : FieldAlg (seq Z) :=
  QuotientField cfg (PolyEucl (GF2 cfg)) [:: 1; 1; 1]%Z.
Lemma GF4_contains cfg :
  [/\ returns (contains (GF4 cfg) [:: 5; 7]%Z) true,
      returns (contains (GF4 cfg) [:: 0; 0]%Z) true &
      returns (equals (GF4 cfg) [:: 0; 0]%Z [::]) false].
Proof. by split; run 20%N. Qed.
Lemma QQ_contains_1_0 cfg : panics (contains (QQ cfg) (1, 0)%Z).
Proof. run 10%N. Qed.
Lemma perm_contains_3 : panics (perm_contains 3 [:: 0; 1; 3]).
Proof. run 10%N. Qed.

(** ** Polynomials over rings with zero divisors (C23) *)
Definition Z6 cfg := QuotientRing cfg ZZ 6%Z.
Definition Z4 cfg := QuotientRing cfg ZZ 4%Z.
(** 2x * 3x = 0, but the product returned is [0; 0; 0], which is not a member. *)
Lemma poly_mul_Z6 cfg :
  [/\ returns (contains (PolyRing (Z6 cfg)) [:: 0; 2]%Z) true,
      returns (contains (PolyRing (Z6 cfg)) [:: 0; 3]%Z) true,
      returns (mul (PolyRing (Z6 cfg)) [:: 0; 2]%Z [:: 0; 3]%Z) [:: 0; 0; 0]%Z &
      returns (contains (PolyRing (Z6 cfg)) [:: 0; 0; 0]%Z) false].
Proof. by split; run 20%N. Qed.
(** (1 + 2x)^2 = 1 over Z/4, but try_inv does not find an inverse; the product
    itself is not recognised as one either. *)
Lemma poly_inv_Z4 cfg :
  [/\ returns (contains (PolyRing (Z4 cfg)) [:: 1; 2]%Z) true,
      returns (mul (PolyRing (Z4 cfg)) [:: 1; 2]%Z [:: 1; 2]%Z) [:: 1; 0; 0]%Z &
      returns (try_inv (PolyRing (Z4 cfg)) [:: 1; 2]%Z) None].
Proof. by split; run 20%N. Qed.

(** ** The determinant (C27): the identity matrix with its rows swapped *)
Lemma determinant_swap cfg :
  returns (determinant (QQ cfg) 2 [:: (0, 1); (1, 1); (1, 1); (0, 1)]%Z) (1, 1)%Z.
Proof. run 20%N. Qed.
(** A non-permutation example: det [[0,2],[3,4]] = -6. *)
Lemma determinant_2_3 cfg :
  returns (determinant (QQ cfg) 2 [:: (0, 1); (2, 1); (3, 1); (4, 1)]%Z) (6, 1)%Z.
Proof. run 20%N. Qed.

(** ** Powers of zero in a field (C37) *)
Lemma QQ_power_zero cfg :
  returns (fpower (QQ cfg) 0 (0, 1)%Z) (0, 1)%Z /\
  returns (fpower (QQ cfg) (-1) (0, 1)%Z) (0, 1)%Z.
Proof. by split; run 20%N. Qed.
Lemma BB_power_zero : returns (fpower BB 0 false) false.
Proof. run 3%N. Qed.
(** The number 0 to the power 0 is 1 when computed as a product. *)
Lemma GF2_power_zero cfg : returns (fpower (GF2 cfg) 0 0%Z) 0%Z.
Proof. run 20%N. Qed.

(** ** The greatest common divisor is not normalised *)
Lemma ZZ_gcd_sign : returns (gcd ZZ (-4)%Z 0%Z) (-4)%Z /\ returns (gcd ZZ 0%Z (-4)%Z) (-4)%Z.
Proof. by split; run 20%N. Qed.
(** In a field gcd and extended_gcd return different greatest common divisors. *)
Lemma QQ_gcd_differ cfg :
  returns (gcd (QQ cfg) (2, 1)%Z (0, 1)%Z) (1, 1)%Z /\
  returns (let! r := extended_gcd (QQ cfg) (2, 1)%Z (0, 1)%Z in ret r.1.1) (2, 1)%Z.
Proof. by split; run 20%N. Qed.

Lemma quotient_field_reducible cfg :
  returns (quotient_field_new ZZ 10%Z) tt /\
  returns (contains (QuotientField cfg ZZ 10%Z) 4%Z) true /\
  (forall b : Z, (4 * b mod 10)%Z <> 1%Z) /\
  returns (invertible (QuotientField cfg ZZ 10%Z) 4%Z) true /\
  panics (try_inv (QuotientField cfg ZZ 10%Z) 4%Z).
Proof.
split; first by run 20%N. split; first by run 20%N.
split; last by split; run 20%N.
move=> b h; have := Z.div_mod (4 * b)%Z 10%Z; lia.
Qed.

(** MultiplicativeGroup accepts values that its base does not. *)
Lemma multiplicative_contains_12 cfg :
  returns (contains (MultiplicativeGroup cfg (QuotientRing cfg ZZ 5%Z)) 12%Z) true /\
  returns (contains (QuotientRing cfg ZZ 5%Z) 12%Z) false.
Proof. by split; run 20%N. Qed.
