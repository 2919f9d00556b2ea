(** * Props_Quot.v -- the properties of QuotientRing and QuotientField (C13-C17).

    [residue_of S m rep x a]: the value [x] is a canonical remainder modulo [m]
    with value [a]; [quotient_ring_correct] and its relatives (PropSpec.v) say
    that the methods compute modulo [m]; [residue_ring] and [residue_field]
    (ModSpec.v) say the same for integers, with [Z.modulo]. *)

From mathcomp Require Import all_ssreflect all_algebra zify ssrZ.
From Coq Require Import ZArith Znumtheory.
From Verif Require Import Rust Traits MInts MConstr Spec PropSpec ModSpec NumSpec Laws.
From Verif Require Import PInts Quotient PQuot PModular PQuotProps PModProps Refuted.

Import GRing.Theory.
Local Open Scope ring_scope.

(** ** C13: QuotientRing *)

Theorem C13_operations : forall (cfg : Cfg) (p : Prop) (E : Type) (R : idomainType)
    (rep : E -> R -> Prop) (AS : assoc_struct R) (S : eucl_struct R) (A : EuclAlg E),
  eucl_alg_spec cfg p rep AS S A ->
  forall (m : R) (modulo : E), m != 0 -> m \isn't a GRing.unit -> rep modulo m ->
  quotient_ring_correct p S m rep cfg (QuotientRing cfg A modulo).
Proof. exact quotient_mod. Qed.
Print Assumptions C13_operations.
(** Modulo -10: 7 * 8 = 6, 7 - 8 = 9, -(0) = 0. *)
Example C13_operations_case cfg :
  eucl_alg_spec cfg False zz_rep Z_assoc Z_eucl ZZ /\
  [/\ returns (mul (QuotientRing cfg ZZ (-10)%Z) 7%Z 8%Z) 6%Z,
      returns (sub (QuotientRing cfg ZZ (-10)%Z) 7%Z 8%Z) 9%Z,
      returns (neg (QuotientRing cfg ZZ (-10)%Z) 0%Z) 0%Z &
      returns (contains (QuotientRing cfg ZZ (-10)%Z) 10%Z) false].
Proof. by split; [exact: ZZ_ok|split; run 10%nat]. Qed.

(** Congruent canonical remainders are equal: each class has one representative. *)
Theorem C13_unique : forall (R : idomainType) (S : eucl_struct R) (E : Type)
    (rep : E -> R -> Prop) (m : R) (x y : E) (a b : R), m != 0 ->
  residue_of S m rep x a -> residue_of S m rep y b -> congruent m a b -> a = b.
Proof. exact residue_uniq. Qed.
Print Assumptions C13_unique.
(** 3 and 13 are congruent modulo 10, but 13 is not a canonical remainder. *)
Example C13_unique_case :
  [/\ residue_of Z_eucl (10%Z : Z) zz_rep 3%Z 3%Z, congruent (10%Z : Z) 3%Z 13%Z &
      ~ residue_of Z_eucl (10%Z : Z) zz_rep 13%Z 13%Z].
Proof. by split=> [||[]] //; exists 1%Z. Qed.

(** The same in the language of the contracts: QuotientRing is the ring
    [quot S m], with all ring methods. *)
Theorem C13_contract : forall (cfg : Cfg) (p : Prop) (E : Type) (R : idomainType)
    (rep : E -> R -> Prop) (AS : assoc_struct R) (S : eucl_struct R) (A : EuclAlg E),
  eucl_alg_spec cfg p rep AS S A ->
  forall (m : modulus R) (modulo : E), rep modulo m ->
  ring_alg_spec cfg p (@q_rep E R S m rep) *%R 1 (QuotientRing cfg A modulo).
Proof. exact QuotientRing_ok. Qed.
Print Assumptions C13_contract.
(** Modulo 10. *)
Example C13_contract_case cfg : exists2 m : modulus [idomainType of Z], mval m = 10%Z &
  ring_alg_spec cfg False (@q_rep Z _ Z_eucl m zz_rep) *%R 1 (QuotientRing cfg ZZ 10%Z).
Proof.
have h0 : (10%Z : [idomainType of Z]) != 0 by [].
have hu : (10%Z : [idomainType of Z]) \isn't a GRing.unit by [].
by exists (Modulus h0 hu); last by eapply C13_contract; first exact: ZZ_ok.
Qed.

(** [quot S m] is R/(m): the projection [qpi] is a surjective homomorphism with
    kernel (m). *)
Theorem C13_quotient : forall (R : idomainType) (S : eucl_struct R) (m : modulus R),
  [/\ rmorphism (qpi S m), forall u : quot S m, exists a, qpi S m a = u &
      forall a : R, qpi S m a = 0 <-> dvds (m : R) a].
Proof.
exact (fun R S m => And3 (qpi_is_rmorphism S m) (qpi_surjective (m := m)) (qpi_eq0 S m)).
Qed.
Print Assumptions C13_quotient.
(** Z/(10): 23 and 3 have the same image, 10 is in the kernel. *)
Example C13_quotient_case : exists2 m : modulus [idomainType of Z], mval m = 10%Z &
  qpi Z_eucl m 23%Z = qpi Z_eucl m 3%Z /\ qpi Z_eucl m 3%Z <> 0.
Proof.
have h0 : (10%Z : [idomainType of Z]) != 0 by [].
have hu : (10%Z : [idomainType of Z]) \isn't a GRing.unit by [].
exists (Modulus h0 hu) => //; have [_ _ k] := C13_quotient _ Z_eucl (Modulus h0 hu).
split; first exact: val_inj.
by move=> /k [c]; rewrite [mval _]/= => h; have : (3 = c * 10)%Z by []; lia.
Qed.

(** The laws of a commutative ring, as statements about calls of the methods. *)
Theorem C13_laws : forall (cfg : Cfg) (p : Prop) (E : Type) (R : idomainType)
    (rep : E -> R -> Prop) (AS : assoc_struct R) (S : eucl_struct R) (A : EuclAlg E),
  eucl_alg_spec cfg p rep AS S A ->
  forall (m : R) (modulo : E), m != 0 -> m \isn't a GRing.unit -> rep modulo m ->
  Z.le 2 (ptr_bits cfg) ->
  ring_alg_laws p (fun x => exists a, residue_of S m rep x a) cfg (QuotientRing cfg A modulo) /\
  mul_commutes p (fun x => exists a, residue_of S m rep x a)
    (QuotientRing cfg A modulo) (QuotientRing cfg A modulo).
Proof. exact quotient_laws. Qed.
Print Assumptions C13_laws.
Example C13_laws_case :
  ring_alg_laws False (fun x => exists a, residue_of Z_eucl (10%Z : Z) zz_rep x a) debug64
    (QuotientRing debug64 ZZ 10%Z).
Proof. by eapply C13_laws; first exact: ZZ_ok. Qed.

(** The integers modulo m, without panics and for every m but -1, 0, 1. *)
Theorem C13_ZZ : forall (cfg : Cfg) (m : Z), Z.le 2 (Z.abs m) ->
  residue_ring cfg False (Z.abs m) (QuotientRing cfg ZZ m).
Proof. exact zz_quotient. Qed.
Print Assumptions C13_ZZ.
Example C13_ZZ_case : Z.le 2 (Z.abs 12) /\
  returns (ztimes (QuotientRing debug64 ZZ 12%Z) (-5) 7%Z) 1%Z /\ (-5 * 7 mod 12 = 1)%Z.
Proof. by split; [|split; [run 10%nat|]]. Qed.

(** [contains] decides, among the members of the base, whether an element is
    reduced. *)
Theorem C13_contains : forall (cfg : Cfg) (p : Prop) (E : Type) (R : idomainType)
    (rep : E -> R -> Prop) (AS : assoc_struct R) (S : eucl_struct R) (A : EuclAlg E),
  eucl_alg_spec cfg p rep AS S A ->
  forall (m : R) (modulo x : E) (a : R), m != 0 -> rep modulo m -> rep x a ->
  answers p (contains (QuotientRing cfg A modulo) x) (erem S a m == a) /\
  answers p (contains (QuotientField cfg A modulo) x) (erem S a m == a).
Proof. exact quotient_contains_plain. Qed.
Print Assumptions C13_contains.
Example C13_contains_case cfg :
  answers False (contains (QuotientRing cfg ZZ 10%Z) 13%Z) false /\
  answers False (contains (QuotientField cfg ZZ 7%Z) 3%Z) true.
Proof.
split.
  by refine (proj1 (C13_contains _ _ _ _ _ _ _ _ (ZZ_ok cfg False) 10%Z _ _ 13%Z _ _ _)).
by refine (proj2 (C13_contains _ _ _ _ _ _ _ _ (ZZ_ok cfg False) 7%Z _ _ 3%Z _ _ _)).
Qed.

(** ** C14: try_inv *)

Theorem C14_try_inv : forall (cfg : Cfg) (p : Prop) (E : Type) (R : idomainType)
    (rep : E -> R -> Prop) (AS : assoc_struct R) (S : eucl_struct R) (A : EuclAlg E),
  eucl_alg_spec cfg p rep AS S A ->
  forall (m : R) (modulo : E), m != 0 -> m \isn't a GRing.unit -> rep modulo m ->
  quotient_try_inv_correct p S m rep (QuotientRing cfg A modulo).
Proof. exact quotient_try_inv_mod. Qed.
Print Assumptions C14_try_inv.
Example C14_try_inv_case cfg :
  returns (try_inv (QuotientRing cfg ZZ 10%Z) 7%Z) (Some 3%Z) /\
  returns (try_inv (QuotientRing cfg ZZ 10%Z) 4%Z) None.
Proof. by split; run 20%nat. Qed.

(** ** C15: QuotientField *)

Theorem C15_operations : forall (cfg : Cfg) (p : Prop) (E : Type) (R : idomainType)
    (rep : E -> R -> Prop) (AS : assoc_struct R) (S : eucl_struct R) (A : EuclAlg E),
  eucl_alg_spec cfg p rep AS S A ->
  forall (m : R) (modulo : E), irreducible_elt m -> rep modulo m ->
  quotient_ring_correct p S m rep cfg (QuotientField cfg A modulo).
Proof. exact quotient_field_ring_mod. Qed.
Print Assumptions C15_operations.
(** Modulo 3. *)
Example C15_operations_case cfg :
  quotient_ring_correct False Z_eucl (3%Z : Z) zz_rep cfg (QuotientField cfg ZZ 3%Z).
Proof. by eapply C15_operations; [exact: ZZ_ok|exact: (prime_irreducible prime_3)|]. Qed.
Theorem C15_try_inv : forall (cfg : Cfg) (p : Prop) (E : Type) (R : idomainType)
    (rep : E -> R -> Prop) (AS : assoc_struct R) (S : eucl_struct R) (A : EuclAlg E),
  eucl_alg_spec cfg p rep AS S A ->
  forall (m : R) (modulo : E), irreducible_elt m -> rep modulo m ->
  quotient_try_inv_correct p S m rep (QuotientField cfg A modulo).
Proof. exact quotient_field_try_inv_mod. Qed.
Print Assumptions C15_try_inv.
Example C15_try_inv_case cfg :
  quotient_try_inv_correct False Z_eucl (3%Z : Z) zz_rep (QuotientField cfg ZZ 3%Z).
Proof. by eapply C15_try_inv; [exact: ZZ_ok|exact: (prime_irreducible prime_3)|]. Qed.
Theorem C15_field : forall (cfg : Cfg) (p : Prop) (E : Type) (R : idomainType)
    (rep : E -> R -> Prop) (AS : assoc_struct R) (S : eucl_struct R) (A : EuclAlg E),
  eucl_alg_spec cfg p rep AS S A ->
  forall (m : R) (modulo : E), irreducible_elt m -> rep modulo m ->
  quotient_field_correct p S m rep cfg (QuotientField cfg A modulo).
Proof. exact quotient_field_mod. Qed.
Print Assumptions C15_field.
Example C15_field_case cfg :
  quotient_field_correct False Z_eucl (3%Z : Z) zz_rep cfg (QuotientField cfg ZZ 3%Z).
Proof. by eapply C15_field; [exact: ZZ_ok|exact: (prime_irreducible prime_3)|]. Qed.
(** All methods, including the derived Euclidean ones, for the field [qfield S m]. *)
Theorem C15_contract : forall (cfg : Cfg) (p : Prop) (E : Type) (R : idomainType)
    (rep : E -> R -> Prop) (AS : assoc_struct R) (S : eucl_struct R) (A : EuclAlg E),
  eucl_alg_spec cfg p rep AS S A ->
  forall (m : irr_modulus R) (modulo : E), rep modulo m ->
  field_alg_spec cfg p (@qf_rep E R rep S m) (QuotientField cfg A modulo).
Proof. exact QuotientField_ok. Qed.
Print Assumptions C15_contract.
Example C15_contract_case cfg :
  field_alg_spec cfg False
    (@qf_rep Z _ zz_rep Z_eucl (IrrModulus (prime_irreducible prime_3)))
    (QuotientField cfg ZZ 3%Z).
Proof. by eapply C15_contract; first exact: ZZ_ok. Qed.
Theorem C15_laws : forall (cfg : Cfg) (p : Prop) (E : Type) (R : idomainType)
    (rep : E -> R -> Prop) (AS : assoc_struct R) (S : eucl_struct R) (A : EuclAlg E),
  eucl_alg_spec cfg p rep AS S A ->
  forall (m : R) (modulo : E), irreducible_elt m -> rep modulo m ->
  Z.le 2 (ptr_bits cfg) ->
  field_alg_laws p (fun x => exists a, residue_of S m rep x a) cfg (QuotientField cfg A modulo).
Proof. exact quotient_field_laws. Qed.
Print Assumptions C15_laws.
Example C15_laws_case :
  field_alg_laws False (fun x => exists a, residue_of Z_eucl (3%Z : Z) zz_rep x a) debug64
    (QuotientField debug64 ZZ 3%Z).
Proof. by eapply C15_laws; [exact: ZZ_ok|exact: (prime_irreducible prime_3)| |]. Qed.
(** The integers modulo a prime. *)
Theorem C15_ZZ : forall (cfg : Cfg) (q : Z), prime q ->
  residue_field cfg False q (QuotientField cfg ZZ q).
Proof. exact zz_prime_field. Qed.
Print Assumptions C15_ZZ.
Theorem C15_prime : forall (q : Z) (hq : prime q),
  irreducible_elt (mval (prime_modulus hq)).
Proof. exact prime_irreducible. Qed.
Print Assumptions C15_prime.
Example C15_ZZ_case cfg : prime 3 /\
  [/\ returns (finv (QuotientField cfg ZZ 3%Z) 2%Z) 2%Z,
      returns (fdiv (QuotientField cfg ZZ 3%Z) 1%Z 2%Z) 2%Z,
      returns (fpower (QuotientField debug64 ZZ 3%Z) (-3) 2%Z) 2%Z &
      panics (finv (QuotientField cfg ZZ 3%Z) 0%Z)].
Proof. by split; [exact: prime_3|split; run 20%nat]. Qed.

(** ** C16: the constructor of QuotientField *)

(** The constructor accepts every member of the base ... *)
Theorem C16_new_accepts : forall (cfg : Cfg) (E : Type) (R : idomainType)
    (rep : E -> R -> Prop) (AS : assoc_struct R) (S : eucl_struct R) (A : EuclAlg E),
  eucl_alg_spec cfg False rep AS S A ->
  forall (modulo : E) (m : R), rep modulo m -> returns (quotient_field_new A modulo) tt.
Proof. exact quotient_field_new_any. Qed.
Print Assumptions C16_new_accepts.
Example C16_new_accepts_case : returns (quotient_field_new ZZ 6%Z) tt.
Proof. by eapply C16_new_accepts; first exact: (ZZ_ok debug64). Qed.
(** ... with a unit as modulus [one] is not a member ... *)
Theorem C16_unit : forall (cfg : Cfg) (E : Type) (R : idomainType)
    (rep : E -> R -> Prop) (AS : assoc_struct R) (S : eucl_struct R) (A : EuclAlg E),
  eucl_alg_spec cfg False rep AS S A ->
  forall (modulo : E) (m : R), rep modulo m -> m \is a GRing.unit ->
  exists2 o, returns (one (QuotientField cfg A modulo)) o &
             returns (contains (QuotientField cfg A modulo) o) false.
Proof. exact quotient_unit_modulus. Qed.
Print Assumptions C16_unit.
Example C16_unit_case cfg :
  exists2 o, returns (one (QuotientField cfg ZZ (-1)%Z)) o &
             returns (contains (QuotientField cfg ZZ (-1)%Z) o) false.
Proof. by eapply C16_unit; first exact: ZZ_ok. Qed.
(** ... and with zero as modulus every operation panics. *)
Theorem C16_zero : forall (cfg : Cfg) (E : Type) (R : idomainType)
    (rep : E -> R -> Prop) (AS : assoc_struct R) (S : eucl_struct R) (A : EuclAlg E),
  eucl_alg_spec cfg False rep AS S A ->
  forall (modulo x : E) (a : R) (y : E) (b : R), rep modulo 0 -> rep x a -> rep y b ->
  [/\ panics (mul (QuotientField cfg A modulo) x y),
      panics (add (QuotientField cfg A modulo) x y) &
      panics (neg (QuotientField cfg A modulo) x)].
Proof. exact quotient_zero_modulus_panics. Qed.
Print Assumptions C16_zero.
Example C16_zero_case cfg :
  [/\ panics (mul (QuotientField cfg ZZ 0%Z) 2%Z 3%Z),
      panics (add (QuotientField cfg ZZ 0%Z) 2%Z 3%Z) &
      panics (neg (QuotientField cfg ZZ 0%Z) 2%Z)].
Proof. by eapply C16_zero; first exact: ZZ_ok. Qed.
Theorem C16_refuted : forall cfg : Cfg,
  returns (quotient_field_new ZZ 1%Z) tt /\
  returns (let! o := one (QuotientField cfg ZZ 1%Z) in
           contains (QuotientField cfg ZZ 1%Z) o) false /\
  returns (quotient_field_new ZZ 6%Z) tt /\
  returns (contains (QuotientField cfg ZZ 6%Z) 2%Z) true /\
  panics (finv (QuotientField cfg ZZ 6%Z) 2%Z).
Proof. exact quotient_new_refuted. Qed.
Print Assumptions C16_refuted.

(** ** C17: modular arithmetic with machine integers *)

(** No panics if the square of the largest residue fits ... *)
Theorem C17_total : forall (cfg : Cfg) (w m : Z), Z.le 4 w -> fits w m -> Z.le 2 (Z.abs m) ->
  Z.lt ((Z.abs m - 1) * (Z.abs m - 1))%Z (2 ^ (w - 1)) ->
  residue_ring cfg False (Z.abs m) (QuotientRing cfg (CheckedInts cfg w) m).
Proof. exact ints_quotient_small. Qed.
Print Assumptions C17_total.
Example C17_total_case cfg : residue_ring cfg False 12 (QuotientRing cfg (I8 cfg) (-12)%Z).
Proof. exact: (@C17_total cfg 8 (-12)%Z). Qed.
Theorem C17_field_total : forall (cfg : Cfg) (w q : Z), Z.le 4 w -> prime q ->
  Z.lt ((q - 1) * (q - 1))%Z (2 ^ (w - 1)) ->
  residue_field cfg False q (QuotientField cfg (CheckedInts cfg w) q).
Proof. exact ints_prime_field_small. Qed.
Print Assumptions C17_field_total.
Example C17_field_total_case cfg : residue_field cfg False 3 (QuotientField cfg (I16 cfg) 3%Z).
Proof. by apply: (C17_field_total cfg 16) => //; exact: prime_3. Qed.
Theorem C17_GF2 : forall cfg : Cfg, residue_field cfg False 2 (GF2 cfg).
Proof. exact gf2_field. Qed.
Print Assumptions C17_GF2.
Theorem C17_GF3 : forall cfg : Cfg, residue_field cfg False 3 (GF3 cfg).
Proof. exact gf3_field. Qed.
Print Assumptions C17_GF3.
Example C17_case cfg : fits 8 12 /\ (11 * 11 < 2 ^ 7)%Z /\
  returns (mul (QuotientRing cfg (I8 cfg) 12%Z) 11%Z 11%Z) 1%Z /\
  returns (mul (GF3 cfg) 2%Z 2%Z) 1%Z.
Proof. by split; [split|split; [|split; run 10%nat]]. Qed.

(** ... never a wrong residue for any modulus ... *)
Theorem C17_exact : forall (cfg : Cfg) (w m : Z), Z.le 2 w -> fits w m -> Z.le 2 (Z.abs m) ->
  residue_ring cfg True (Z.abs m) (QuotientRing cfg (CheckedInts cfg w) m).
Proof. exact ints_quotient. Qed.
Print Assumptions C17_exact.
Example C17_exact_case cfg : residue_ring cfg True 100 (QuotientRing cfg (I8 cfg) 100%Z).
Proof. exact: (@C17_exact cfg 8 100%Z). Qed.
Theorem C17_field_exact : forall (cfg : Cfg) (w q : Z), Z.le 2 w -> prime q -> fits w q ->
  residue_field cfg True q (QuotientField cfg (CheckedInts cfg w) q).
Proof. exact ints_prime_field. Qed.
Print Assumptions C17_field_exact.
Example C17_field_exact_case cfg : residue_field cfg True 3 (QuotientField cfg (I8 cfg) 3%Z).
Proof. by apply: (C17_field_exact cfg 8) => //; exact: prime_3. Qed.
(** ... and beyond the bound some product panics. *)
Theorem C17_sharp : forall (cfg : Cfg) (w m : Z), Z.le 2 w -> fits w m -> Z.le 2 (Z.abs m) ->
  Z.le (2 ^ (w - 1)) ((Z.abs m - 1) * (Z.abs m - 1))%Z ->
  panics (mul (QuotientRing cfg (CheckedInts cfg w) m) (Z.abs m - 1)%Z (Z.abs m - 1)%Z) /\
  panics (mul (QuotientField cfg (CheckedInts cfg w) m) (Z.abs m - 1)%Z (Z.abs m - 1)%Z).
Proof. exact ints_quotient_sharp. Qed.
Print Assumptions C17_sharp.
Example C17_sharp_case cfg : fits 8 13 /\ (2 ^ 7 <= 12 * 12)%Z /\
  panics (mul (QuotientField cfg (I8 cfg) 13%Z) 12%Z 12%Z) /\
  returns (mul (QuotientField cfg (I8 cfg) 13%Z) 12%Z 10%Z) 3%Z.
Proof. by split; [split|split; [|split; run 10%nat]]. Qed.
