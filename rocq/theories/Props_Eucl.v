(** * Props_Eucl.v -- the properties of the default methods of the traits, and of
    all structures that use them.

    C03-C06 (gcd, extended_gcd, lcm, relative_primes), C11 (times and power),
    C34 (additive and multiplicative groups), C35 (associates), C36, C37 (fields).
    The contracts (records ending in [_spec]) are those of Spec.v; [p] says
    whether the base may panic, and then the result may be a panic, too. *)

From mathcomp Require Import all_ssreflect all_algebra zify ssrZ.
From Coq Require Import ZArith.
From Verif Require Import Rust Traits MInts MConstr Spec PropSpec Laws.
From Verif Require Import PCases Wp.
From Verif Require Import PDefaults PEucl PGroups PLaws2 PEuclProps PInts POrders PPolyA PPoly Refuted.

Import GRing.Theory.
Local Open Scope ring_scope.

(** ** C03: gcd *)

(** The trait's default gcd, for any [is_zero] and [rem] as in the contract. *)
Theorem C03_default : forall (p : Prop) (E : Type) (R : idomainType) (rep : E -> R -> Prop)
    (S : eucl_struct R) (iz : E -> M bool),
  (forall x a, rep x a -> answers p (iz x) (a == 0)) ->
  forall rm : E -> E -> M E,
  (forall x a y b, rep x a -> rep y b -> b != 0 -> gives p rep (rm x y) (erem S a b)) ->
  forall x a y b, rep x a -> rep y b ->
  ensures p (default_gcd iz rm x y) (fun z => exists2 d, rep z d & is_gcd a b d).
Proof. exact default_gcd_ok. Qed.
Print Assumptions C03_default.
(** The integers, with the remainder of the division of Z. *)
Example C03_default_case :
  ensures False (default_gcd (fun x => ret (Z.eqb x 0)) (fun x y => ret (erem Z_eucl x y)) 12%Z 18%Z)
    (fun z => exists2 d, zz_rep z d & is_gcd (12%Z : Z) 18%Z d).
Proof.
apply: (C03_default False Z _ zz_rep Z_eucl) => //.
  by move=> x a ->; apply: ensures_ret.
by move=> x a y b -> -> _; apply: ensures_ret.
Qed.

(** Every Euclidean domain meeting the contract; in particular, below, the ones
    of the library. *)
Theorem C03_contract : forall (p : Prop) (E : Type) (R : idomainType) (rep : E -> R -> Prop)
    (S : eucl_struct R) (A : EuclideanDomain E),
  eucl_spec p rep S A -> gcd_correct p rep (gcd A).
Proof. exact gcd_correct_ok. Qed.
Print Assumptions C03_contract.
(** Polynomials over the field with two elements. *)
Example C03_contract_case : gcd_correct False (poly_rep bb_rep) (gcd (PolyEucl BB)).
Proof. exact: (C03_contract _ _ _ _ _ _ (eu_eu_ok (PolyEucl_ok (BB_ok debug64 False)))). Qed.

Theorem C03_ZZ : gcd_correct False zz_rep (gcd ZZ).
Proof. exact (gcd_correct_ok (eu_eu_ok (ZZ_ok (mkCfg true true 64) False))). Qed.
Print Assumptions C03_ZZ.
Example C03_ZZ_case : returns (gcd ZZ 12%Z (-18)%Z) 6%Z /\ returns (gcd ZZ 0%Z 0%Z) 0%Z.
Proof. by split; run 10%nat. Qed.

Theorem C03_CheckedInts : forall (cfg : Cfg) (w : Z), Z.le 2 w ->
  gcd_correct True (ci_rep w) (gcd (CheckedInts cfg w)).
Proof. exact (fun cfg w w2 => gcd_correct_ok (eu_eu_ok (CheckedInts_ok cfg w2))). Qed.
Print Assumptions C03_CheckedInts.
Example C03_CheckedInts_case cfg :
  ci_rep 8 (-128)%Z (-128)%Z /\ returns (gcd (I8 cfg) (-128)%Z 96%Z) 32%Z.
Proof. by split; [split|run 10%nat]. Qed.

(** Polynomials over any field. *)
Theorem C03_poly : forall (cfg : Cfg) (p : Prop) (E : Type) (F : fieldType)
    (rep : E -> F -> Prop) (A : FieldAlg E),
  field_alg_spec cfg p rep A -> gcd_correct p (poly_rep rep) (gcd (PolyEucl A)).
Proof. exact (fun _ _ _ _ _ _ h => gcd_correct_ok (eu_eu_ok (PolyEucl_ok h))). Qed.
Print Assumptions C03_poly.
(** gcd(x^2 + 1, x + 1) = x + 1 over the field with two elements. *)
Example C03_poly_case cfg :
  field_alg_spec cfg False bb_rep BB /\
  returns (gcd (PolyEucl BB) [:: true; false; true] [:: true; true]) [:: true; true].
Proof. by split; [exact: BB_ok|run 10%nat]. Qed.

(** Any field, with the gcd of the blanket implementation. *)
Theorem C03_field : forall (cfg : Cfg) (p : Prop) (E : Type) (F : fieldType)
    (rep : E -> F -> Prop) (A : RingAlg E) (FA : Field E),
  ring_alg_spec cfg p rep *%R 1 A -> field_spec cfg p rep FA ->
  gcd_correct p rep (gcd (field_eucl A FA)).
Proof. exact (fun _ _ _ _ _ _ _ h h' => gcd_correct_ok (field_eucl_ok h h')). Qed.
Print Assumptions C03_field.
Example C03_field_case cfg :
  gcd_correct False qq_rep (gcd (field_eucl (QQ cfg) (QQ cfg))) /\
  returns (gcd (QQ cfg) (2, 3)%Z (5, 1)%Z) (1, 1)%Z.
Proof.
split; last run 10%nat.
exact: (C03_field _ _ _ _ _ _ _ (qq_ring cfg) (fi_fi_ok (qq_field cfg))).
Qed.

(** ** C04: extended_gcd *)

Theorem C04_default : forall (p : Prop) (E : Type) (R : idomainType) (rep : E -> R -> Prop)
    (S : eucl_struct R) (iz : E -> M bool),
  (forall x a, rep x a -> answers p (iz x) (a == 0)) ->
  forall (on ze : M E) (ml sb : E -> E -> M E) (qr : E -> E -> M (E * E)) x a y b,
  gives p rep on 1 -> gives p rep ze 0 ->
  (forall x a y b, rep x a -> rep y b -> gives p rep (ml x y) (a * b)) ->
  (forall x a y b, rep x a -> rep y b -> gives p rep (sb x y) (a - b)) ->
  (forall x a y b, rep x a -> rep y b -> b != 0 ->
     ensures p (qr x y) (fun z => rep z.1 (equo S a b) /\ rep z.2 (erem S a b))) ->
  rep x a -> rep y b ->
  ensures p (default_extended_gcd iz on ze ml sb qr x y)
    (fun z => exists d s t, [/\ rep z.1.1 d, rep z.1.2 s & rep z.2 t] /\
       d = s * a + t * b /\ is_gcd a b d).
Proof. exact default_extended_gcd_ok. Qed.
Print Assumptions C04_default.
Example C04_default_case :
  ensures False (default_extended_gcd (fun x => ret (Z.eqb x 0)) (ret 1%Z) (ret 0%Z)
      (fun x y => ret (Z.mul x y)) (fun x y => ret (Z.sub x y))
      (fun x y => ret (equo Z_eucl x y, erem Z_eucl x y)) 12%Z 18%Z)
    (fun z => exists d s t, [/\ zz_rep z.1.1 d, zz_rep z.1.2 s & zz_rep z.2 t] /\
       d = s * 12%Z + t * 18%Z /\ is_gcd (12%Z : Z) 18%Z d).
Proof.
apply: (C04_default False Z _ zz_rep Z_eucl) => //; try by apply: ensures_ret.
- by move=> x a ->; apply: ensures_ret.
- by move=> x a y b -> ->; apply: ensures_ret.
- by move=> x a y b -> ->; apply: ensures_ret.
- by move=> x a y b -> -> _; apply: ensures_ret.
Qed.

Theorem C04_contract : forall (p : Prop) (E : Type) (R : idomainType) (rep : E -> R -> Prop)
    (S : eucl_struct R) (A : EuclideanDomain E),
  eucl_spec p rep S A -> extended_gcd_correct p rep (extended_gcd A).
Proof. exact extended_gcd_correct_ok. Qed.
Print Assumptions C04_contract.
Example C04_contract_case :
  extended_gcd_correct False (poly_rep bb_rep) (extended_gcd (PolyEucl BB)).
Proof. exact: (C04_contract _ _ _ _ _ _ (eu_eu_ok (PolyEucl_ok (BB_ok debug64 False)))). Qed.

Theorem C04_ZZ : extended_gcd_correct False zz_rep (extended_gcd ZZ).
Proof. exact (extended_gcd_correct_ok (eu_eu_ok (ZZ_ok (mkCfg true true 64) False))). Qed.
Print Assumptions C04_ZZ.
Example C04_ZZ_case : returns (extended_gcd ZZ 12%Z 18%Z) (6, -1, 1)%Z.
Proof. run 10%nat. Qed.

Theorem C04_CheckedInts : forall (cfg : Cfg) (w : Z), Z.le 2 w ->
  extended_gcd_correct True (ci_rep w) (extended_gcd (CheckedInts cfg w)).
Proof. exact (fun cfg w w2 => extended_gcd_correct_ok (eu_eu_ok (CheckedInts_ok cfg w2))). Qed.
Print Assumptions C04_CheckedInts.
Example C04_CheckedInts_case cfg :
  ci_rep 8 100%Z 100%Z /\ returns (extended_gcd (I8 cfg) (-128)%Z 100%Z) (4, 7, 9)%Z.
Proof. by split; [split|run 10%nat]. Qed.

Theorem C04_poly : forall (cfg : Cfg) (p : Prop) (E : Type) (F : fieldType)
    (rep : E -> F -> Prop) (A : FieldAlg E),
  field_alg_spec cfg p rep A ->
  extended_gcd_correct p (poly_rep rep) (extended_gcd (PolyEucl A)).
Proof. exact (fun _ _ _ _ _ _ h => extended_gcd_correct_ok (eu_eu_ok (PolyEucl_ok h))). Qed.
Print Assumptions C04_poly.
(** Over two elements 1 = 1 (x^2 + x + 1) + (x + 1) x. *)
Example C04_poly_case cfg :
  field_alg_spec cfg False bb_rep BB /\
  returns (extended_gcd (PolyEucl BB) [:: true; true; true] [:: false; true])
    ([:: true], [:: true], [:: true; true]).
Proof. by split; [exact: BB_ok|run 10%nat]. Qed.

Theorem C04_field : forall (cfg : Cfg) (p : Prop) (E : Type) (F : fieldType)
    (rep : E -> F -> Prop) (A : RingAlg E) (FA : Field E),
  ring_alg_spec cfg p rep *%R 1 A -> field_spec cfg p rep FA ->
  extended_gcd_correct p rep (extended_gcd (field_eucl A FA)).
Proof. exact (fun _ _ _ _ _ _ _ h h' => extended_gcd_correct_ok (field_eucl_ok h h')). Qed.
Print Assumptions C04_field.
Example C04_field_case cfg :
  extended_gcd_correct False qq_rep (extended_gcd (field_eucl (QQ cfg) (QQ cfg))) /\
  returns (extended_gcd (QQ cfg) (2, 3)%Z (5, 1)%Z) ((5, 1), (0, 1), (1, 1))%Z.
Proof.
split; last run 10%nat.
exact: (C04_field _ _ _ _ _ _ _ (qq_ring cfg) (fi_fi_ok (qq_field cfg))).
Qed.

(** ** C05: lcm *)

Theorem C05_contract : forall (p : Prop) (E : Type) (R : idomainType) (rep : E -> R -> Prop)
    (S : eucl_struct R) (A : EuclideanDomain E),
  eucl_spec p rep S A -> lcm_correct p rep (lcm A).
Proof. exact lcm_correct_ok. Qed.
Print Assumptions C05_contract.
Example C05_contract_case : lcm_correct False (poly_rep bb_rep) (lcm (PolyEucl BB)).
Proof. exact: (C05_contract _ _ _ _ _ _ (eu_eu_ok (PolyEucl_ok (BB_ok debug64 False)))). Qed.

Theorem C05_ZZ : lcm_correct False zz_rep (lcm ZZ).
Proof. exact (lcm_correct_ok (eu_eu_ok (ZZ_ok (mkCfg true true 64) False))). Qed.
Print Assumptions C05_ZZ.
Example C05_ZZ_case : [/\ returns (lcm ZZ 12%Z (-18)%Z) (-36)%Z,
  returns (lcm ZZ 0%Z 0%Z) 0%Z & returns (lcm ZZ 5%Z 0%Z) 0%Z].
Proof. by split; run 10%nat. Qed.

Theorem C05_CheckedInts : forall (cfg : Cfg) (w : Z), Z.le 2 w ->
  lcm_correct True (ci_rep w) (lcm (CheckedInts cfg w)).
Proof. exact (fun cfg w w2 => lcm_correct_ok (eu_eu_ok (CheckedInts_ok cfg w2))). Qed.
Print Assumptions C05_CheckedInts.
(** The second product does not fit. *)
Example C05_CheckedInts_case cfg :
  [/\ ci_rep 8 12%Z 12%Z, returns (lcm (I8 cfg) 12%Z (-18)%Z) (-36)%Z &
      panics (lcm (I8 cfg) 12%Z 35%Z)].
Proof. by split; [split|run 10%nat|run 10%nat]. Qed.

Theorem C05_poly : forall (cfg : Cfg) (p : Prop) (E : Type) (F : fieldType)
    (rep : E -> F -> Prop) (A : FieldAlg E),
  field_alg_spec cfg p rep A -> lcm_correct p (poly_rep rep) (lcm (PolyEucl A)).
Proof. exact (fun _ _ _ _ _ _ h => lcm_correct_ok (eu_eu_ok (PolyEucl_ok h))). Qed.
Print Assumptions C05_poly.
(** lcm(x^2 + 1, x^2 + x) = x^3 + x over two elements. *)
Example C05_poly_case :
  returns (lcm (PolyEucl BB) [:: true; false; true] [:: false; true; true])
    [:: false; true; false; true].
Proof. run 10%nat. Qed.

Theorem C05_field : forall (cfg : Cfg) (p : Prop) (E : Type) (F : fieldType)
    (rep : E -> F -> Prop) (A : RingAlg E) (FA : Field E),
  ring_alg_spec cfg p rep *%R 1 A -> field_spec cfg p rep FA ->
  lcm_correct p rep (lcm (field_eucl A FA)).
Proof. exact (fun _ _ _ _ _ _ _ h h' => lcm_correct_ok (field_eucl_ok h h')). Qed.
Print Assumptions C05_field.
Example C05_field_case cfg :
  lcm_correct False qq_rep (lcm (field_eucl (QQ cfg) (QQ cfg))) /\
  returns (lcm (QQ cfg) (2, 3)%Z (0, 1)%Z) (0, 1)%Z.
Proof.
split; last run 10%nat.
exact: (C05_field _ _ _ _ _ _ _ (qq_ring cfg) (fi_fi_ok (qq_field cfg))).
Qed.

(** ** C06: relative_primes *)

Theorem C06_contract : forall (p : Prop) (E : Type) (R : idomainType) (rep : E -> R -> Prop)
    (S : eucl_struct R) (A : EuclideanDomain E),
  eucl_spec p rep S A -> relative_primes_correct p rep (relative_primes A).
Proof. exact relative_primes_correct_ok. Qed.
Print Assumptions C06_contract.
Example C06_contract_case :
  relative_primes_correct False (poly_rep bb_rep) (relative_primes (PolyEucl BB)).
Proof. exact: (C06_contract _ _ _ _ _ _ (eu_eu_ok (PolyEucl_ok (BB_ok debug64 False)))). Qed.

Theorem C06_ZZ : relative_primes_correct False zz_rep (relative_primes ZZ).
Proof. exact (relative_primes_correct_ok (eu_eu_ok (ZZ_ok (mkCfg true true 64) False))). Qed.
Print Assumptions C06_ZZ.
Example C06_ZZ_case :
  returns (relative_primes ZZ 12%Z (-35)%Z) true /\ returns (relative_primes ZZ 12%Z 35%Z) true /\
  returns (relative_primes ZZ 12%Z 33%Z) false.
Proof. by do ?split; run 10%nat. Qed.

Theorem C06_CheckedInts : forall (cfg : Cfg) (w : Z), Z.le 2 w ->
  relative_primes_correct True (ci_rep w) (relative_primes (CheckedInts cfg w)).
Proof. exact (fun cfg w w2 => relative_primes_correct_ok (eu_eu_ok (CheckedInts_ok cfg w2))). Qed.
Print Assumptions C06_CheckedInts.
Example C06_CheckedInts_case cfg :
  [/\ ci_rep 8 (-128)%Z (-128)%Z, returns (relative_primes (I8 cfg) (-128)%Z 127%Z) true &
      returns (relative_primes (I8 cfg) (-128)%Z 126%Z) false].
Proof. by split; [split|run 10%nat|run 10%nat]. Qed.

Theorem C06_poly : forall (cfg : Cfg) (p : Prop) (E : Type) (F : fieldType)
    (rep : E -> F -> Prop) (A : FieldAlg E),
  field_alg_spec cfg p rep A ->
  relative_primes_correct p (poly_rep rep) (relative_primes (PolyEucl A)).
Proof. exact (fun _ _ _ _ _ _ h => relative_primes_correct_ok (eu_eu_ok (PolyEucl_ok h))). Qed.
Print Assumptions C06_poly.
Example C06_poly_case :
  returns (relative_primes (PolyEucl BB) [:: true; true; true] [:: false; true]) true /\
  returns (relative_primes (PolyEucl BB) [:: true; false; true] [:: true; true]) false.
Proof. by split; run 10%nat. Qed.

Theorem C06_field : forall (cfg : Cfg) (p : Prop) (E : Type) (F : fieldType)
    (rep : E -> F -> Prop) (A : RingAlg E) (FA : Field E),
  ring_alg_spec cfg p rep *%R 1 A -> field_spec cfg p rep FA ->
  relative_primes_correct p rep (relative_primes (field_eucl A FA)).
Proof. exact (fun _ _ _ _ _ _ _ h h' => relative_primes_correct_ok (field_eucl_ok h h')). Qed.
Print Assumptions C06_field.
Example C06_field_case cfg :
  relative_primes_correct False qq_rep (relative_primes (field_eucl (QQ cfg) (QQ cfg))) /\
  returns (relative_primes (QQ cfg) (2, 3)%Z (0, 1)%Z) true.
Proof.
split; last run 10%nat.
exact: (C06_field _ _ _ _ _ _ _ (qq_ring cfg) (fi_fi_ok (qq_field cfg))).
Qed.

(** ** C11: times and power *)

(** CommuntativeMonoid::times: the [n]-fold sum ([npow] iterates the operation). *)
Theorem C11_ntimes : forall (p : Prop) (E : Type) (V : eqType) (rep : E -> V -> Prop)
    (op : V -> V -> V) (e : V),
  associative op -> left_id e op -> right_id e op ->
  forall (add_assign : E -> E -> M E) (double : E -> M E),
  (forall x u y v, rep x u -> rep y v -> gives p rep (add_assign x y) (op u v)) ->
  (forall x u, rep x u -> gives p rep (double x) (op u u)) ->
  forall (zero : M E) (n : Z) x u, gives p rep zero e -> Z.le 0 n -> rep x u ->
  gives p rep (default_ntimes zero add_assign double n x) (npow op e u (Z.to_nat n)).
Proof. exact default_ntimes_ok. Qed.
Print Assumptions C11_ntimes.
Example C11_ntimes_case :
  returns (default_ntimes (ret 0%Z) (fun x y => ret (Z.add x y)) (fun x => ret (Z.add x x)) 13 5%Z)
    65%Z /\ npow Z.add 0%Z 5%Z 13 = 65%Z.
Proof. by split; [run 10%nat|vm_compute]. Qed.

(** Group::power: the [n]-fold product, of the inverse if [n] is negative; for
    every isize [n] but isize::MIN. *)
Theorem C11_power : forall (p : Prop) (E : Type) (V : eqType) (rep : E -> V -> Prop)
    (op : V -> V -> V) (e : V),
  associative op -> left_id e op -> right_id e op ->
  forall (mul_assign : E -> E -> M E) (square : E -> M E),
  (forall x u y v, rep x u -> rep y v -> gives p rep (mul_assign x y) (op u v)) ->
  (forall x u, rep x u -> gives p rep (square x) (op u u)) ->
  forall (cfg : Cfg) (one : M E) (inv : E -> M E) (vinv : V -> V) (n : Z) x u,
  gives p rep one e -> (rep x u -> gives p rep (inv x) (vinv u)) ->
  is_isize cfg n /\ n <> imin (ptr_bits cfg) -> rep x u ->
  gives p rep (default_gpower cfg one mul_assign square inv n x) (zpow op e vinv u n).
Proof. exact default_gpower_ok. Qed.
Print Assumptions C11_power.
(** (1, 2, 0) to the power -2 in the symmetric group. *)
Example C11_power_case :
  returns (gpower (Permutations debug64 3) (-2) [:: 1; 2; 0]%nat) [:: 1; 2; 0]%nat /\
  returns (gpower (Permutations debug64 3) 3 [:: 1; 2; 0]%nat) [:: 0; 1; 2]%nat.
Proof. by split; run 10%nat. Qed.

(** AbelianGroup::times. *)
Theorem C11_times : forall (cfg : Cfg) (p : Prop) (E : Type) (V : zmodType)
    (rep : E -> V -> Prop) (dom : Domain E) (cm : CommMonoid E) (neg : E -> M E) (n : Z) x u,
  cmonoid_spec p rep +%R 0 cm ->
  (forall x u, rep x u -> gives p rep (neg x) (- u)) ->
  is_isize cfg n /\ n <> imin (ptr_bits cfg) -> rep x u ->
  gives p rep (default_ztimes cfg dom cm neg n x) (zmul u n).
Proof. exact default_ztimes_ok. Qed.
Print Assumptions C11_times.
Example C11_times_case :
  returns (ztimes (QuotientRing debug64 ZZ 7%Z) (-3) 2%Z) 1%Z.
Proof. run 10%nat. Qed.

(** For isize::MIN the negation overflows: a build with overflow checks panics,
    a build without returns the neutral element. *)
Theorem C11_min_checks : forall (cfg : Cfg) (E : Type) (one : M E)
    (mul_assign : E -> E -> M E) (square inv : E -> M E) x,
  Z.le 1 (ptr_bits cfg) -> overflow_checks cfg ->
  panics (default_gpower cfg one mul_assign square inv (imin (ptr_bits cfg)) x).
Proof. exact gpower_min_checks. Qed.
Print Assumptions C11_min_checks.
Example C11_min_checks_case :
  [/\ Z.le 1 (ptr_bits debug64), overflow_checks debug64 &
      panics (gpower (Permutations debug64 3) (imin 64) [:: 1; 2; 0]%nat)].
Proof. by split; last exact: C11_min_checks. Qed.
Theorem C11_min_wraps : forall (cfg : Cfg) (E : Type) (one : M E)
    (mul_assign : E -> E -> M E) (square inv : E -> M E) x,
  Z.le 1 (ptr_bits cfg) -> forall y v, overflow_checks cfg = false ->
  returns (inv x) y -> returns one v ->
  returns (default_gpower cfg one mul_assign square inv (imin (ptr_bits cfg)) x) v.
Proof. exact gpower_min_wraps. Qed.
Print Assumptions C11_min_wraps.
(** The permutation (1, 2, 0) has order three, and 2^63 is not divisible by three. *)
Example C11_min_wraps_case :
  overflow_checks release64 = false /\
  returns (gpower (Permutations release64 3) (imin 64) [:: 1; 2; 0]%nat) [:: 0; 1; 2]%nat.
Proof.
split=> //; apply: C11_min_wraps => //; last by run 10%nat.
by instantiate (1 := [:: 2; 0; 1]%nat); run 10%nat.
Qed.
Theorem C11_min_refuted :
  panics (ztimes (QuotientRing debug64 ZZ 5%Z) (imin 64) 1%Z) /\
  returns (ztimes (QuotientRing release64 ZZ 5%Z) (imin 64) 1%Z) 0%Z /\
  (imin 64 mod 5)%Z = 2%Z.
Proof. exact (conj mod5_times_min_debug mod5_times_min_release). Qed.
Print Assumptions C11_min_refuted.

(** ** C34: additive and multiplicative groups *)

Theorem C34_additive : forall (cfg : Cfg) (p : Prop) (E : Type) (V : zmodType)
    (rep : E -> V -> Prop) (A : AbelianAlg E),
  abelian_alg_spec cfg p rep A ->
  group_alg_spec cfg p rep +%R 0 -%R (AdditiveGroup cfg A).
Proof. exact additive_group_ok. Qed.
Print Assumptions C34_additive.
Example C34_additive_case :
  returns (mul (AdditiveGroup debug64 ZZ) 3%Z 4%Z) 7%Z /\
  returns (gpower (AdditiveGroup debug64 ZZ) (-5) 7%Z) (-35)%Z.
Proof. by split; run 10%nat. Qed.

(** The units of any monoid, [inv] being their inverse. *)
Theorem C34_multiplicative : forall (cfg : Cfg) (p : Prop) (E : Type) (V : eqType)
    (rep : E -> V -> Prop) (op : V -> V -> V) (e : V) (inv : V -> V) (A : MonoidAlg E),
  associative op -> left_id e op -> right_id e op -> monoid_alg_spec p rep op e A ->
  (forall u, (exists v, inverse_of op e u v) -> inverse_of op e u (inv u)) ->
  group_alg_spec cfg p (fun x u => rep x u /\ exists v, inverse_of op e u v) op e inv
    (MultiplicativeGroup cfg A).
Proof. exact multiplicative_group_ok. Qed.
Print Assumptions C34_multiplicative.
Example C34_multiplicative_case :
  returns (gpower (MultiplicativeGroup debug64 (QuotientRing debug64 ZZ 9%Z)) (-2) 2%Z) 7%Z /\
  returns (ginv (MultiplicativeGroup debug64 ZZ) (-1)%Z) (-1)%Z.
Proof. by split; run 10%nat. Qed.

Theorem C34_multiplicative_contains : forall (cfg : Cfg) (p : Prop) (E : Type) (V : eqType)
    (rep : E -> V -> Prop) (op : V -> V -> V) (e : V) (A : MonoidAlg E),
  monoid_alg_spec p rep op e A -> forall x u, rep x u ->
  decides p (contains (MultiplicativeGroup cfg A) x)
    (rep x u /\ exists v, inverse_of op e u v).
Proof. exact multiplicative_contains. Qed.
Print Assumptions C34_multiplicative_contains.
Example C34_multiplicative_contains_case :
  returns (contains (MultiplicativeGroup debug64 (QuotientRing debug64 ZZ 9%Z)) 2%Z) true /\
  returns (contains (MultiplicativeGroup debug64 (QuotientRing debug64 ZZ 9%Z)) 6%Z) false.
Proof. by split; run 10%nat. Qed.

(** The group laws as equations between calls. *)
Theorem C34_laws : forall (cfg : Cfg) (p : Prop) (E : Type), Z.le 2 (ptr_bits cfg) ->
  forall (V : eqType) (rep : E -> V -> Prop) (mem : E -> Prop) op e inv (A : GroupAlg E),
  (forall x, mem x -> exists u, rep x u) ->
  associative op -> left_id e op -> right_id e op ->
  (forall x u, rep x u -> inverse_of op e u (inv u)) ->
  group_alg_spec cfg p rep op e inv A -> group_alg_laws p mem cfg A.
Proof. exact group_alg_laws_ok. Qed.
Print Assumptions C34_laws.
(** The additive group of the integers. *)
Example C34_laws_case :
  group_alg_laws False (fun _ : Z => True) debug64 (AdditiveGroup debug64 (ring_abelian ZZ)).
Proof.
apply: (C34_laws debug64 False Z _ _ zz_rep _ _ _ _ _ _ _ _ _ _ (zz_group debug64)) => //.
- by move=> x _; exists x.
- exact: addrA.
- exact: addr0.
- by move=> x u _; split; rewrite ?addNr ?addrN.
Qed.

(** ** C35: associate representatives *)

Theorem C35_contract : forall (p : Prop) (E : Type) (R : idomainType) (rep : E -> R -> Prop)
    (S : assoc_struct R) (A : IntegralDomain E),
  idom_spec p rep S A -> associates_correct p rep A.
Proof. exact associates_correct_ok. Qed.
Print Assumptions C35_contract.
Example C35_contract_case : associates_correct False (poly_rep zz_rep) (PolyIDom ZZ).
Proof. exact: (C35_contract _ _ _ _ _ _ (id_id_ok (PolyIDom_ok (zz_idom debug64)))). Qed.

Theorem C35_ZZ : associates_correct False zz_rep ZZ.
Proof. exact (associates_correct_ok (ZZ_idom_ok False)). Qed.
Print Assumptions C35_ZZ.
Example C35_ZZ_case :
  [/\ returns (associate_repr ZZ (-6)%Z) 6%Z, returns (associate_coef ZZ (-6)%Z) (-1)%Z &
      returns (associates ZZ (-6)%Z 6%Z) true].
Proof. by split; run 10%nat. Qed.

Theorem C35_CheckedInts : forall (cfg : Cfg) (w : Z), Z.le 2 w ->
  associates_correct True (ci_rep w) (CheckedInts cfg w).
Proof. exact (fun cfg w w2 => associates_correct_ok (id_id_ok (eu_idom_ok (CheckedInts_ok cfg w2)))). Qed.
Print Assumptions C35_CheckedInts.
Example C35_CheckedInts_case cfg :
  [/\ ci_rep 8 (-128)%Z (-128)%Z, returns (associate_repr (I8 cfg) (-127)%Z) 127%Z &
      panics (associate_repr (I8 cfg) (-128)%Z)].
Proof. by split; [split|run 10%nat|run 10%nat]. Qed.

Theorem C35_poly : forall (cfg : Cfg) (p : Prop) (E : Type) (R : idomainType)
    (rep : E -> R -> Prop) (A : IDomAlg E) (S : assoc_struct R),
  idom_alg_spec cfg p rep S A -> associates_correct p (poly_rep rep) (PolyIDom A).
Proof. exact (fun _ _ _ _ _ _ _ h => associates_correct_ok (id_id_ok (PolyIDom_ok h))). Qed.
Print Assumptions C35_poly.
Example C35_poly_case :
  returns (associate_repr (PolyIDom ZZ) [:: 3; -2]%Z) [:: -3; 2]%Z /\
  returns (associate_coef (PolyIDom ZZ) [:: 3; -2]%Z) [:: -1]%Z.
Proof. by split; run 10%nat. Qed.

Theorem C35_field : forall (cfg : Cfg) (p : Prop) (E : Type) (F : fieldType)
    (rep : E -> F -> Prop) (A : RingAlg E) (FA : Field E),
  ring_alg_spec cfg p rep *%R 1 A -> field_spec cfg p rep FA ->
  associates_correct p rep (field_idom A FA).
Proof. exact (fun _ _ _ _ _ _ _ h h' => associates_correct_ok (field_idom_ok h h')). Qed.
Print Assumptions C35_field.
Example C35_field_case cfg :
  associates_correct False qq_rep (field_idom (QQ cfg) (QQ cfg)) /\
  returns (associate_coef (QQ cfg) (2, 3)%Z) (3, 2)%Z.
Proof.
split; last run 10%nat.
exact: (C35_field _ _ _ _ _ _ _ (qq_ring cfg) (fi_fi_ok (qq_field cfg))).
Qed.

(** ** C36: fields are Euclidean domains *)

Theorem C36_field : forall (cfg : Cfg) (p : Prop) (E : Type) (F : fieldType)
    (rep : E -> F -> Prop) (A : RingAlg E) (FA : Field E),
  ring_alg_spec cfg p rep *%R 1 A -> field_spec cfg p rep FA ->
  idom_spec p rep (field_assoc F) (field_idom A FA) /\
  eucl_spec p rep (field_estruct F) (field_eucl A FA).
Proof. exact (fun _ _ _ _ _ _ _ h h' => conj (field_idom_ok h h') (field_eucl_ok h h')). Qed.
Print Assumptions C36_field.
(** The contract above is about this division: *)
Example C36_field_case (F : fieldType) (a b : F) :
  equo (field_estruct F) a b = a / b /\ erem (field_estruct F) a b = 0.
Proof. by []. Qed.

Theorem C36_gcd : forall (cfg : Cfg) (p : Prop) (E : Type) (F : fieldType)
    (rep : E -> F -> Prop) (A : RingAlg E),
  ring_alg_spec cfg p rep *%R 1 A -> forall x a y b, rep x a -> rep y b ->
  gives p rep (field_gcd A x y) (if (a == 0) && (b == 0) then 0 else 1).
Proof. exact field_gcd_value. Qed.
Print Assumptions C36_gcd.
Example C36_gcd_case cfg :
  ring_alg_spec cfg False qq_rep *%R 1 (QQ cfg) /\
  [/\ returns (field_gcd (QQ cfg) (2, 3)%Z (0, 1)%Z) (1, 1)%Z &
      returns (field_gcd (QQ cfg) (0, 1)%Z (0, 1)%Z) (0, 1)%Z].
Proof. by split; [exact: qq_ring|split; run 10%nat]. Qed.

Theorem C36_lcm : forall (cfg : Cfg) (p : Prop) (E : Type) (F : fieldType)
    (rep : E -> F -> Prop) (A : RingAlg E),
  ring_alg_spec cfg p rep *%R 1 A -> forall x a y b, rep x a -> rep y b ->
  gives p rep (field_lcm A x y) (if (a == 0) || (b == 0) then 0 else 1).
Proof. exact field_lcm_value. Qed.
Print Assumptions C36_lcm.
Example C36_case cfg :
  returns (gcd (QQ cfg) (2, 3)%Z (0, 1)%Z) (1, 1)%Z /\ returns (lcm (QQ cfg) (2, 3)%Z (5, 1)%Z) (1, 1)%Z.
Proof. by split; run 10%nat. Qed.

(** The laws as equations between calls, for any structure meeting the contract. *)
Theorem C36_laws : forall (cfg : Cfg) (p : Prop) (E : Type), Z.le 2 (ptr_bits cfg) ->
  forall (F : fieldType) (rep : E -> F -> Prop) (mem : E -> Prop) (A : FieldAlg E),
  (forall x, mem x -> exists u, rep x u) ->
  field_alg_spec cfg p rep A -> field_alg_laws p mem cfg A.
Proof. exact field_alg_laws_ok. Qed.
Print Assumptions C36_laws.
Example C36_laws_case :
  field_alg_laws False (fun x => exists u, qq_rep x u) debug64 (QQ debug64).
Proof. exact: (C36_laws _ _ _ _ _ qq_rep _ _ _ (qq_field debug64)). Qed.

(** ** C37: Field::power *)

Theorem C37_power_partial : forall (cfg : Cfg) (p : Prop) (E : Type) (F : fieldType)
    (rep : E -> F -> Prop) (A : RingAlg E),
  ring_alg_spec cfg p rep *%R 1 A -> forall (n : Z) x a,
  is_isize cfg n /\ n <> imin (ptr_bits cfg) -> rep x a -> a != 0 ->
  gives p rep (default_fpower cfg A (is_zero A) (zero A) n x) (zexp a n).
Proof. exact default_fpower_ok. Qed.
Print Assumptions C37_power_partial.
Example C37_power_case :
  returns (fpower (QQ debug64) (-3) (2, 3)%Z) (27, 8)%Z /\
  returns (fpower (QQ debug64) 0 (2, 3)%Z) (1, 1)%Z.
Proof. by split; run 10%nat. Qed.

(** Powers of zero are zero, whatever the exponent ... *)
Theorem C37_zero : forall (cfg : Cfg) (p : Prop) (E : Type) (F : fieldType)
    (rep : E -> F -> Prop) (A : RingAlg E),
  ring_alg_spec cfg p rep *%R 1 A -> forall (n : Z) x, rep x 0 ->
  gives p rep (default_fpower cfg A (is_zero A) (zero A) n x) 0.
Proof. exact default_fpower_zero. Qed.
Print Assumptions C37_zero.
Example C37_zero_case cfg :
  ring_alg_spec cfg False qq_rep *%R 1 (QQ cfg) /\
  returns (fpower (QQ cfg) 5 (0, 1)%Z) (0, 1)%Z.
Proof. by split; [exact: qq_ring|run 10%nat]. Qed.
(** ... so 0^0 is not 1, and 0^(-1) does not panic. *)
Theorem C37_refuted : forall cfg : Cfg,
  returns (fpower (QQ cfg) 0 (0, 1)%Z) (0, 1)%Z /\
  returns (fpower (QQ cfg) (-1) (0, 1)%Z) (0, 1)%Z.
Proof. exact QQ_power_zero. Qed.
Print Assumptions C37_refuted.
