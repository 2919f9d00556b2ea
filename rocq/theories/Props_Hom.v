(** * Props_Hom.v -- C66: the natural maps between the structures are homomorphisms.

    [ring_map], [field_map], [one_to_one] and [undoes] (HomLaw.v) list the laws as
    statements about calls; the maps are defined there. *)

From mathcomp Require Import all_ssreflect all_algebra zify ssrZ.
From Coq Require Import ZArith.
From Verif Require Import Rust Traits MInts MConstr Spec PropSpec RingSpec NumSpec Laws TimesLaw HomLaw.
From Verif Require Import PCases PModular.
From Verif Require Import PInts POrders Quotient PTowerEx PHom Refuted.

Import GRing.Theory.
Local Open Scope ring_scope.

(** Remainders are a homomorphism to the quotient: what it sends to zero is the multiples of
    the modulus, and each residue is its own image. *)
Theorem C66_residue : forall (cfg : Cfg) (p : Prop) (E : Type) (R : idomainType)
    (rep : E -> R -> Prop) (AS : assoc_struct R) (S : eucl_struct R) (A : EuclAlg E),
  eucl_alg_spec cfg p rep AS S A ->
  forall (m : R) (modulo : E), m != 0 -> m \isn't a GRing.unit -> rep modulo m ->
  ring_map cfg p (fun x => exists a, rep x a) (to_residue A modulo) A (QuotientRing cfg A modulo).
Proof. exact residue_map. Qed.
Print Assumptions C66_residue.
(** Modulo 10. *)
Example C66_residue_case cfg :
  ring_map cfg False (fun x => exists a, zz_rep x a) (to_residue ZZ 10%Z) ZZ
    (QuotientRing cfg ZZ 10%Z).
Proof.
have mu : (10%Z : [idomainType of Z]) \isn't a GRing.unit by [].
by apply: (C66_residue _ _ _ _ _ _ _ _ (ZZ_ok cfg False) 10%Z).
Qed.
Theorem C66_kernel : forall (cfg : Cfg) (p : Prop) (E : Type) (R : idomainType)
    (rep : E -> R -> Prop) (AS : assoc_struct R) (S : eucl_struct R) (A : EuclAlg E),
  eucl_alg_spec cfg p rep AS S A ->
  forall (m : R) (modulo : E), m != 0 -> m \isn't a GRing.unit -> rep modulo m ->
  forall (x : E) (a : R), rep x a -> holds p (agree
    (let! y := to_residue A modulo x in is_zero (QuotientRing cfg A modulo) y)
    (divisible A x modulo)).
Proof. exact residue_kernel. Qed.
Print Assumptions C66_kernel.
Example C66_kernel_case :
  [/\ (10%Z : [idomainType of Z]) \isn't a GRing.unit,
      returns (let! y := to_residue ZZ 10%Z 30%Z in is_zero (QuotientRing debug64 ZZ 10%Z) y) true,
      returns (let! y := to_residue ZZ 10%Z 25%Z in is_zero (QuotientRing debug64 ZZ 10%Z) y) false,
      returns (divisible ZZ 30%Z 10%Z) true & returns (divisible ZZ 25%Z 10%Z) false].
Proof. by split; [|run 20%nat..]. Qed.
Theorem C66_onto : forall (cfg : Cfg) (p : Prop) (E : Type) (R : idomainType)
    (rep : E -> R -> Prop) (AS : assoc_struct R) (S : eucl_struct R) (A : EuclAlg E),
  eucl_alg_spec cfg p rep AS S A ->
  forall (m : R) (modulo : E), m != 0 -> m \isn't a GRing.unit -> rep modulo m ->
  undoes p (fun x => exists a, residue_of S m rep x a) (fun x => ret x) (to_residue A modulo)
    (QuotientRing cfg A modulo).
Proof. exact residue_onto. Qed.
Print Assumptions C66_onto.
Example C66_onto_case cfg :
  undoes False (fun x => exists a, residue_of Z_eucl (10%Z : Z) zz_rep x a) (fun x => ret x)
    (to_residue ZZ 10%Z) (QuotientRing cfg ZZ 10%Z).
Proof.
have mu : (10%Z : [idomainType of Z]) \isn't a GRing.unit by [].
by apply: (C66_onto _ _ _ _ _ _ _ _ (ZZ_ok cfg False) 10%Z).
Qed.
Theorem C66_residue_field : forall (cfg : Cfg) (p : Prop) (E : Type) (R : idomainType)
    (rep : E -> R -> Prop) (AS : assoc_struct R) (S : eucl_struct R) (A : EuclAlg E),
  eucl_alg_spec cfg p rep AS S A ->
  forall (m : R) (modulo : E), irreducible_elt m -> rep modulo m ->
  ring_map cfg p (fun x => exists a, rep x a) (to_residue A modulo) A
    (QuotientField cfg A modulo).
Proof. exact residue_field_map. Qed.
Print Assumptions C66_residue_field.
Example C66_residue_field_case cfg :
  ring_map cfg False (fun x => exists a, zz_rep x a) (to_residue ZZ 3%Z) ZZ
    (QuotientField cfg ZZ 3%Z).
Proof.
apply: (C66_residue_field _ _ _ _ _ _ _ _ (ZZ_ok cfg False) 3%Z) => //.
exact: prime_irreducible Znumtheory.prime_3.
Qed.
(** From the residues modulo a multiple. *)
Theorem C66_residues : forall (cfg : Cfg) (p : Prop) (E : Type) (R : idomainType)
    (rep : E -> R -> Prop) (AS : assoc_struct R) (S : eucl_struct R) (A : EuclAlg E),
  eucl_alg_spec cfg p rep AS S A ->
  forall (m m' : R) (modulo modulo' : E), m != 0 -> m \isn't a GRing.unit -> rep modulo m ->
  m' != 0 -> m' \isn't a GRing.unit -> rep modulo' m' -> dvds m' m ->
  ring_map cfg p (fun x => exists a, residue_of S m rep x a) (to_residue A modulo')
    (QuotientRing cfg A modulo) (QuotientRing cfg A modulo').
Proof. exact residues_map. Qed.
Print Assumptions C66_residues.
Example C66_base cfg : eucl_alg_spec cfg False zz_rep Z_assoc Z_eucl ZZ.
Proof. exact: ZZ_ok. Qed.
(** Modulo 12 the product of 7 and 11 is 5, and 7, 11, 5 are 3, 3, 1 modulo 4. From the
    residues modulo 5 to those modulo 3 there is no homomorphism: 3 + 4 is 2 modulo 5, but
    0 + 1 is 1. *)
Example C66_residues_case cfg :
  [/\ returns (mul (QuotientRing cfg ZZ 12%Z) 7%Z 11%Z) 5%Z,
      returns (to_residue ZZ 4%Z 7%Z) 3%Z,
      returns (to_residue ZZ 4%Z 11%Z) 3%Z,
      returns (to_residue ZZ 4%Z 5%Z) 1%Z &
      returns (mul (QuotientRing cfg ZZ 4%Z) 3%Z 3%Z) 1%Z] /\
  returns (same (QuotientRing cfg ZZ 3%Z)
    (let! a := add (QuotientRing cfg ZZ 5%Z) 3%Z 4%Z in to_residue ZZ 3%Z a)
    (let! a := to_residue ZZ 3%Z 3%Z in let! b := to_residue ZZ 3%Z 4%Z in
     add (QuotientRing cfg ZZ 3%Z) a b)) false.
Proof. by split; [split|]; run 10%nat. Qed.

(** Fractions with denominator 1. *)
Theorem C66_fraction : forall (cfg : Cfg) (p : Prop) (E : Type) (R : idomainType)
    (rep : E -> R -> Prop) (AS : assoc_struct R) (S : eucl_struct R) (A : EuclAlg E),
  eucl_alg_spec cfg p rep AS S A ->
  ring_map cfg p (fun x => exists a, rep x a) (to_fraction A) A (ReducedFractions cfg A) /\
  one_to_one p (fun x => exists a, rep x a) (to_fraction A) A (ReducedFractions cfg A).
Proof. exact fraction_map. Qed.
Print Assumptions C66_fraction.
Example C66_fraction_case cfg :
  [/\ returns (mul ZZ 6%Z (-4)%Z) (-24)%Z, returns (to_fraction ZZ 6%Z) (6%Z, 1%Z) &
      returns (mul (ReducedFractions cfg ZZ) (6%Z, 1%Z) ((-4)%Z, 1%Z)) ((-24)%Z, 1%Z)].
Proof. by split; run 10%nat. Qed.

(** Constant polynomials. *)
Theorem C66_constant : forall (cfg : Cfg) (p : Prop) (E : Type) (R : idomainType)
    (rep : E -> R -> Prop) (A : RingAlg E),
  ring_alg_spec cfg p rep *%R 1 A ->
  ring_map cfg p (fun x => exists a, rep x a) (to_constant A) A (PolyRing A) /\
  one_to_one p (fun x => exists a, rep x a) (to_constant A) A (PolyRing A).
Proof. exact constant_map. Qed.
Print Assumptions C66_constant.
Example C66_constant_case cfg :
  ring_map cfg False (fun x => exists a, zz_rep x a) (to_constant ZZ) ZZ (PolyRing ZZ).
Proof. by have [] := C66_constant _ _ _ _ _ _ (zz_ring cfg). Qed.
(** A field lies in its extensions. *)
Theorem C66_extension : forall (cfg : Cfg) (p : Prop) (E : Type) (F : fieldType)
    (rep : E -> F -> Prop) (A : FieldAlg E) (m : {poly F}) (modulo : seq E),
  field_alg_spec cfg p rep A -> @irreducible_elt (poly_idomainType F) m ->
  poly_of rep modulo m ->
  field_map cfg p (fun x => exists a, rep x a) (to_constant A) A
    (QuotientField cfg (PolyEucl A) modulo).
Proof. exact constant_field_map. Qed.
Print Assumptions C66_extension.
Example C66_extension_case cfg :
  field_alg_spec cfg False bb_rep BB /\
  @irreducible_elt (poly_idomainType F2) (mval gf4_modulus) /\
  poly_of bb_rep [:: true; true; true] (mval gf4_modulus : {poly F2}) /\
  returns (to_constant BB true) [:: true] /\ returns (to_constant BB false) [::] /\
  returns (fdiv (F4 cfg) [:: true] [:: true]) [:: true].
Proof.
split; first exact: BB_ok.
split; first exact: imodP.
split; first exact: quadratic_of.
by repeat (split; [by run 20%nat|]); run 20%nat.
Qed.

(** The two-element boolean field is the field of the integers modulo 2. *)
Theorem C66_two : forall cfg : Cfg,
  [/\ field_map cfg False (fun _ : bool => True) bool_to_residue BB (QuotientField cfg ZZ 2%Z),
      field_map cfg False (fun x : Z => x = 0%Z \/ x = 1%Z) residue_to_bool
        (QuotientField cfg ZZ 2%Z) BB,
      undoes False (fun _ : bool => True) bool_to_residue residue_to_bool BB
    & undoes False (fun x : Z => x = 0%Z \/ x = 1%Z) residue_to_bool bool_to_residue
        (QuotientField cfg ZZ 2%Z)].
Proof. exact two_map. Qed.
Print Assumptions C66_two.
Example C66_two_case cfg :
  [/\ returns (add BB true true) false,
      returns (add (QuotientField cfg ZZ 2%Z) 1%Z 1%Z) 0%Z,
      returns (bool_to_residue true) 1%Z & returns (residue_to_bool 0%Z) false].
Proof. by split; run 10%nat. Qed.
