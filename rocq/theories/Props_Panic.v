(** * Props_Panic.v -- C57: the documented panics, and no others.

    The records of PanicSpec.v list the methods.  [p := False]: no panic but those
    listed; [p := True]: other panics (overflow) are not excluded. *)

From mathcomp Require Import all_ssreflect all_algebra zify ssrZ.
From Coq Require Import ZArith Znumtheory.
From Verif Require Import Rust Traits MInts MConstr Spec PropSpec RingSpec NumSpec Quotient.
From Verif Require Import PPoly PCases.
From Verif Require Import PanicSpec PInts POrders PModular PQuotProps PFracProps PPanic Refuted.

Import GRing.Theory.
Local Open Scope ring_scope.

(** ** Structures that meet the contracts of Spec.v *)
Theorem C57_idom : forall (cfg : Cfg) (p : Prop) (E : Type) (R : idomainType)
    (rep : E -> R -> Prop) (AS : assoc_struct R) (A : IDomAlg E),
  idom_alg_spec cfg p rep AS A -> idom_panics p (fun x => exists a, rep x a) A.
Proof. exact idom_panics_ok. Qed.
Print Assumptions C57_idom.
Example C57_idom_case : idom_panics False (fun x => exists a, zz_rep x a) ZZ.
Proof. exact: (C57_idom _ _ _ _ _ _ _ (zz_idom debug64)). Qed.
Theorem C57_eucl : forall (cfg : Cfg) (p : Prop) (E : Type) (R : idomainType)
    (rep : E -> R -> Prop) (AS : assoc_struct R) (S : eucl_struct R) (A : EuclAlg E),
  eucl_alg_spec cfg p rep AS S A -> eucl_panics p (fun x => exists a, rep x a) A.
Proof. exact eucl_panics_ok. Qed.
Print Assumptions C57_eucl.
(** Polynomials over the field with two elements. *)
Example C57_eucl_case : eucl_panics False (fun x => exists a, poly_of bb_rep x a) (PolyEucl BB).
Proof. exact: (C57_eucl _ _ _ _ _ _ _ _ (PolyEucl_ok (BB_ok debug64 False))). Qed.
Theorem C57_field : forall (cfg : Cfg) (p : Prop) (E : Type) (F : fieldType)
    (rep : E -> F -> Prop) (A : FieldAlg E),
  field_alg_spec cfg p rep A -> field_panics p (fun x => exists a, rep x a) A.
Proof. exact field_panics_ok. Qed.
Print Assumptions C57_field.
Example C57_field_case : field_panics False (fun x => exists a, qq_rep x a) (QQ debug64).
Proof. exact: (C57_field _ _ _ _ _ _ (qq_field debug64)). Qed.

(** ** The structures of the crate *)
Theorem C57_ZZ : eucl_panics False (fun _ => True) ZZ.
Proof. exact zz_panics. Qed.
Print Assumptions C57_ZZ.
Theorem C57_BB : field_panics False (fun x => exists a, bb_rep x a) BB.
Proof. exact (field_panics_ok (BB_ok (mkCfg true true 64) False)). Qed.
Print Assumptions C57_BB.
Theorem C57_CheckedInts : forall (cfg : Cfg) (w : Z), Z.le 2 w ->
  eucl_panics True (fun x => exists a, ci_rep w x a) (CheckedInts cfg w).
Proof. exact (fun cfg w w2 => eucl_panics_ok (CheckedInts_ok cfg w2)). Qed.
Print Assumptions C57_CheckedInts.
Example C57_CheckedInts_case :
  eucl_panics True (fun x => exists a, ci_rep 8 x a) (I8 debug64) /\ panics (rem (I8 debug64) 7%Z 0%Z).
Proof. by split; [exact: C57_CheckedInts|run 10%nat]. Qed.
Theorem C57_poly : forall (cfg : Cfg) (p : Prop) (E : Type) (R : idomainType)
    (rep : E -> R -> Prop) (AS : assoc_struct R) (A : IDomAlg E),
  idom_alg_spec cfg p rep AS A ->
  idom_panics p (fun x => exists P, poly_of rep x P) (PolyIDom A).
Proof. exact poly_idom_panics. Qed.
Print Assumptions C57_poly.
Example C57_poly_case :
  idom_panics False (fun x => exists P, poly_of zz_rep x P) (PolyIDom ZZ) /\
  panics (try_div (PolyIDom ZZ) [:: 1; 2]%Z [::]).
Proof. by split; [exact: (C57_poly _ _ _ _ _ _ _ (zz_idom debug64))|run 10%nat]. Qed.
Theorem C57_poly_field : forall (cfg : Cfg) (p : Prop) (E : Type) (F : fieldType)
    (rep : E -> F -> Prop) (A : FieldAlg E),
  field_alg_spec cfg p rep A ->
  eucl_panics p (fun x => exists P, poly_of rep x P) (PolyEucl A).
Proof. exact poly_eucl_panics. Qed.
Print Assumptions C57_poly_field.
Example C57_poly_field_case :
  eucl_panics False (fun x => exists P, poly_of qq_rep x P) (PolyEucl (QQ debug64)) /\
  panics (quo (PolyEucl (QQ debug64)) [:: (1, 2)]%Z [::]).
Proof. by split; [exact: (C57_poly_field _ _ _ _ _ _ (qq_field debug64))|run 10%nat]. Qed.
Theorem C57_fractions : forall (cfg : Cfg) (p : Prop) (E : Type) (R : idomainType)
    (rep : E -> R -> Prop) (AS : assoc_struct R) (S : eucl_struct R) (A : EuclAlg E),
  eucl_alg_spec cfg p rep AS S A ->
  field_panics p (fun x => exists a b, fraction_of AS rep x a b) (ReducedFractions cfg A).
Proof. exact fractions_panics. Qed.
Print Assumptions C57_fractions.
Example C57_fractions_case :
  field_panics False (fun x => exists a b, fraction_of Z_assoc zz_rep x a b) (QQ debug64) /\
  panics (finv (QQ debug64) (0, 1)%Z).
Proof. by split; [exact: (C57_fractions _ _ _ _ _ _ _ _ (ZZ_ok debug64 False))|run 10%nat]. Qed.
Theorem C57_quotient : forall (cfg : Cfg) (p : Prop) (E : Type) (R : idomainType)
    (rep : E -> R -> Prop) (AS : assoc_struct R) (S : eucl_struct R) (A : EuclAlg E),
  eucl_alg_spec cfg p rep AS S A ->
  forall (m : R) (modulo : E), irreducible_elt m -> rep modulo m ->
  field_panics p (fun x => exists a, residue_of S m rep x a) (QuotientField cfg A modulo).
Proof. exact quotient_panics. Qed.
Print Assumptions C57_quotient.
Example C57_base cfg : eucl_alg_spec cfg False zz_rep Z_assoc Z_eucl ZZ /\
  irreducible_elt (mval (prime_modulus prime_3)).
Proof. by split; [exact: ZZ_ok|exact: prime_irreducible]. Qed.
Example C57_case cfg :
  [/\ panics (quo_rem ZZ 5%Z 0%Z), panics (try_div ZZ 0%Z 0%Z), returns (gcd ZZ 0%Z 0%Z) 0%Z,
      returns (lcm ZZ 0%Z 0%Z) 0%Z & returns (divisible ZZ 0%Z 0%Z) true] /\
  [/\ panics (fdiv (QQ cfg) (1, 2)%Z (0, 1)%Z), panics (finv (QuotientField cfg ZZ 3%Z) 0%Z),
      panics (rem (PolyEucl BB) [:: true] [::]), returns (lcm (PolyEucl BB) [:: true] [::]) [::] &
      panics (associate_coef (PolyEucl BB) [::])].
Proof. by split; split; run 20%nat. Qed.

(** ** The constructors *)
(** A member as modulus is accepted ... *)
Theorem C57_new : forall (cfg : Cfg) (p : Prop) (E : Type) (R : idomainType)
    (rep : E -> R -> Prop) (AS : assoc_struct R) (S : eucl_struct R) (A : EuclAlg E)
    (modulo : E), eucl_alg_spec cfg p rep AS S A ->
  (forall m, rep modulo m -> runs p (quotient_ring_new A modulo) /\
     runs p (quotient_field_new A modulo)) /\
  runs p (fractions_new A).
Proof. exact quotient_ring_new_ok. Qed.
Print Assumptions C57_new.
(** ... anything else is refused, and so is a base of fractions in which one is zero. *)
Theorem C57_new_panics : forall (E : Type) (A : EuclAlg E) (modulo : E),
  (returns (contains A modulo) false ->
    panics (quotient_ring_new A modulo) /\ panics (quotient_field_new A modulo)) /\
  (returns (let! o := one A in is_zero A o) true -> panics (fractions_new A)).
Proof. exact new_panics. Qed.
Print Assumptions C57_new_panics.
(** The leading coefficient of 1 + 0 x is zero; a "ring" in which everything is zero. *)
Example C57_new_case cfg :
  [/\ panics (quotient_ring_new (PolyEucl BB) [:: true; false]),
      returns (quotient_ring_new (PolyEucl BB) [:: true; true]) tt,
      returns (fractions_new ZZ) tt, returns (fractions_new (QQ cfg)) tt &
      panics (fractions_new (mkEuclAlg (mkIDomAlg (mkRingAlg BB
        (mkCommMonoid (zero BB) (fun _ => ret true) (add BB) (add_assign BB) (double BB)
           (ntimes BB)) BB BB) BB) BB))].
Proof. by split; run 20%nat. Qed.
