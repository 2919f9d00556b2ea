(** * Props_RatRoot.v -- C108: fractions that are roots of polynomials. *)

From mathcomp Require Import all_ssreflect all_algebra ssrZ.
From Coq Require Import ZArith List.
From Verif Require Import Rust Traits MInts MConstr Spec PropSpec RingSpec Quotient HomLaw EvalLaw.
From Verif Require Import PInts PIntsZ PFrac PCases PRatRoot PRatRootEx Refuted.

(** If the fraction x is a root of a polynomial with coefficients in A, its numerator divides
    the constant coefficient, and its denominator divides the leading one. [is_root] and
    [to_fraction] are the client programs of EvalLaw.v and HomLaw.v. *)
Theorem C108_divides : forall (cfg : Cfg) (p : Prop) (E : Type) (R : idomainType)
    (rep : E -> R -> Prop) (AS : assoc_struct R) (S : eucl_struct R) (A : EuclAlg E),
  eucl_alg_spec cfg p rep AS S A ->
  forall (c : E) (w : list E) (s : list R) (x : E * E), Forall2 rep (c :: w) s ->
  (exists q : {fraction R}, frac_rep [rmorphism of @FracField.tofrac R] AS rep x q) ->
  returns (let! u := mapM (to_fraction A) (c :: w) in is_root (ReducedFractions cfg A) u x) true ->
  answers p (divisible A c x.1) true /\ answers p (divisible A (seq.last c w) x.2) true.
Proof. exact rational_root. Qed.
Print Assumptions C108_divides.
(** 2/3 is a root of 3 x^2 - 5 x + 2. *)
Example C108_divides_case :
  eucl_alg_spec debug64 False (R := [idomainType of Z]) zz_rep Z_assoc Z_eucl ZZ /\
  Forall2 zz_rep (2 :: -5 :: 3 :: nil)%Z (2 :: -5 :: 3 :: nil)%Z /\
  (exists q, qq_rep (2, 3)%Z q) /\
  returns (let! u := mapM (to_fraction ZZ) (2 :: -5 :: 3 :: nil)%Z in
           is_root (ReducedFractions debug64 ZZ) u (2, 3)%Z) true.
Proof.
split; first exact: ZZ_ok.
split; first by repeat constructor.
split; [exact: two_thirds|by run 200%nat].
Qed.

(** If the leading coefficient is one, the denominator is one. *)
Theorem C108_integral : forall (cfg : Cfg) (p : Prop) (E : Type) (R : idomainType)
    (rep : E -> R -> Prop) (AS : assoc_struct R) (S : eucl_struct R) (A : EuclAlg E),
  eucl_alg_spec cfg p rep AS S A ->
  forall (c : E) (w : list E) (s : list R) (x : E * E), Forall2 rep (c :: w) s ->
  (exists q : {fraction R}, frac_rep [rmorphism of @FracField.tofrac R] AS rep x q) ->
  rep (seq.last c w) 1%R ->
  returns (let! u := mapM (to_fraction A) (c :: w) in is_root (ReducedFractions cfg A) u x) true ->
  answers p (is_one A x.2) true.
Proof. exact integral_root. Qed.
Print Assumptions C108_integral.
(** -3 is a root of x^2 + x - 6. *)
Example C108_integral_case :
  eucl_alg_spec debug64 False (R := [idomainType of Z]) zz_rep Z_assoc Z_eucl ZZ /\
  Forall2 zz_rep (-6 :: 1 :: 1 :: nil)%Z (-6 :: 1 :: 1 :: nil)%Z /\
  (exists q, qq_rep (-3, 1)%Z q) /\
  returns (let! u := mapM (to_fraction ZZ) (-6 :: 1 :: 1 :: nil)%Z in
           is_root (ReducedFractions debug64 ZZ) u (-3, 1)%Z) true.
Proof.
split; first exact: ZZ_ok.
split; first by repeat constructor.
split; [exact: minus_three|by run 200%nat].
Qed.
