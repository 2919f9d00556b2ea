(** * PartSpec.v -- a client program: the fraction x / y.

      let fractions = ReducedFractions::new(ring.clone());
      fractions.div(&(x, ring.one()), &(y, ring.one())) *)

From Coq Require Import ZArith.
From mathcomp Require Import all_ssreflect.
From Verif Require Import Rust Traits MConstr HomLaw.

Set Implicit Arguments.
Unset Strict Implicit.
Unset Printing Implicit Defensive.

Definition over (cfg : Cfg) (E : Type) (A : EuclAlg E) (x y : E) : M (E * E) :=
  let! a := to_fraction A x in
  let! b := to_fraction A y in
  fdiv (ReducedFractions cfg A) a b.
