(** * CompSpec.v -- a client program: the composition v(w) of two polynomials, by Horner's
    rule in the polynomial ring.

      let ring = PolynomialAlgebra::new(field.clone());
      let consts: Vec<_> = v.iter().map(|c| if field.is_zero(c) { vec![] } else { vec![c.clone()] }).collect();
      consts.iter().rev().fold(ring.zero(), |s, c| ring.add(&ring.mul(&s, &w), c)) *)

From Coq Require Import ZArith.
From mathcomp Require Import all_ssreflect.
From Verif Require Import Rust Traits MConstr HomLaw EvalLaw.

Set Implicit Arguments.
Unset Strict Implicit.
Unset Printing Implicit Defensive.

Definition compose (E : Type) (A : FieldAlg E) (v w : seq E) : M (seq E) :=
  let! u := mapM (to_constant A) v in value (PolyEucl A) u w.
