(** * RCountSpec.v -- client programs that count the roots of a polynomial in a finite field
    with [k] elements, without trying the elements.

      let ring = PolynomialAlgebra::new(field.clone());
      let mut f = vec![field.zero(); k + 1];
      f[1] = field.neg(&field.one());
      f[k] = field.one();
      let g = ring.gcd(&v, &f);
      g.len() - 1                                           // number of roots *)

From Coq Require Import ZArith.
From mathcomp Require Import all_ssreflect.
From Verif Require Import Rust Traits MConstr.

Set Implicit Arguments.
Unset Strict Implicit.
Unset Printing Implicit Defensive.

Definition field_poly (E : Type) (A : FieldAlg E) (k : nat) : M (seq E) :=
  let! z := zero A in
  let! o := one A in
  let! n := neg A o in
  ret (set_nth z (set_nth z (nseq k.+1 z) 1 n) k o).

Definition root_count (E : Type) (A : FieldAlg E) (k : nat) (v : seq E) : M nat :=
  let! f := field_poly A k in
  let! g := gcd (PolyEucl A) v f in
  ret (size g).-1.
