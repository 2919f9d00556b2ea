(** * PRecurEx.v -- the sequence of the examples of Props_Recur.v. *)

From mathcomp Require Import all_ssreflect all_algebra ssrZ.
From Coq Require Import ZArith List.
From Verif Require Import Rust Traits MInts MConstr Spec PropSpec RingSpec Quotient.
From Verif Require Import RingTac PCases PResidue RecurSpec PRecur.

Set Implicit Arguments.
Unset Strict Implicit.
Unset Printing Implicit Defensive.

Import GRing.Theory.
Local Open Scope ring_scope.

Lemma fib_poly : exists P : {poly {fraction [idomainType of Z]}},
  poly_of qq_rep [:: (-1, 1); (-1, 1); (1, 1)]%Z P /\
  forall m : nat, \sum_(i < size P) P`_i * (fib (m + i))%:R = 0.
Proof.
pose s : list {fraction [idomainType of Z]} := [:: -1; -1; 1].
have ps : polyseq (Poly s) = s by rewrite (PolyK (c := 1)) /=; [|exact: oner_neq0].
have m1 : qq_rep (-1, 1)%Z (-1).
  by have := qq_int (-1)%Z; rewrite -[(-1)%Z]/(- (1 : Z)) rmorphN rmorph1.
exists (Poly s); split; first by rewrite /poly_of ps; repeat constructor=> //; exact: qq_1.
move=> m; rewrite ps /= !big_ord_recl big_ord0 /= !addnS !addn0 fib_rec natrD.
exact: fib_zero.
Qed.
Lemma fib_start : Forall2 qq_rep [:: (0, 1); (1, 1)]%Z (mkseq (fun i => (fib i)%:R) 2).
Proof.
have z0 : qq_rep (0, 1)%Z 0 by have := qq_int 0%Z; rewrite -[0%Z]/(0 : Z) rmorph0.
by repeat constructor=> //; exact: qq_1.
Qed.
