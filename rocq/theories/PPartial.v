(** * PPartial.v -- splitting fractions. *)

From Coq Require Import ZArith Lia List.
From mathcomp Require Import all_ssreflect all_algebra ssrZ zify.
From Verif Require Import Rust Traits MInts MConstr Wp Spec PropSpec RingSpec PDefaults Laws HomLaw.
From Verif Require Import RingTac PLaws PFrac PFracProps PHom DiophSpec PDioph PartSpec.

Set Implicit Arguments.
Unset Strict Implicit.
Unset Printing Implicit Defensive.

Import GRing.Theory.
Local Open Scope ring_scope.

Section Code.
Variables (cfg : Cfg) (p : Prop) (E : Type) (R : idomainType) (rep : E -> R -> Prop).
Variables (AS : assoc_struct R) (S : eucl_struct R) (A : EuclAlg E).
Hypothesis hA : eucl_alg_spec cfg p rep AS S A.
Local Notation phi := [rmorphism of @FracField.tofrac R].
Local Notation F := [fieldType of {fraction R}].
Local Notation frep := (frac_rep (F := F) phi AS rep).
Local Notation Q := (ReducedFractions cfg A).
Let hI := eu_idom_ok hA.
Let hR := id_ring_ok hI.
Let hF := reduced_fractions_contract hA.
Let hQ := id_ring_ok (eu_idom_ok (fi_eucl_ok hF)).
Let phi0 (a : R) : a != 0 -> (phi a : F) != 0.
Proof. by rewrite /= tofrac_eq0. Qed.

Lemma over_ok x a y b : rep x a -> rep y b -> b != 0 ->
  gives p frep (over cfg A x y) (phi a / phi b).
Proof.
move=> xa yb b0; apply: ensures_bind (to_fraction_ok hA xa) _ => u uE.
apply: ensures_bind (to_fraction_ok hA yb) _ => v vE.
exact: (fdiv_ok (fi_fi_ok hF) uE vE (phi0 b0)).
Qed.

Lemma partial_fractions x a y b z c : rep x a -> rep y b -> rep z c -> a != 0 -> b != 0 ->
  returns (relative_primes A x y) true ->
  ensures p (solve A y x z) (fun o => exists w, [/\ o = Some w,
    (exists u, rep w.1 u), (exists v, rep w.2 v) &
    holds p (same Q (let! xy := mul A x y in over cfg A z xy)
      (let! s := over cfg A w.1 x in let! t := over cfg A w.2 y in add Q s t))]).
Proof.
move=> xa yb zc a0 b0 ht.
have [s [t ab]] := (ensures_value (relative_primes_ok (eu_eu_ok hA) xa yb) ht).1 isT.
apply: ensures_mono (solve_ok hA yb xa zc) _ => -[w|]; last first.
  move=> h; case: (h (t * c) (s * c)).
  by rewrite -[RHS]mul1r -ab; cring.
move=> [u [v [wu wv e]]]; exists w; split=> //; [by exists u|by exists v|].
apply: (same_eq (mo_dom_ok (ri_mon_ok hQ)) (u := phi c / phi (a * b) : F)
  (v := phi u / phi a + phi v / phi b)).
- apply: ensures_bind (mul_ok (mo_sg_ok (ri_mon_ok hR)) xa yb) _ => xy xyE.
  by apply: over_ok => //; rewrite mulf_neq0.
- apply: ensures_bind (over_ok wu xa a0) _ => i iE.
  apply: ensures_bind (over_ok wv yb b0) _ => j jE.
  by have := add_ok (ri_cm_ok hQ) iE jE.
by rewrite addf_div ?phi0 // -!rmorphM -rmorphD -e [u * b]mulrC [v * a]mulrC.
Qed.

Lemma split_fraction x a y b z c : rep x a -> rep y b -> rep z c -> a <> 0 -> b <> 0 ->
  returns (relative_primes A x y) true ->
  ensures p (solve A y x z) (fun o => exists w, o = Some w /\
    (exists u, rep w.1 u) /\ (exists v, rep w.2 v) /\
    holds p (same Q (let! xy := mul A x y in over cfg A z xy)
      (let! s := over cfg A w.1 x in let! t := over cfg A w.2 y in add Q s t))).
Proof.
move=> xa yb zc /eqP a0 /eqP b0 ht.
apply: ensures_mono (partial_fractions xa yb zc a0 b0 ht) _ => o [w [? ? ? ?]].
by exists w.
Qed.
End Code.
