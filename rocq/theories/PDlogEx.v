(** * PDlogEx.v -- a discrete logarithm in the field of the crate's test [field_256]. *)

From mathcomp Require Import all_ssreflect all_algebra ssrZ zify.
From Coq Require Import ZArith Lia.
From Verif Require Import Rust Traits MInts MConstr Wp Spec PropSpec RingSpec Quotient.
From Verif Require Import TowerSpec PTower FFSpec PFF PIrrEx DlogSpec PDlog Refuted.

Set Implicit Arguments.
Unset Strict Implicit.
Unset Printing Implicit Defensive.


Lemma log_run : returns (discrete_log (field256 debug64) 16 [:: 1; 1]%Z [:: 0; 1]%Z) (Some 25%nat).
Proof. by run 60%nat. Qed.
Lemma power_run : returns (fpower (field256 debug64) 25 [:: 1; 1]%Z) [:: 0; 1]%Z.
Proof. by run 60%nat. Qed.
Lemma field256_log : exists (F : fieldType) (rep : seq Z -> F -> Prop),
  [/\ finite_field debug64 rep (field256 debug64) 256, good_isize debug64 (Z.of_nat 256),
    generates (fun x => exists u, rep x u) (field256 debug64) 256 [:: 1; 1]%Z,
    returns (is_zero (field256 debug64) [:: 1; 1]%Z) false &
    (exists u, rep [:: 0; 1]%Z u) /\ returns (is_zero (field256 debug64) [:: 0; 1]%Z) false].
Proof.
have [F [rep [t gg]]] := field256_generator; exists F, rep.
have g : good_isize debug64 (Z.of_nat 256) by split.
split=> //; try by run 60%nat.
split; last by run 60%nat.
have [a ga] := ge_mem gg; exists (GRing.exp a 25).
have h := pwE t g (n := 25%nat) (x := [:: 1; 1]%Z) (u := a) isT isT ga.
exact: (ensures_value h power_run).
Qed.
Lemma none_run : returns (discrete_log (field256 debug64) 5 [:: 1; 1]%Z [:: 0; 1]%Z) None.
Proof. by run 60%nat. Qed.
Lemma field256_elements : exists (F : fieldType) (rep : seq Z -> F -> Prop),
  field_alg_spec debug64 False rep (field256 debug64) /\
  exists a b, [/\ rep [:: 1; 1]%Z a, rep [:: 0; 1]%Z b & a <> 0%R].
Proof.
have [F [rep [t _ gg g0 [[b hb] _]]]] := field256_log; exists F, rep.
have hF := finite_field_contract t; split=> //; have [a ga] := ge_mem gg.
exists a, b; split=> //; apply/eqP.
by have := ensures_value (is_zero_ok (ri_cm_ok (id_ring_ok (eu_idom_ok (fi_eucl_ok hF)))) ga) g0 => /esym/negbT.
Qed.
