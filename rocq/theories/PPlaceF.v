(** * PPlaceF.v -- in-place methods of floats that panic leave the place finite. *)

From Coq Require Import ZArith Reals Lra Lia SpecFloat.
From mathcomp Require Import all_ssreflect.
From Flocq Require Import Core BinarySingleNaN.
From Verif Require Import Rust Traits MInts MConstr MFloats MPlace MemberSpec PlaceSpec Wp PPlace.

Set Implicit Arguments.
Unset Strict Implicit.
Unset Printing Implicit Defensive.

Section Floats.
Variables (cfg : Cfg) (prec emax : Z).
Context (hp : Prec_gt_0 prec) (he : Prec_lt_emax prec emax).
Local Notation F := (binary_float prec emax).
Local Notation A := (ApproxFloats cfg hp he).
Local Notation fin := (fun x : F => is_finite x = true).

Lemma floats_default : all_default A.
Proof. by []. Qed.

Lemma store_finite (x : F) (r : F) : fin x -> holds fin (p_store x (finite_result r)).
Proof. by move=> fx k; rewrite /p_store /finite_result /assert; case e: (is_finite r). Qed.

Lemma floats_keeps : keeps fin (default_places A).
Proof.
split; split.
- by move=> x y fx fy; apply: store_finite.
- by move=> x fx; apply: store_finite.
- by move=> x y fx fy; apply: store_finite.
- by move=> x fx; apply: store_finite.
- by move=> x fx; apply: store_finite.
move=> x y fx fy k; rewrite /= /p_after /floats_neg /finite_result /assert.
by case: (is_finite (Bopp y)) => //; exact: store_finite.
Qed.

Lemma floats_places_ok : tracks A (default_places A) /\ untouched (default_places A).
Proof. exact: default_ok floats_default. Qed.
End Floats.
