(** * PAssignF.v -- the in-place methods of floats. *)

From Coq Require Import ZArith.
From mathcomp Require Import all_ssreflect.
From Flocq Require Import Core BinarySingleNaN.
From Verif Require Import Rust Traits MConstr MFloats CallSpec PAssign.

Set Implicit Arguments.
Unset Strict Implicit.
Unset Printing Implicit Defensive.

Section Floats.
Variables (cfg : Cfg) (prec emax : Z) (hp : Prec_gt_0 prec) (he : Prec_lt_emax prec emax).
Local Notation A := (ApproxFloats cfg hp he).

Lemma inplace_floats : inplace_ring A.
Proof. by split; split. Qed.
Lemma minus_plus (x y : binary_float prec emax) :
  Bminus mode_NE x y = Bplus mode_NE x (Bopp y).
Proof. by case: x => [s|s||s m e h]; case: y => [s'|s'||s' m' e' h']. Qed.
Lemma floats_sub_assign (x y : binary_float prec emax) :
  same_run (sub_assign A x y) (sub A x y).
Proof.
move=> k; rewrite /= /floats_sub minus_plus /floats_neg /finite_result /bind /=.
case: y => [s|s||s m e h] //=; case: x => [s'|s'||s' m' e' h'] //=. by case: (Bool.eqb _ _).
Qed.
Lemma inplace_floats_all : inplace_ring A /\
  forall x y, same_run (sub_assign A x y) (sub A x y).
Proof. by split; [exact: inplace_floats|exact: floats_sub_assign]. Qed.
Lemma inplace_floats_towers (n : nat) :
  [/\ inplace_ring (VectorRing cfg n A), inplace_ring (PolyRing A) &
      inplace_ring (MatrixRing cfg A n)].
Proof.
have h := inplace_floats.
by split; [exact: inplace_VectorRing|exact: inplace_PolyRing|exact: inplace_MatrixRing].
Qed.
End Floats.
