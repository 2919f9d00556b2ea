(** * PFloatAlg2.v -- everything built on top of floats keeps finite values. *)

From Coq Require Import ZArith Lia SpecFloat.
From mathcomp Require Import all_ssreflect.
From Flocq Require Import Core BinarySingleNaN.
From Verif Require Import Rust Traits MConstr MFloats ProfSpec FloatProfSpec HaltSpec PHSim PHalt
  PHalt2 PHalt3 PHaltF FloatSpec FloatAlgSpec PFloatAlg.

Set Implicit Arguments.
Unset Strict Implicit.
Unset Printing Implicit Defensive.

Section Towers.
Variables (c : Cfg) (prec emax : Z).
Context (hp : Prec_gt_0 prec) (he : Prec_lt_emax prec emax).
Local Notation B := (ApproxFloats c hp he).
Local Notation fin := (@finite prec emax).
Local Notation r := halts.
Local Notation ok := small_num.

Fixpoint finite_eucl_all E (ty : E -> Prop) A (h : on_eucl fin ty A) {struct h} :
  eucl_alg_rel r ok ty (A B c) (A B c) /\ sane_constants (A B c)
with finite_field_all E (ty : E -> Prop) A (h : on_field fin ty A) {struct h} :
  field_alg_rel r ok ty (A B c) (A B c) /\ sane_constants (A B c).
Proof.
- case: E ty A / h => [E ty A hA|E ty A hA].
  + by have [h1 h2] := finite_field_all _ _ _ hA; split=> //; exact: fi_eucl_alg_rel h1.
  + have [h1 h2] := finite_field_all _ _ _ hA.
    by split; [exact: halt_poly_eucl h1|exact: sane_poly h1 h2].
- case: E ty A / h => [|E ty A m hA hm|E ty A hA].
  + by split; [exact: finite_floats|exact: sane_floats].
  + have [h1 h2] := finite_eucl_all _ _ _ hA.
    by split; [exact: halt_quotient_field h1 hm h2|exact: sane_quotient h2].
  + have [h1 h2] := finite_eucl_all _ _ _ hA.
    by split; [exact: halt_fractions h1 h2|exact: sane_fractions h1 h2].
Qed.
Lemma finite_idom_all E (ty : E -> Prop) A : on_idom fin ty A ->
  idom_alg_rel r ok ty (A B c) (A B c).
Proof.
elim=> {E ty A} [E ty A hA|E ty A _ IH].
  by have [h _] := finite_eucl_all hA; exact: eu_idom_alg_rel h.
exact: halt_poly_idom IH.
Qed.
Lemma finite_ring_all (mat : bool) E (ty : E -> Prop) A : on_ring fin mat ty A ->
  ring_alg_rel r ok ty (A B c) (A B c).
Proof.
elim=> {E ty A} [E ty A hA|E ty A m hA hm|E ty n A _ IH|E ty A _ IH|E ty n A hmat hA].
- exact: id_ring_alg_rel (finite_idom_all hA).
- by have [h _] := finite_eucl_all hA; exact: halt_quotient_ring h hm.
- exact: halt_vector_ring IH.
- exact: halt_poly_ring IH.
- have o1 : ok 1%Z by rewrite /small_num; lia.
  have [h _] := finite_field_all hA; apply: (halt_matrix_ring (n := n) h) => // v Qv.
  by apply: halt_debug; exact: (halt_matrix_is_one n h o1 Qv).
Qed.
Lemma finite_group_all (mat : bool) E (ty : E -> Prop) A : on_group fin mat ty A ->
  group_alg_rel r every_num ty (A B c) (A B c).
Proof.
elim=> {E ty A} [E ty A hA|E ty A hA|E ty n A _ IH].
- by have [] := finite_groups c (finite_ring_all hA).
- by have [] := finite_groups c (finite_ring_all hA).
- exact: halt_vector_group IH.
Qed.
(** The orders of divisibility, and determinants over any of the fields *)
Lemma finite_eucl_stmt E (ty : E -> Prop) A : on_eucl fin ty A ->
  [/\ eucl_alg_rel r ok ty (A B c) (A B c),
      bounded_alg_rel r ty (DivisibilityOrder (A B c)) (DivisibilityOrder (A B c)) &
      lattice_alg_rel r ty (DivisibilityLattice (A B c)) (DivisibilityLattice (A B c))].
Proof.
by move=> /finite_eucl_all[h _]; split=> //;
  [exact: halt_divorder (eu_idom_alg_rel h)|exact: halt_divlattice h].
Qed.
Lemma finite_field_stmt E (ty : E -> Prop) A : on_field fin ty A ->
  field_alg_rel r ok ty (A B c) (A B c) /\
  forall n v, in_vec ty v -> r ty (determinant (A B c) n v) (determinant (A B c) n v).
Proof.
move=> /finite_field_all[h _]; split=> // n v Qv; exact: (halt_determinant n h).
Qed.
End Towers.
