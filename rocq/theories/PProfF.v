(** * PProfF.v -- floats and the structures over them compute the same in all profiles. *)

From Coq Require Import ZArith Lia.
From mathcomp Require Import all_ssreflect all_algebra zify ssrZ.
From Flocq Require Import Core BinarySingleNaN.
From Verif Require Import Rust Traits MInts MConstr MFloats Wp PSim PGSim CallSpec
  ProfSpec PProf PProf2 PProf3 FloatProfSpec.

Set Implicit Arguments.
Unset Strict Implicit.
Unset Printing Implicit Defensive.

Section Prof.
Variables (st : Prop) (c1 c2 : Cfg) (ok : Z -> Prop).
Hypothesis okP : forall n, ok n -> Z.ltb n Z0 ->
  gsim st any (prim_i c1 (ptr_bits c1) (Z.opp n)) (prim_i c2 (ptr_bits c2) (Z.opp n)).
Local Notation r := (@gsim st).

(** ** Floats *)
Section Floats.
Variables (prec emax : Z).
Context (prec_gt_0 : Prec_gt_0 prec) (prec_lt_emax : Prec_lt_emax prec emax).

Lemma prof_floats_ring : ring_alg_rel r ok any
  (floats_ring prec_gt_0 prec_lt_emax) (floats_ring prec_gt_0 prec_lt_emax).
Proof.
have same T (m : M T) : r any m m by exact: gsim_refl.
have so T (m : M (option T)) : r (in_option any) m m.
  by apply: gsim_mono (same _ m) _ => -[].
split; [split; split|split|split|split].
all: first [exact: same|move=> x _; exact: same|move=> x y _ _; exact: same|move=> x _; exact: so|
  move=> n _ x _; exact: same|move=> n _; exact: same].
Qed.
Lemma prof_floats : field_alg_rel r ok any
  (ApproxFloats c1 prec_gt_0 prec_lt_emax) (ApproxFloats c2 prec_gt_0 prec_lt_emax).
Proof.
have h := prof_floats_ring.
apply: prof_field_alg => //; split; try by move=> *; exact: gsim_refl.
move=> n okn x Qx; apply: (prof_fpower okP (ri_monoid_alg_rel h)) => //.
all: try by move=> *; exact: gsim_refl.
Qed.
End Floats.

(** ** The structures over a field *)
Variables (B : Type) (real : B -> Prop) (B1 B2 : FieldAlg B).
Hypothesis ok1 : ok (Zpos xH).
Hypothesis hB : field_alg_rel r ok real B1 B2.

Fixpoint on_eucl_all E (ty : E -> Prop) A (h : on_eucl real ty A) {struct h} :
  eucl_alg_rel r ok ty (A B1 c1) (A B2 c2)
with on_field_all E (ty : E -> Prop) A (h : on_field real ty A) {struct h} :
  field_alg_rel r ok ty (A B1 c1) (A B2 c2).
Proof.
- case: E ty A / h => [E ty A hA|E ty A hA].
  + exact: fi_eucl_alg_rel (on_field_all _ _ _ hA).
  + exact: prof_poly_eucl (on_field_all _ _ _ hA).
- case: E ty A / h => [|E ty A m hA hm|E ty A hA].
  + exact: hB.
  + exact: (prof_quotient_field okP (on_eucl_all _ _ _ hA) hm).
  + exact: (prof_fractions okP (on_eucl_all _ _ _ hA)).
Qed.
Lemma on_idom_all E (ty : E -> Prop) A : on_idom real ty A ->
  idom_alg_rel r ok ty (A B1 c1) (A B2 c2).
Proof.
elim=> {E ty A} [E ty A hA|E ty A _ IH].
  exact: eu_idom_alg_rel (on_eucl_all hA).
exact: prof_poly_idom IH.
Qed.
Lemma on_ring_all (mat : bool) E (ty : E -> Prop) A : (mat -> debug_follows st c1 c2) ->
  on_ring real mat ty A -> ring_alg_rel r ok ty (A B1 c1) (A B2 c2).
Proof.
move=> hdbg; elim=> {E ty A} [E ty A hA|E ty A m hA hm|E ty n A _ IH|E ty A _ IH|E ty n A hm hA].
- exact: id_ring_alg_rel (on_idom_all hA).
- exact: (prof_quotient_ring okP (on_eucl_all hA) hm).
- exact: (prof_vector_ring okP n IH).
- exact: prof_poly_ring IH.
- apply: (prof_matrix_ring okP (n := n) (on_field_all hA) ok1) => v Qv.
  by apply: (hdbg hm); exact: (prof_matrix_is_one n (on_field_all hA) ok1 Qv).
Qed.
Lemma on_group_all (mat : bool) E (ty : E -> Prop) A : (mat -> debug_follows st c1 c2) ->
  on_group real mat ty A -> group_alg_rel r ok ty (A B1 c1) (A B2 c2).
Proof.
move=> hdbg; elim=> {E ty A} [E ty A hA|E ty A hA|E ty n A _ IH].
- have [[hD _ _] hC hG _] := on_ring_all hdbg hA.
  exact: (prof_additive okP hD hC (neg_rel hG)).
- exact: (prof_multiplicative okP (ri_monoid_alg_rel (on_ring_all hdbg hA))).
- exact: (prof_vector_group okP n IH).
Qed.
End Prof.

(** ** The statements *)
Section Statements.
Variables (c1 c2 : Cfg) (prec emax : Z).
Context (prec_gt_0 : Prec_gt_0 prec) (prec_lt_emax : Prec_lt_emax prec emax).
Local Notation B1 := (ApproxFloats c1 prec_gt_0 prec_lt_emax).
Local Notation B2 := (ApproxFloats c2 prec_gt_0 prec_lt_emax).
Local Notation real := (fun _ : binary_float prec emax => True).

Section Agree.
Hypotheses (hc : same_machine c1 c2) (h2 : Z.le (Zpos (xO xH)) (ptr_bits c1)).
Local Notation ok := (not_min c1).
Let okP n := @not_minP c1 c2 n hc.
Let hB : field_alg_rel (@gsim True) ok real B1 B2 := prof_floats okP _ _.

Lemma float_agree_eucl E (ty : E -> Prop) A : on_eucl real ty A ->
  eucl_alg_rel agree ok ty (A B1 c1) (A B2 c2) /\
  lattice_alg_rel agree ty (DivisibilityLattice (A B1 c1)) (DivisibilityLattice (A B2 c2)).
Proof.
move=> hA; have h := on_eucl_all okP hB hA.
split; first exact: (map_eucl_alg (@gsim_agree) h).
exact: (map_lattice_alg (@gsim_agree) (prof_divlattice h)).
Qed.
Lemma float_agree_field E (ty : E -> Prop) A : on_field real ty A ->
  field_alg_rel agree ok ty (A B1 c1) (A B2 c2) /\
  forall n v, in_vec ty v -> agree ty (determinant (A B1 c1) n v) (determinant (A B2 c2) n v).
Proof.
move=> hA; have h := on_field_all okP hB hA.
split=> [|n v Qv]; first exact: (map_field_alg (@gsim_agree) h).
exact: gsim_agree (prof_determinant n h Qv).
Qed.
Lemma float_agree_idom E (ty : E -> Prop) A : on_idom real ty A ->
  idom_alg_rel agree ok ty (A B1 c1) (A B2 c2) /\
  bounded_alg_rel agree ty (DivisibilityOrder (A B1 c1)) (DivisibilityOrder (A B2 c2)).
Proof.
move=> hA; have h := on_idom_all okP hB hA.
split; first exact: (map_idom_alg (@gsim_agree) h).
exact: (map_bounded_alg (@gsim_agree) (prof_divorder h)).
Qed.
Lemma float_agree_ring E (ty : E -> Prop) A : on_ring real false ty A ->
  ring_alg_rel agree ok ty (A B1 c1) (A B2 c2).
Proof.
move=> hA; apply: (map_ring_alg (@gsim_agree)).
by apply: on_ring_all hA => //; exact: not_min1.
Qed.
Lemma float_agree_group E (ty : E -> Prop) A : on_group real false ty A ->
  group_alg_rel agree ok ty (A B1 c1) (A B2 c2).
Proof.
move=> hA; apply: (map_group_alg (@gsim_agree)).
by apply: on_group_all hA => //; exact: not_min1.
Qed.
End Agree.

Section Follows.
Hypothesis hc : stricter c1 c2.
Local Notation ok := (fun _ : Z => True).
Let okP n : ok n -> Z.ltb n Z0 ->
  gsim False any (prim_i c1 (ptr_bits c1) (Z.opp n)) (prim_i c2 (ptr_bits c2) (Z.opp n)).
Proof. by move=> _ _; exact: stricterP. Qed.
Let hB : field_alg_rel (@gsim False) ok real B1 B2 := prof_floats okP _ _.

Lemma float_follows_eucl E (ty : E -> Prop) A : on_eucl real ty A ->
  eucl_alg_rel follows ok ty (A B1 c1) (A B2 c2) /\
  lattice_alg_rel follows ty (DivisibilityLattice (A B1 c1)) (DivisibilityLattice (A B2 c2)).
Proof.
move=> hA; have h := on_eucl_all okP hB hA.
split; first exact: (map_eucl_alg (@gsim_follows) h).
exact: (map_lattice_alg (@gsim_follows) (prof_divlattice h)).
Qed.
Lemma float_follows_field E (ty : E -> Prop) A : on_field real ty A ->
  field_alg_rel follows ok ty (A B1 c1) (A B2 c2).
Proof.
by move=> hA; have h := on_field_all okP hB hA; exact: (map_field_alg (@gsim_follows) h).
Qed.
Lemma float_follows_ring E (ty : E -> Prop) A : on_ring real true ty A ->
  ring_alg_rel follows ok ty (A B1 c1) (A B2 c2).
Proof.
move=> hA; apply: (map_ring_alg (@gsim_follows)).
by apply: on_ring_all hA => // _; exact: stricter_debug.
Qed.
Lemma float_follows_group E (ty : E -> Prop) A : on_group real true ty A ->
  group_alg_rel follows ok ty (A B1 c1) (A B2 c2).
Proof.
move=> hA; apply: (map_group_alg (@gsim_follows)).
by apply: on_group_all hA => // _; exact: stricter_debug.
Qed.
End Follows.
End Statements.
