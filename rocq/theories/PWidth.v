(** * PWidth.v -- targets with isize of different widths. *)

From Coq Require Import ZArith Lia.
From mathcomp Require Import all_ssreflect all_algebra zify ssrZ.
From Flocq Require Import Core BinarySingleNaN.
From Verif Require Import Rust Traits MInts MConstr MFloats Wp RingSpec Spec ZFacts PIntsZ PInts PSim PGSim CallSpec
  PAssign ProfSpec PProf PProf2 PProf3 PProf4 FloatProfSpec PProfF PWeaken WidthSpec.

Set Implicit Arguments.
Unset Strict Implicit.
Unset Printing Implicit Defensive.

Lemma on_bothP c1 c2 n : on_both c1 c2 n -> Z.ltb n Z0 ->
  gsim True any (prim_i c1 (ptr_bits c1) (Z.opp n)) (prim_i c2 (ptr_bits c2) (Z.opp n)).
Proof.
move=> [[h1 h2] [h3 h4]] /Z.ltb_lt n0; rewrite /prim_i.
have -> : in_i (ptr_bits c1) (Z.opp n) by rewrite /in_i /imin /imax; apply/andP; split; lia.
have -> : in_i (ptr_bits c2) (Z.opp n) by rewrite /in_i /imin /imax; apply/andP; split; lia.
exact: gsim_refl.
Qed.
Lemma on_both1 c1 c2 : Z.le 2 (ptr_bits c1) -> Z.le 2 (ptr_bits c2) -> on_both c1 c2 (Zpos xH).
Proof. by move=> h1 h2; split; exact: not_min1. Qed.
Lemma pow_le_width c1 c2 : Z.le (ptr_bits c1) (ptr_bits c2) ->
  Z.le (Z.pow 2 (ptr_bits c1 - 1)) (Z.pow 2 (ptr_bits c2 - 1)).
Proof. by move=> h; apply: Z.pow_le_mono_r; lia. Qed.
Lemma narrowerP c1 c2 n : narrower c1 c2 -> isize c1 n -> Z.ltb n Z0 ->
  gsim False any (prim_i c1 (ptr_bits c1) (Z.opp n)) (prim_i c2 (ptr_bits c2) (Z.opp n)).
Proof.
move=> [hw [ho _]] _ /Z.ltb_lt n0; have hp := pow_le_width hw.
rewrite /prim_i ho; case: ifP => h1; last by split.
have -> : in_i (ptr_bits c2) (Z.opp n).
  by move: h1; rewrite /in_i /imin /imax => /andP[h1 h2]; apply/andP; split; lia.
exact: gsim_refl.
Qed.
Lemma narrower1 c1 c2 : narrower c1 c2 -> Z.le 2 (ptr_bits c1) -> isize c1 (Zpos xH).
Proof. by move=> _ /not_min1 [h1 h2]; rewrite /isize; lia. Qed.
Lemma narrower_debug c1 c2 : narrower c1 c2 -> debug_follows False c1 c2.
Proof.
move=> [_ [_ h]] m1 m2 hm; rewrite /debug_assert; split=> //; have [hs _] := hm.
move: h; case: (debug_assertions c1); case: (debug_assertions c2) => h.
- by apply: sim_bind hs _ => b _; exact: sim_refl.
- by move=> k v; rewrite /bind; case: (m1 k) => //= -[] // [<-].
- by have := h erefl.
- exact: sim_refl.
Qed.

Section Statements.
Variables (c1 c2 : Cfg).
Local Notation ok := (on_both c1 c2).
Let okP n := @on_bothP c1 c2 n.

Lemma width_field (E : Type) (ty : E -> Prop) A : prof_field ty A ->
  field_alg_rel agree ok ty (A c1) (A c2).
Proof. by move=> hA; apply: (map_field_alg (@gsim_agree)); exact: prof_field_all hA. Qed.
Lemma width_eucl (E : Type) (ty : E -> Prop) A : prof_eucl ty A ->
  eucl_alg_rel agree ok ty (A c1) (A c2) /\
  lattice_alg_rel agree ty (DivisibilityLattice (A c1)) (DivisibilityLattice (A c2)).
Proof.
move=> hA; split; first by apply: (map_eucl_alg (@gsim_agree)); exact: prof_eucl_all hA.
by apply: (map_lattice_alg (@gsim_agree)); exact: (prof_divlattice_all okP hA).
Qed.
Lemma width_idom (E : Type) (ty : E -> Prop) A : prof_idom ty A ->
  idom_alg_rel agree ok ty (A c1) (A c2) /\
  bounded_alg_rel agree ty (DivisibilityOrder (A c1)) (DivisibilityOrder (A c2)).
Proof.
move=> hA; split; first by apply: (map_idom_alg (@gsim_agree)); exact: prof_idom_all hA.
by apply: (map_bounded_alg (@gsim_agree)); exact: (prof_divorder_all okP hA).
Qed.
Hypotheses (w1 : Z.le 2 (ptr_bits c1)) (w2 : Z.le 2 (ptr_bits c2)).
Let ok1 := on_both1 w1 w2.
Lemma width_ring (E : Type) (ty : E -> Prop) A : prof_ring false ty A ->
  ring_alg_rel agree ok ty (A c1) (A c2).
Proof. by move=> hA; apply: (map_ring_alg (@gsim_agree)); apply: (prof_ring_all okP ok1 _ hA). Qed.
Lemma width_group (E : Type) (ty : E -> Prop) A : prof_group false ty A ->
  group_alg_rel agree ok ty (A c1) (A c2).
Proof. by move=> hA; apply: (map_group_alg (@gsim_agree)); apply: (prof_group_all okP ok1 _ hA). Qed.
Lemma width_matrix (E : Type) (ty : E -> Prop) n A : prof_field ty A ->
  let R1 := MatrixRing c1 (A c1) n in let R2 := MatrixRing c2 (A c2) n in
  [/\ domain_rel agree (in_vec ty) R1 R2, semigroup_rel agree (in_vec ty) R1 R2,
      cmonoid_rel agree (in_vec ty) R1 R2, abelian_rel agree ok (in_vec ty) R1 R2 &
      unitary_rel agree ok (in_vec ty) R1 R2] /\
  [/\ agree (in_vec ty) (one R1) (one R2),
      rel1b agree (in_vec ty) (is_one R1) (is_one R2),
      rel1b agree (in_vec ty) (invertible R1) (invertible R2) &
      forall v, in_vec ty v -> agree ty (determinant (A c1) n v) (determinant (A c2) n v)].
Proof.
move=> hA; have hF := prof_field_all okP hA; split; split.
- exact: (map_domain (@gsim_agree) (prof_matrix_domain n hF)).
- exact: (map_semigroup (@gsim_agree) (prof_matrix_semigroup n hF)).
- exact: (map_cmonoid (@gsim_agree) (prof_matrix_cmonoid n hF)).
- exact: (map_abelian (@gsim_agree) (prof_matrix_abelian okP n hF)).
- apply: (map_unitary (@gsim_agree)); split=> k okk; exact: (prof_matrix_int n hF okk).
- exact: gsim_agree (prof_matrix_one n hF ok1).
- by move=> v Qv; exact: gsim_agree (prof_matrix_is_one n hF ok1 Qv).
- by move=> v Qv; exact: gsim_agree (prof_matrix_invertible n hF Qv).
- by move=> v Qv; exact: gsim_agree (prof_determinant n hF Qv).
Qed.
Lemma width_matrix_try_inv (p : Prop) (E : Type) (ty : E -> Prop) (n : nat) A
    (F : fieldType) (rep : E -> F -> Prop) : prof_field ty A ->
  (forall x a, rep x a -> ty x) ->
  field_alg_spec c1 p rep (A c1) -> field_alg_spec c2 p rep (A c2) ->
  forall (x : seq E) (N : 'M[F]_n), matrix_of rep x N ->
  same_call (try_inv (MatrixRing c1 (A c1) n) x) (try_inv (MatrixRing c2 (A c2) n) x).
Proof.
move=> hA rty hF1 hF2 x N xN.
have s1 : field_alg_spec c1 True rep (A c1) by exact: field_alg_weaken hF1.
have s2 : field_alg_spec c2 True rep (A c2) by exact: field_alg_weaken hF2.
have te c y a z b : rep y a -> rep z b -> ensures False (equals (A c) y z) any.
  by move=> ya zb; apply: equals_field_total hA c _ _ (rty _ _ ya) (rty _ _ zb).
apply: same_call_trans (try_inv_no_debug s1 w1 (@te c1) xN) _.
apply: same_call_trans (same_call_sym (try_inv_no_debug s2 w2 (@te c2) xN)).
have okP' k := @on_bothP c1 c2 k; have h1 := on_both1 w1 w2.
have hF := prof_field_all okP' hA.
have Qx : every ty x.
  by case: xN => r [xr _ _]; elim: xr => //= y a s t ya _ IH; split=> //; exact: rty ya.
have [|_ e] := @prof_matrix_try_inv True (no_debug c1) (no_debug c2) _ _ _ _ _ n hF h1 _ x Qx.
  by move=> v Qv; exact: gsim_refl.
by apply: same_run_call; exact: e.
Qed.
End Statements.

Section Narrow.
Variables (c1 c2 : Cfg).
Hypothesis hc : narrower c1 c2.
Local Notation ok := (isize c1).
Let okP n := @narrowerP c1 c2 n hc.
Lemma narrow_field (E : Type) (ty : E -> Prop) A : prof_field ty A ->
  field_alg_rel follows ok ty (A c1) (A c2).
Proof. by move=> hA; apply: (map_field_alg (@gsim_follows)); exact: prof_field_all hA. Qed.
Lemma narrow_eucl (E : Type) (ty : E -> Prop) A : prof_eucl ty A ->
  eucl_alg_rel follows ok ty (A c1) (A c2).
Proof. by move=> hA; apply: (map_eucl_alg (@gsim_follows)); exact: prof_eucl_all hA. Qed.
Lemma narrow_idom (E : Type) (ty : E -> Prop) A : prof_idom ty A ->
  idom_alg_rel follows ok ty (A c1) (A c2).
Proof. by move=> hA; apply: (map_idom_alg (@gsim_follows)); exact: prof_idom_all hA. Qed.
Hypothesis w1 : Z.le 2 (ptr_bits c1).
Lemma narrow_ring (E : Type) (ty : E -> Prop) A : prof_ring true ty A ->
  ring_alg_rel follows ok ty (A c1) (A c2).
Proof.
move=> hA; apply: (map_ring_alg (@gsim_follows)).
by apply: (prof_ring_all okP (narrower1 hc w1) _ hA) => _; exact: narrower_debug.
Qed.
Lemma narrow_group (E : Type) (ty : E -> Prop) A : prof_group true ty A ->
  group_alg_rel follows ok ty (A c1) (A c2).
Proof.
move=> hA; apply: (map_group_alg (@gsim_follows)).
by apply: (prof_group_all okP (narrower1 hc w1) _ hA) => _; exact: narrower_debug.
Qed.
End Narrow.

Section Floats.
Variables (c1 c2 : Cfg) (prec emax : Z).
Context (prec_gt_0 : Prec_gt_0 prec) (prec_lt_emax : Prec_lt_emax prec emax).
Local Notation B1 := (ApproxFloats c1 prec_gt_0 prec_lt_emax).
Local Notation B2 := (ApproxFloats c2 prec_gt_0 prec_lt_emax).
Local Notation real := (fun _ : binary_float prec emax => True).
Local Notation ok := (on_both c1 c2).
Let okP n := @on_bothP c1 c2 n.
Let hB : field_alg_rel (@gsim True) ok real B1 B2 := prof_floats okP _ _.

Lemma width_float_eucl E (ty : E -> Prop) A : on_eucl real ty A ->
  eucl_alg_rel agree ok ty (A B1 c1) (A B2 c2) /\
  lattice_alg_rel agree ty (DivisibilityLattice (A B1 c1)) (DivisibilityLattice (A B2 c2)).
Proof.
move=> hA; have h := on_eucl_all okP hB hA.
split; first exact: (map_eucl_alg (@gsim_agree) h).
exact: (map_lattice_alg (@gsim_agree) (prof_divlattice h)).
Qed.
Lemma width_float_field E (ty : E -> Prop) A : on_field real ty A ->
  field_alg_rel agree ok ty (A B1 c1) (A B2 c2) /\
  forall n v, in_vec ty v -> agree ty (determinant (A B1 c1) n v) (determinant (A B2 c2) n v).
Proof.
move=> hA; have h := on_field_all okP hB hA.
split=> [|n v Qv]; first exact: (map_field_alg (@gsim_agree) h).
exact: gsim_agree (prof_determinant n h Qv).
Qed.
Lemma width_float_idom E (ty : E -> Prop) A : on_idom real ty A ->
  idom_alg_rel agree ok ty (A B1 c1) (A B2 c2) /\
  bounded_alg_rel agree ty (DivisibilityOrder (A B1 c1)) (DivisibilityOrder (A B2 c2)).
Proof.
move=> hA; have h := on_idom_all okP hB hA.
split; first exact: (map_idom_alg (@gsim_agree) h).
exact: (map_bounded_alg (@gsim_agree) (prof_divorder h)).
Qed.
Hypotheses (w1 : Z.le 2 (ptr_bits c1)) (w2 : Z.le 2 (ptr_bits c2)).
Lemma width_float_ring E (ty : E -> Prop) A : on_ring real false ty A ->
  ring_alg_rel agree ok ty (A B1 c1) (A B2 c2).
Proof.
move=> hA; apply: (map_ring_alg (@gsim_agree)).
by apply: on_ring_all hA => //; exact: on_both1.
Qed.
Lemma width_float_group E (ty : E -> Prop) A : on_group real false ty A ->
  group_alg_rel agree ok ty (A B1 c1) (A B2 c2).
Proof.
move=> hA; apply: (map_group_alg (@gsim_agree)).
by apply: on_group_all hA => //; exact: on_both1.
Qed.
End Floats.

(** ** MatrixRing::new *)
Lemma width_new c n : 
  if Z.ltb (Z.of_nat n * Z.of_nat n) (Z.pow 2 (ptr_bits c)) then returns (matrix_new c n) tt
  else panics (matrix_new c n).
Proof.
rewrite /matrix_new /is_usize /in_u /umax.
case: Z.ltb_spec => h.
  have -> : (Z.leb 0 (Z.of_nat n * Z.of_nat n) && Z.leb (Z.of_nat n * Z.of_nat n) (Z.pow 2 (ptr_bits c) - 1)).
    by apply/andP; split; lia.
  exact: returns_ret.
have -> : (Z.leb 0 (Z.of_nat n * Z.of_nat n) && Z.leb (Z.of_nat n * Z.of_nat n) (Z.pow 2 (ptr_bits c) - 1)) = false.
  by apply/negbTE; rewrite negb_and; apply/orP; right; lia.
by exists 0.
Qed.
