(** * PHaltF.v -- every call on floats comes to an end. *)

From Coq Require Import ZArith.
From mathcomp Require Import all_ssreflect.
From Flocq Require Import Core BinarySingleNaN.
From Verif Require Import Rust Traits MInts MConstr MFloats Wp PSim ProfSpec HaltSpec PHSim PHalt
  PHalt2 PHalt3.

Set Implicit Arguments.
Unset Strict Implicit.
Unset Printing Implicit Defensive.

Local Notation T := (fun _ => True).

Section Floats.
Variables (cfg : Cfg) (prec emax : Z).
Context (hp : Prec_gt_0 prec) (he : Prec_lt_emax prec emax).
Local Notation F := (binary_float prec emax).
Local Notation A := (ApproxFloats cfg hp he).

Lemma halt_finite (x : F) : halts T (finite_result x) (finite_result x).
Proof. by apply: hsim_bind (hsim_assert _) _ => _ _; exact: hsim_ret. Qed.
Lemma halt_floats_ring :
  ring_alg_rel halts every_num T (floats_ring hp he) (floats_ring hp he).
Proof.
have ha : rel2 halts T (floats_add hp he) (floats_add hp he).
  by move=> x y _ _; exact: halt_finite.
have hn : rel1 halts T (@floats_neg prec emax) (@floats_neg prec emax).
  by move=> x _; exact: halt_finite.
have hz : halts T (@floats_zero prec emax) (@floats_zero prec emax) by exact: hsim_ret.
have ho : halts T (floats_one hp he) (floats_one hp he) by exact: hsim_ret.
have hd : rel1 halts T (default_double (floats_add hp he)) (default_double (floats_add hp he)).
  by move=> x _; exact: ha.
have ht : rel1o halts T (floats_try_inv hp he) (floats_try_inv hp he).
  move=> x _; apply: hsim_bind ho _ => o _; apply: hsim_ret.
  by case: ifP.
split; [split| | |]; split; try by [repeat intro; exact: halt_finite|repeat intro; exact: hsim_ret].
- exact: ht.
- by move=> n _ x Qx; exact: (hsim_ntimes _ hz ha hd Qx).
- exact: (hsim_sub_assign hn ha).
Qed.
Lemma sane_floats : sane_constants A.
Proof.
split=> z h; have <- := returns_det (returns_ret _) h; try exact: returns_ret.
rewrite /= (_ : Beqb _ _ = true); first exact: returns_ret.
by rewrite Beqb_refl /=; have := is_finite_Bone prec emax hp he; case: Bone.
Qed.
Lemma halt_floats : field_alg_rel halts every_num T A A.
Proof.
apply: halt_field_alg; first exact: halt_floats_ring; last by case: sane_floats.
have hR := halt_floats_ring.
have hv : rel2 halts T (floats_div hp he) (floats_div hp he).
  move=> x y _ _; apply: hsim_bind (is_zero_rel hR (I : T y)) _ => b _.
  by apply: hsim_bind (hsim_assert _) _ => _ _; exact: halt_finite.
split; [|exact: hv|].
  by move=> x _; apply: hsim_bind (one_rel (ri_monoid_alg_rel hR)) _ => o _; exact: hv.
move=> n okn; apply: halt_fpower okn; first exact: hR.
  exact: is_zero_rel hR.
exact: zero_rel hR.
Qed.
Variable tie : F -> F -> bool.
Lemma halt_floats_lattice :
  lattice_alg_rel halts T (ApproxFloats_lattice tie) (ApproxFloats_lattice tie).
Proof. exact: halt_lattice. Qed.
End Floats.

Lemma halt_f32_f64 cfg :
  [/\ field_alg_rel halts every_num T (F32 cfg) (F32 cfg), sane_constants (F32 cfg),
      field_alg_rel halts every_num T (F64 cfg) (F64 cfg) & sane_constants (F64 cfg)].
Proof. by split; [exact: halt_floats|exact: sane_floats|exact: halt_floats|exact: sane_floats]. Qed.
Lemma halt_f32_f64_lattice tie tie' :
  lattice_alg_rel halts T (F32_lattice tie) (F32_lattice tie) /\
  lattice_alg_rel halts T (F64_lattice tie') (F64_lattice tie').
Proof. by split; exact: halt_floats_lattice. Qed.
