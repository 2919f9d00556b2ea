(** * PFracProps.v -- ReducedFractions in terms of numerators and denominators. *)

From Coq Require Import ZArith Lia.
From mathcomp Require Import all_ssreflect all_algebra zify.
From mathcomp Require Import fraction.
From Verif Require Import Rust Traits MInts MConstr RingTac Wp Spec PropSpec Laws.
From Verif Require Import PDefaults PEucl PFrac PLaws2.

Set Implicit Arguments.
Unset Strict Implicit.
Unset Printing Implicit Defensive.

Import GRing.Theory.
Local Open Scope ring_scope.

Section Frac.
Variables (cfg : Cfg) (p : Prop) (E : Type) (R : idomainType) (rep : E -> R -> Prop).
Variables (AS : assoc_struct R) (A : FieldAlg (E * E)).
Variables (F : fieldType) (phi : {rmorphism R -> F}).
Hypothesis phi_inj : injective phi.
Local Notation frep := (frac_rep phi AS rep).
Local Notation fof := (fraction_of AS rep).
Local Notation fgives := (frac_gives p AS rep).
Hypothesis hA : field_alg_spec cfg p frep A.

Lemma arep_acoef b : b != 0 -> (acoef AS b = 1 <-> arep AS b = b).
Proof.
move=> b0; rewrite /arep (negbTE b0); split=> [->|h]; first by rewrite mul1r.
by apply: (mulIf b0); rewrite h mul1r.
Qed.

Lemma fof_rep x a b : fof x a b -> b != 0 /\ frep x (phi a / phi b).
Proof.
move=> [xa xb /eqP b0 hb ab]; split=> //; exists a, b; split=> //.
by split=> //; apply/arep_acoef.
Qed.
Lemma rep_fof x q : frep x q -> exists a b, fof x a b /\ q = phi a / phi b.
Proof.
move=> [a [b [xa xb [b0 hb ab] ->]]]; exists a, b; split=> //; split=> //; first exact/eqP.
exact/arep_acoef.
Qed.

Lemma phi0 a : (phi a == 0) = (a == 0).
Proof. exact: phi_eq0. Qed.
Lemma ratioE a b c d : b != 0 -> d != 0 -> phi a / phi b = phi c / phi d <-> a * d = c * b.
Proof.
by move=> b0 d0; split=> [/eqP|/eqP h]; [|apply/eqP]; rewrite frac_eq // => /eqP.
Qed.

Lemma gives_frac c q n d : d != 0 -> gives p frep c q -> q = phi n / phi d -> fgives c n d.
Proof.
move=> d0 h qE; apply: ensures_mono h _ => z /rep_fof[a [b [zab qE']]].
exists a, b; split=> //; case: (zab) => _ _ /eqP b0 _ _.
by apply/(ratioE _ _ b0 d0); rewrite -qE' qE.
Qed.

Lemma phi1 : phi 1 = 1. Proof. exact: rmorph1. Qed.

Lemma fractions_ops : fractions_correct p AS rep cfg A.
Proof.
have hF := fi_fi_ok hA; have [hM hC hB hU] := id_ring_ok (eu_idom_ok (fi_eucl_ok hA)).
have [hD hS hO] := hM; have o0 := oner_neq0 R.
have zmulE (a b : R) n : zmul (phi a / phi b) n = phi (zmul a n) / phi b.
  by rewrite -zmul_mulr -rmorph_zmul.
split.
  split.
  - by apply: gives_frac o0 (zero_ok hC) _; rewrite rmorph0 mul0r.
  - by apply: gives_frac o0 (one_ok hO) _; rewrite phi1 divr1.
  - move=> n gn; apply: gives_frac o0 (int_ok hU gn) _.
    by rewrite (rmorph_zmul phi) phi1 divr1 [RHS]/(zmul (phi 1) n) phi1.
move=> x a b y c d hx hy; have [b0 xu] := fof_rep hx; have [d0 yv] := fof_rep hy.
have bd0 : b * d != 0 by rewrite mulf_neq0.
have pb : phi b != 0 by rewrite phi0. have pd : phi d != 0 by rewrite phi0.
have addE : phi a / phi b + phi c / phi d = phi (a * d + c * b) / phi (b * d).
  by rewrite addf_div // rmorphD !rmorphM.
have subE : phi a / phi b - phi c / phi d = phi (a * d - c * b) / phi (b * d).
  by rewrite -mulNr addf_div // rmorphB !rmorphM mulNr.
have mulE : phi a / phi b * (phi c / phi d) = phi (a * c) / phi (b * d).
  by rewrite mulf_div !rmorphM.
split; first by split; [exact: gives_frac bd0 (add_ok hC xu yv) _|
  exact: gives_frac bd0 (sub_ok hB xu yv) _|exact: gives_frac bd0 (mul_ok hS xu yv) _].
split; first by split; [exact: gives_frac bd0 (add_assign_ok hC xu yv) _|
  exact: gives_frac bd0 (sub_assign_ok hB xu yv) _|exact: gives_frac bd0 (mul_assign_ok hS xu yv) _].
split.
  split.
  - by apply: gives_frac b0 (neg_ok hB xu) _; rewrite rmorphN mulNr.
  - by apply: gives_frac b0 (neg_assign_ok hB xu) _; rewrite rmorphN mulNr.
  - by apply: gives_frac b0 (double_ok hC xu) _; rewrite rmorphD mulrDl.
  - by apply: (gives_frac _ (square_ok hS xu)); rewrite ?mulf_neq0 // mulf_div !rmorphM.
split.
  move=> n n0; apply: gives_frac b0 (ntimes_ok hC n0 xu) _.
  by rewrite /npow iter_addr addr0 rmorphMn mulrnAl.
split; first by move=> n gn; apply: gives_frac b0 (ztimes_ok hB gn xu) _.
have z0 : (phi a / phi b == 0) = (a == 0).
  by rewrite mulf_eq0 invr_eq0 !phi0 (negbTE b0) orbF.
have z0' : (phi c / phi d == 0) = (c == 0).
  by rewrite mulf_eq0 invr_eq0 !phi0 (negbTE d0) orbF.
split.
  split; first exact: (contains_ok hD xu).
  - apply: ensures_mono (equals_ok hD xu yv) _ => r ->.
    by split=> [/eqP/ratioE-> //|h]; apply/eqP/ratioE.
  - by apply: ensures_mono (is_zero_ok hC xu) _ => r ->; rewrite z0; split=> /eqP.
  - apply: ensures_mono (is_one_ok hO xu) _ => r ->.
    rewrite -(divr1 1) -phi1; split=> [/eqP/ratioE|h]; last by apply/eqP/ratioE; rewrite ?mul1r ?mulr1.
    by rewrite mul1r mulr1; apply.
have an (h : a <> 0) : a != 0 by apply/eqP.
have un (h : a <> 0) : phi a / phi b != 0 by rewrite z0; exact/eqP.
have invE : (phi a / phi b)^-1 = phi b / phi a by rewrite invf_div.
split; first by move=> h; exact: (gives_frac (an h) (finv_ok hF xu (un h))).
split.
  move=> h; apply: (finv_zero hF); rewrite (_ : 0 = phi a / phi b) //.
  by apply/esym/eqP; rewrite z0; apply/eqP.
split.
  move=> /eqP h; have vn : phi c / phi d != 0 by rewrite z0'.
  apply: (gives_frac _ (fdiv_ok hF xu yv vn)); first by rewrite mulf_neq0.
  by rewrite invf_div mulf_div !rmorphM.
split.
  move=> h; apply: (fdiv_zero hF xu); rewrite (_ : 0 = phi c / phi d) //.
  by apply/esym/eqP; rewrite z0'; apply/eqP.
split.
  move=> h n gn; have := fpower_ok hF gn xu (un h).
  case: n {gn} => [|k|k] h1.
  - by apply: gives_frac o0 h1 _; rewrite phi1 divr1.
  - by apply: (gives_frac _ h1); rewrite ?expf_neq0 //= exprMn exprVn !rmorphX.
  - apply: (gives_frac _ h1); rewrite ?expf_neq0 ?an //=.
    by rewrite -exprVn invE exprMn exprVn !rmorphX.
split.
  apply: ensures_mono (try_inv_ok hO xu) _ => -[z [v zv [uv _]]|h].
    have a0 : a <> 0.
      move=> h; move: uv; rewrite (_ : phi a = 0) ?mul0r; last by rewrite h rmorph0.
      by move/esym/eqP; rewrite oner_eq0.
    split=> //; have [e [f [zef vE]]] := rep_fof zv; exists e, f; split=> //.
    case: (zef) => _ _ /eqP f0 _ _.
    move: uv; rewrite vE mulf_div -!rmorphM -(divr1 1) -phi1 /= => /ratioE.
    by rewrite mulr1 mul1r; apply; rewrite ?mulf_neq0.
  have [//|a0] := eqVneq a 0; case: (h (phi b / phi a)).
  by split; rewrite mulf_div [phi b * phi a]mulrC divff // mulf_neq0 // phi0.
apply: ensures_mono (invertible_ok hO xu) _ => r ->.
by rewrite field_inverseP z0; split=> /eqP.
Qed.
End Frac.

(** ** ReducedFractions *)
Section Base.
Variables (cfg : Cfg) (p : Prop) (E : Type) (R : idomainType) (rep : E -> R -> Prop).
Variables (AS : assoc_struct R) (S : eucl_struct R) (A : EuclAlg E).
Hypothesis hA : eucl_alg_spec cfg p rep AS S A.
Local Notation phi := [rmorphism of @FracField.tofrac R].

Definition reduced_fractions_contract :
  field_alg_spec cfg p (frac_rep (F := [fieldType of {fraction R}]) phi AS rep)
    (ReducedFractions cfg A) :=
  ReducedFractions_ok (phi := phi) hA (@tofrac_inj R).

Lemma reduced_fractions_correct : fractions_correct p AS rep cfg (ReducedFractions cfg A).
Proof. exact: (fractions_ops (phi := phi) (@tofrac_inj R) reduced_fractions_contract). Qed.

Lemma reduced_fractions_laws : Z.le 2 (ptr_bits cfg) ->
  field_alg_laws p (fun x => exists a b, fraction_of AS rep x a b) cfg (ReducedFractions cfg A).
Proof.
move=> hc; apply: (field_alg_laws_ok hc _ reduced_fractions_contract).
by move=> x [a [b /(fof_rep phi)[_ h]]]; eexists; exact: h.
Qed.

Lemma fraction_of_uniq x y a b c d :
  fraction_of AS rep x a b -> fraction_of AS rep y c d -> a * d = c * b -> a = c /\ b = d.
Proof.
move=> [_ _ /eqP b0 hb ab] [_ _ /eqP d0 hd cd]; apply: (@lowest_uniq R AS).
  by split=> //; apply/arep_acoef.
by split=> //; apply/arep_acoef.
Qed.

Lemma fraction_of_all (q : {fraction R}) : exists a b,
  [/\ b <> 0, arep AS b = b, coprime_to a b & q = phi a / phi b].
Proof.
have [a [b [[b0 hb ab] qE]]] := fraction_lowest AS S q.
by exists a, b; split=> //; [exact/eqP|apply/arep_acoef].
Qed.

Lemma fraction_contains x a b : rep x.1 a -> rep x.2 b -> b <> 0 ->
  decides p (contains (ReducedFractions cfg A) x) (arep AS b = b /\ coprime_to a b).
Proof.
move=> xa xb /eqP b0; apply: ensures_mono (fractions_contains_ok hA xa xb b0) _ => r ->.
by split=> [[_ /arep_acoef h1 h2]|[/arep_acoef h1 h2]]; split=> //; auto.
Qed.
End Base.
