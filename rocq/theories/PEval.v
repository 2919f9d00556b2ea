(** * PEval.v -- values and roots of polynomials. *)

From Coq Require Import ZArith Lia List.
From mathcomp Require Import all_ssreflect all_algebra zify ssrZ.
From Verif Require Import Rust Traits MInts MConstr RingTac Wp Spec PropSpec RingSpec PDefaults.
From Verif Require Import PInts POrders Quotient PQuot PPoly PTower Laws PLaws GcdLaw PGcdLaw HomLaw PHom EvalLaw.

Set Implicit Arguments.
Unset Strict Implicit.
Unset Printing Implicit Defensive.

Import GRing.Theory.
Local Open Scope ring_scope.

Section Ring.
Variables (cfg : Cfg) (p : Prop) (E : Type) (R : idomainType) (rep : E -> R -> Prop).
Variable A : RingAlg E.
Hypothesis hR : ring_alg_spec cfg p rep *%R 1 A.

Lemma value_rec v s x c : Forall2 rep v s -> rep x c -> gives p rep (value A v x) (horner_rec s c).
Proof.
move=> h xc; elim: h => [|a b v' s' ab _ IH] /=.
  exact: zero_ok (ri_cm_ok hR).
apply: ensures_bind IH _ => y yb.
apply: ensures_bind (mul_ok (mo_sg_ok (ri_mon_ok hR)) yb xc) _ => z zb.
exact: add_ok (ri_cm_ok hR) _ _ _ _ zb ab.
Qed.
Lemma value_ok v P x c : poly_of rep v P -> rep x c -> gives p rep (value A v x) P.[c].
Proof. exact: value_rec. Qed.
Lemma is_root_ok v P x c : poly_of rep v P -> rep x c -> answers p (is_root A v x) (root P c).
Proof.
move=> vP xc; apply: ensures_bind (value_ok vP xc) _ => y yb.
exact: is_zero_ok (ri_cm_ok hR) _ _ yb.
Qed.
Lemma linear_ok x c : rep x c -> gives p (poly_of rep) (linear A x) ('X - c%:P).
Proof.
move=> xc; apply: ensures_bind (neg_ok (ri_ab_ok hR) xc) _ => a ac.
apply: ensures_bind (one_ok (mo_mo_ok (ri_mon_ok hR))) _ => o o1.
apply: ensures_ret; rewrite /poly_of polyseqXsubC.
by do 2!apply: Forall2_cons => //; exact: Forall2_nil.
Qed.

Lemma value_map x : (exists c, rep x c) ->
  ring_map cfg p (fun v => exists P, poly_of rep v P) (fun v => value A v x) (PolyRing A) A.
Proof.
case=> c xc; apply: (ring_map_ok (phi := fun P => P.[c]) _ _ _ _ _ _ _ _ (PolyRing_ok hR) hR) => //.
- exact: mulrA.
- exact: mul1r.
- exact: mulr1.
- by move=> P Q; rewrite hornerD.
- by move=> P Q; rewrite hornerM.
- by rewrite hornerC.
- by move=> v P vP; exact: value_ok.
Qed.

Lemma different_uniq xs : (forall x, List.In x xs -> exists c, rep x c) -> all_different A xs ->
  exists2 cs, Forall2 rep xs cs & uniq cs.
Proof.
elim: xs => [|x xs IH] h /=; first by exists [::].
case=> hd /IH [|cs hcs ucs]; first by move=> y hy; apply: h; right.
have [c xc] := h x (or_introl erefl).
exists (c :: cs); first exact: Forall2_cons.
rewrite /= ucs andbT; apply/negP => cin.
have [y hy yc] : exists2 y, List.In y xs & rep y c.
  elim: {IH h hd ucs} hcs cin => // y d ys ds yd _ IH; rewrite inE => /orP[/eqP ->|/IH[z hz zc]].
    by exists y => //; left.
  by exists z => //; right.
have := ensures_value (equals_ok (mo_dom_ok (ri_mon_ok hR)) xc yc) (hd y hy).
by rewrite eqxx.
Qed.
End Ring.

Section Roots.
Variables (cfg : Cfg) (p : Prop) (E : Type) (R : idomainType) (rep : E -> R -> Prop).
Variables (AS : assoc_struct R) (A : IDomAlg E).
Hypothesis hA : idom_alg_spec cfg p rep AS A.
Let hR := id_ring_ok hA.
Let hP := PolyIDom_ok hA.

Lemma rep_roots v P xs cs : poly_of rep v P -> Forall2 rep xs cs ->
  (forall x, List.In x xs -> returns (is_root A v x) true) -> all (root P) cs.
Proof.
move=> vP; elim=> //= x c ys ds xc _ IH h; apply/andP; split; last first.
  by apply: IH => y hy; apply: h; right.
have := ensures_value (is_root_ok hR vP xc) (h x (or_introl erefl)); by move<-.
Qed.

Lemma root_laws_ok : root_laws p (fun x => exists c, rep x c)
  (fun v => exists P, poly_of rep v P) A (PolyIDom A).
Proof.
split.
- move=> v x [P vP] [c xc].
  apply: (@agree_iff _ _ _ (root P c) (root P c) _ _ (iff_refl _)); last first.
    by apply: ensures_mono (is_root_ok hR vP xc) _ => b ->.
  apply: ensures_bind (linear_ok hR xc) _ => l hl.
  apply: ensures_mono (divisible_ok (id_id_ok hP) vP hl) _ => b ->.
  by split=> [[Q ->]|/factor_theorem[Q ->]]; [rewrite rootM root_XsubC eqxx orbT|exists Q].
- move=> v xs [P vP] v0 hx /(different_uniq hR hx)[cs hcs ucs] hr.
  have P0 : P != 0.
    have := ensures_value (is_zero_ok (ri_cm_ok (id_ring_ok hP)) vP) v0.
    by move=> e; apply/negP => /eqP e'; move: e; rewrite e' eqxx.
  rewrite (reps_size vP) (reps_size hcs).
  exact: max_poly_roots P0 (rep_roots vP hcs hr) ucs.
move=> v u xs [P vP] [Q uQ] hx /(different_uniq hR hx)[cs hcs ucs] sv su hr.
have sE : size xs = size cs := reps_size hcs.
have e : P = Q.
  apply/eqP; rewrite -subr_eq0; apply/negP => /negP d0.
  have /max_poly_roots-/(_ d0 ucs) : all (root (P - Q)) cs.
    elim: {ucs sE sv su} hcs hx hr => //= x c ys ds xc _ IH hx hr; apply/andP; split; last first.
      by apply: IH => y hy; [apply: hx|apply: hr]; right.
    have := ensures_value (same_ok (mo_dom_ok (ri_mon_ok hR)) (value_ok hR vP xc) (value_ok hR uQ xc))
      (hr x (or_introl erefl)).
    by rewrite /root hornerD hornerN subr_eq0 => <-.
  rewrite ltnNge => /negP[]; apply: leq_trans (size_add _ _) _.
  by rewrite size_opp -(reps_size vP) -(reps_size uQ) -sE geq_max sv su.
apply: ensures_mono (equals_ok (mo_dom_ok (ri_mon_ok (id_ring_ok hP))) vP uQ) _ => b ->.
by rewrite e eqxx.
Qed.
End Roots.

Section Field.
Variables (cfg : Cfg) (p : Prop) (E : Type) (F : fieldType) (rep : E -> F -> Prop).
Variable A : FieldAlg E.
Hypothesis hA : field_alg_spec cfg p rep A.
Let hR := id_ring_ok (eu_idom_ok (fi_eucl_ok hA)).
Let hP := PolyEucl_ok hA.

Lemma remainder_law_ok : remainder_law p (fun x => exists c, rep x c)
  (fun v => exists P, poly_of rep v P) A (PolyEucl A).
Proof.
move=> v x [P vP] [c xc].
have l0 : 'X - c%:P != 0 :> {poly F} by rewrite polyXsubC_eq0.
apply: (same_eq (mo_dom_ok (ri_mon_ok (id_ring_ok (eu_idom_ok hP))))).
- apply: ensures_bind (linear_ok hR xc) _ => l hl.
  exact: (rem_ok (eu_eu_ok hP) vP hl l0).
- apply: ensures_bind (value_ok hR vP xc) _ => y yb.
  exact: (to_constant_ok hR yb).
have -> : P.[c]%:P = erem (poly_estruct F) P ('X - c%:P); last by [].
rewrite /= -modp_XsubC //.
Qed.

(** A polynomial of degree 2 or 3 is irreducible exactly if it has no root. *)
Lemma no_root_irreducible v P : poly_of rep v P -> (2 < size v <= 4)%N ->
  (forall c, exists x, rep x c) ->
  (forall x, (exists c, rep x c) -> returns (is_root A v x) false) ->
  @irreducible_elt (poly_idomainType F) P.
Proof.
move=> vP sv onto hr; apply: irreducible_poly_elt; apply: cubic_irreducible.
  by rewrite -(reps_size vP); case/andP: sv => h ->; rewrite andbT (ltnW h).
move=> c; have [x xc] := onto c; apply/negP => rc.
have := ensures_value (is_root_ok hR vP xc) (hr x (ex_intro _ c xc)).
by rewrite rc.
Qed.
Lemma irreducible_no_root v P : poly_of rep v P -> (2 < size v)%N ->
  @irreducible_elt (poly_idomainType F) P ->
  forall x, (exists c, rep x c) -> answers p (is_root A v x) false.
Proof.
move=> vP sv [P0 Pu Pi] x [c xc].
apply: ensures_mono (is_root_ok hR vP xc) _ => b ->.
apply/negP => /factor_theorem[Q PE]; case: (Pi Q ('X - c%:P) PE); rewrite poly_unitE => /andP[/eqP s1 _].
  move: sv; rewrite (reps_size vP) PE size_Mmonic ?monicXsubC ?size_XsubC ?s1 //.
  by rewrite -size_poly_eq0 s1.
by rewrite size_XsubC in s1.
Qed.

(** ** The root in the extension *)
Variables (m : {poly F}) (modulo : seq E).
Hypotheses (hirr : @irreducible_elt (poly_idomainType F) m) (hm : poly_of rep modulo m).
Let m0 : m != 0. Proof. by case: hirr. Qed.
Let mu : (m : poly_idomainType F) \isn't a GRing.unit. Proof. by case: hirr. Qed.
Let md := @IrrModulus (poly_idomainType F) (@Modulus (poly_idomainType F) m m0 mu) hirr.
Let hQ := @QuotientField_ok cfg p _ _ _ _ _ _ hP md modulo hm.
Let pi (P : {poly F}) : qfield (poly_estruct F) md := qpi (poly_estruct F) md P.
Let piR : {rmorphism {poly F} -> qfield (poly_estruct F) md} := qpi_rmorphism (poly_estruct F) md.
Let krep := @qf_rep _ _ (poly_rep rep) (poly_estruct F) md.

Lemma ext_constant_ok x u : rep x u -> gives p krep (to_constant A x) (pi u%:P).
Proof.
move=> xu; have s1 : (1 < size m)%N.
  rewrite ltnNge; apply/negP => h; case/negP: (mu); have mE := size1_polyC h.
  rewrite mE poly_unitE size_polyC coefC eqxx.
  have c0 : m`_0 != 0 by apply: contraNneq (m0) => c0; rewrite mE c0.
  by rewrite c0 unitfE.
apply: ensures_mono (to_constant_ok hR xu) _ => y hy; rewrite /krep /qf_rep.
suff -> : qval (pi u%:P : quot (poly_estruct F) md) = u%:P by [].
by apply: modp_small; rewrite (leq_ltn_trans (size_polyC_leq1 _)).
Qed.
Lemma adjoined_ok : gives p krep (adjoined A modulo) (pi 'X).
Proof.
apply: ensures_bind (zero_ok (ri_cm_ok hR)) _ => z z0.
apply: ensures_bind (one_ok (mo_mo_ok (ri_mon_ok hR))) _ => o o1.
apply: (to_residue_ok hP m0 mu hm); rewrite /poly_rep polyseqX.
by do 2!apply: Forall2_cons => //; exact: Forall2_nil.
Qed.
Lemma ext_map v s : Forall2 rep v s ->
  ensures p (mapM (to_constant A) v) (fun u => Forall2 krep u (map (fun c => pi c%:P) s)).
Proof.
elim=> [|a b v' s' ab _ IH]; first by apply: ensures_ret; exact: Forall2_nil.
apply: ensures_bind (ext_constant_ok ab) _ => y hy.
apply: ensures_bind IH _ => u hu; apply: ensures_ret; exact: Forall2_cons.
Qed.
Lemma ext_horner s : horner_rec (map (fun c => pi c%:P) s) (pi 'X) = pi (Poly s).
Proof.
elim: s => [|a s IH] /=; first by rewrite -(rmorph0 piR).
by rewrite IH cons_poly_def -[RHS]/(piR _) rmorphD rmorphM.
Qed.
Lemma adjoin_laws_ok : adjoin_laws p (fun v => exists P, poly_of rep v P) A
  (QuotientField cfg (PolyEucl A) modulo) modulo.
Proof.
have hK := id_ring_ok (eu_idom_ok (fi_eucl_ok hQ)).
have hv v P x : poly_of rep v P -> krep x (pi 'X) -> gives p krep
    (let! u := mapM (to_constant A) v in value (QuotientField cfg (PolyEucl A) modulo) u x) (pi P).
  move=> vP hx; apply: ensures_bind (ext_map vP) _ => u hu.
  by have := value_rec hK hu hx; rewrite ext_horner polyseqK.
split=> [v [P vP]|].
  apply: (same_eq (mo_dom_ok (ri_mon_ok hK)) (u := pi P) (v := pi P)) => //.
    apply: ensures_bind adjoined_ok _ => x hx; exact: hv.
  exact: (to_residue_ok hP m0 mu hm vP).
apply: ensures_bind adjoined_ok _ => x hx.
apply: ensures_bind (ext_map hm) _ => u hu.
have := value_rec hK hu hx; rewrite ext_horner polyseqK => h.
apply: ensures_bind h _ => y hy.
apply: ensures_mono (is_zero_ok (ri_cm_ok hK) hy) _ => b ->.
by apply/eqP/(qpi_eq0 (poly_estruct F) md); exists 1; rewrite mul1r.
Qed.
End Field.
