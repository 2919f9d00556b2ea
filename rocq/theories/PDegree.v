(** * PDegree.v -- the laws of degrees. *)

From Coq Require Import ZArith List.
From mathcomp Require Import all_ssreflect all_algebra zify.
From Verif Require Import Rust Traits MInts MConstr RingTac Wp Spec RingSpec PropSpec PDefaults PEucl Laws PLaws PLaws2.
From Verif Require Import PPolyA PPoly PPolyProps TowerSpec PTower DegreeSpec PGcdLaw.

Set Implicit Arguments.
Unset Strict Implicit.
Unset Printing Implicit Defensive.

Import GRing.Theory.
Local Open Scope ring_scope.

Section IDom.
Variables (cfg : Cfg) (p : Prop) (E : Type) (R : idomainType) (rep : E -> R -> Prop).
Variables (AS : assoc_struct R) (A : IDomAlg E).
Hypothesis hA : idom_alg_spec cfg p rep AS A.
Local Notation mem := (fun x => exists P, poly_of rep x P).
Let hP := PolyIDom_ok hA.
Let hI := id_id_ok hP.
Let hR := id_ring_ok hP.
Let hM := mo_mo_ok (ri_mon_ok hR).
Let hS := mo_sg_ok (ri_mon_ok hR).
Let hC := ri_cm_ok hR.
Let hN := ri_ab_ok hR.

Lemma termsE (x : seq E) (P : {poly R}) : poly_of rep x P -> terms x = size P.
Proof.
move=> h; rewrite /terms (poly_degree_ok h) -size_poly_eq0.
by case: (size P).
Qed.

Lemma lead_some x P a : poly_of rep x P -> returns (poly_leading_coef x) (Some a) ->
  P <> 0 /\ rep a (lead_coef P).
Proof. by move=> xP h; exact: (ensures_value (poly_leading_coef_ok False xP) h). Qed.

Lemma unit_poly_dvd (P : {poly R}) :
  (exists v, inverse_of *%R 1 P v) <-> size P = 1%N /\ exists v, inverse_of *%R 1 (lead_coef P) v.
Proof.
have e (V : idomainType) (u : V) : (exists v, inverse_of *%R 1 u v) <-> u \is a GRing.unit.
  by rewrite unit_inverse.
rewrite !e poly_unitE; split=> [/andP[/eqP s1 h]|[s1 h]].
  by rewrite s1; split=> //; rewrite lead_coefE s1.
by rewrite s1 eqxx /=; move: h; rewrite lead_coefE s1.
Qed.

Lemma add_size (P Q : {poly R}) : (size (P + Q)%R <= maxn (size P) (size Q))%N /\
  (size P <> size Q -> size (P + Q) = maxn (size P) (size Q)).
Proof.
split; first exact: size_add.
case: (ltngtP (size P) (size Q)) => // h _.
  by rewrite addrC size_addl //; exact/esym/maxn_idPr/ltnW.
by rewrite size_addl //; exact/esym/maxn_idPl/ltnW.
Qed.

Lemma degree_laws_ok : degree_laws p mem A (PolyIDom A).
Proof.
split.
- move=> x [P xP]; apply: ensures_mono (is_zero_ok hC xP) _ => _ ->.
  by rewrite (termsE xP) size_poly_eq0.
- by apply: ensures_mono (one_ok hM) _ => z z1; rewrite (termsE z1) size_poly1.
- by move=> x [P xP]; apply: ensures_mono (neg_ok hN xP) _ => z zN; rewrite (termsE zN) (termsE xP) size_opp.
- move=> x y [P xP] [Q yQ]; apply: ensures_mono (add_ok hC xP yQ) _ => z zN.
  by rewrite (termsE zN) (termsE xP) (termsE yQ); exact: add_size.
- move=> x y [P xP] [Q yQ]; apply: ensures_mono (sub_ok hN xP yQ) _ => z zN.
  by rewrite (termsE zN) (termsE xP) (termsE yQ) -(size_opp Q); exact: add_size.
- move=> x y [P xP] [Q yQ]; apply: ensures_mono (mul_ok hS xP yQ) _ => z zN.
  rewrite (termsE zN) (termsE xP) (termsE yQ) !size_poly_eq0.
  have [->|P0] /= := eqVneq P 0; first by rewrite mul0r size_poly0.
  have [->|Q0] /= := eqVneq Q 0; first by rewrite mulr0 size_poly0.
  by rewrite size_mul // prednK // addn_gt0 size_poly_gt0 P0.
- move=> x y a b [P xP] [Q yQ] /(lead_some xP) [/eqP P0 ha] /(lead_some yQ) [/eqP Q0 hb].
  apply: ensures_bind (mul_ok hS xP yQ) _ => z zN.
  apply: ensures_bind (poly_leading_coef_ok p zN) _ => -[c [_ hc]|/eqP]; last first.
    by rewrite mulf_eq0 (negbTE P0) (negbTE Q0).
  have hR' := id_ring_ok hA.
  apply: (same_eq (mo_dom_ok (ri_mon_ok hR'))) (gret p hc) (mul_ok (mo_sg_ok (ri_mon_ok hR')) ha hb) _.
  exact: lead_coefM.
- move=> x [P xP]; apply: ensures_mono (poly_leading_coef_ok p xP) _ => -[a [/eqP P0 _]|P0] /=;
    by rewrite (termsE xP) size_poly_eq0 ?P0 ?eqxx.
- move=> x [P xP]; apply: ensures_bind (poly_leading_coef_ok p xP) _ => -[a [/eqP P0 ha]|_]; last exact: ensures_ret.
  by apply: yes (notM_ok (is_zero_ok (ri_cm_ok (id_ring_ok hA)) ha)) _; rewrite lead_coef_eq0.
- move=> x y [P xP] [Q yQ]; rewrite (termsE yQ) => /eqP; rewrite size_poly_eq0 => Q0.
  apply: ensures_mono (try_div_ok hI xP yQ Q0) _ => -[q [N qN PE]|//].
  rewrite (termsE qN) (termsE xP) size_poly_eq0 PE mulf_eq0 (negbTE Q0) orbF.
  have [->|N0] := eqVneq N 0; first by rewrite size_poly0.
  by rewrite size_mul // prednK // addn_gt0 size_poly_gt0 N0.
- move=> x y [P xP] [Q yQ]; rewrite (termsE xP) (termsE yQ) => /eqP; rewrite size_poly_eq0 => P0.
  apply: ensures_mono (divisible_ok hI xP yQ) _ => b h /h [N PE].
  move: P0; rewrite PE mulf_eq0 negb_or => /andP[N0 Q0].
  rewrite size_poly_gt0 Q0 size_mul //=; move: N0; rewrite -size_poly_gt0.
  by case: (size N) => // k _; rewrite addSn /= leq_addl.
- move=> x y [P xP] [Q yQ]; rewrite (termsE xP) (termsE yQ).
  apply: ensures_mono (associates_ok hI xP yQ) _ => b h /h [h1 h2].
  have [u uu ->] := dvds_anti h1 h2.
  move: uu; rewrite poly_unitE => /andP[/eqP s1 _].
  have u0 : u != 0 by rewrite -size_poly_eq0 s1.
  have [->|Q0] := eqVneq P 0; first by rewrite ?mulr0 ?mul0r.
  by rewrite size_mul // s1.
- move=> x [P xP]; apply: ensures_mono (associate_repr_ok hI xP) _ => z zN.
  rewrite (termsE zN) (termsE xP).
  have [u uu ->] := dvds_anti (arep_dvd (poly_assoc AS) P) (dvd_arep (poly_assoc AS) P).
  move: uu; rewrite poly_unitE => /andP[/eqP s1 _].
  have u0 : u != 0 by rewrite -size_poly_eq0 s1.
  have [->|P0] := eqVneq P 0; first by rewrite ?mulr0 ?mul0r.
  by rewrite size_mul // s1.
- move=> x [P xP]; rewrite (termsE xP).
  apply: ensures_bind (invertible_ok hM xP) _ => b; rewrite unit_poly_dvd => hb.
  apply: ensures_bind (poly_leading_coef_ok p xP) _ => -[a [_ ha]|P0]; last first.
    by apply: ensures_ret; case: b hb => // -[/(_ isT)[]]; rewrite P0 size_poly0.
  apply: ensures_bind (invertible_ok (mo_mo_ok (ri_mon_ok (id_ring_ok hA))) ha) _ => c hc.
  apply: ensures_ret; rewrite -hc in hb; apply/eqP; apply/idP/idP.
    by move=> /hb[-> ->].
  by move=> /andP[/eqP h1 h2]; exact/hb.
Qed.
End IDom.

Section Field.
Variables (cfg : Cfg) (p : Prop) (E : Type) (F : fieldType) (rep : E -> F -> Prop).
Variable A : FieldAlg E.
Hypothesis hA : field_alg_spec cfg p rep A.
Local Notation mem := (fun x => exists P, poly_of rep x P).
Let hP := PolyEucl_ok hA.
Let hE := eu_eu_ok hP.
Let hI := id_id_ok (eu_idom_ok hP).
Let hR := id_ring_ok (eu_idom_ok hP).
Let hM := mo_mo_ok (ri_mon_ok hR).

Lemma dvds_size (P Q : {poly F}) : Q != 0 -> dvds (R := poly_idomainType F) P Q ->
  (0 < size P <= size Q)%N.
Proof.
move=> Q0 [N QE]; move: Q0; rewrite QE mulf_eq0 negb_or => /andP[N0 P0].
rewrite size_poly_gt0 P0 size_mul //=; move: N0; rewrite -size_poly_gt0.
by case: (size N) => // k _; rewrite addSn /= leq_addl.
Qed.

Lemma unit_size (P : {poly F}) : (exists v, inverse_of *%R 1 P v) <-> size P = 1%N.
Proof.
rewrite unit_poly_dvd; split=> [[]//|s1]; split=> //.
apply/unit_inverse; rewrite unitfE lead_coef_eq0 -size_poly_eq0 s1.
by [].
Qed.

Lemma size_like (U V : {poly F}) : dvds (R := poly_idomainType F) U V ->
  dvds (R := poly_idomainType F) V U -> size U = size V.
Proof.
have [->|V0] := eqVneq V 0; first by move=> _ [k ->]; rewrite mulr0.
have [->|U0] := eqVneq U 0; first by move=> [k ->]; rewrite mulr0.
move=> /(dvds_size V0)/andP[_ h1] /(dvds_size U0)/andP[_ h2].
by apply/eqP; rewrite eqn_leq h1 h2.
Qed.

Lemma gcd_size (P Q D : {poly F}) : is_gcd (R := poly_idomainType F) P Q D ->
  [/\ size P = 0%N -> size D = size Q, size Q = 0%N -> size D = size P &
      size P <> 0%N -> size Q <> 0%N -> (0 < size D <= minn (size P) (size Q))%N].
Proof.
move=> [h1 h2 h3]; split.
- move=> /eqP; rewrite size_poly_eq0 => /eqP P0; apply: size_like => //; apply: h3; last exact: dvds_refl.
  by rewrite P0; exact: dvds0.
- move=> /eqP; rewrite size_poly_eq0 => /eqP Q0; apply: size_like => //; apply: h3; first exact: dvds_refl.
  by rewrite Q0; exact: dvds0.
- move=> /eqP; rewrite size_poly_eq0 => P0 /eqP; rewrite size_poly_eq0 => Q0.
  have /andP[g0 g1] := dvds_size P0 h1; have /andP[_ g2] := dvds_size Q0 h2.
  by rewrite g0 leq_min g1 g2.
Qed.

Lemma division_degrees_ok : division_degrees p mem A (PolyEucl A).
Proof.
split.
- move=> x y [P xP] [Q yQ]; rewrite (termsE xP) (termsE yQ) => /eqP; rewrite size_poly_eq0 => Q0.
  apply: ensures_mono (quo_rem_ok hE xP yQ Q0) _ => z [z1 z2].
  rewrite (termsE z1) (termsE z2) /= ltn_modp Q0; split=> //.
  case: ltnP => h; first by rewrite divp_small ?size_poly0.
  have s0 : (0 < size Q)%N by rewrite size_poly_gt0.
  rewrite size_divp //; move: s0 h; move: (size P) (size Q) => k l; lia.
- move=> x y [P xP] [Q yQ]; rewrite (termsE xP) (termsE yQ) => /eqP; rewrite size_poly_eq0 => Q0.
  apply: ensures_mono (reduced_ok hE xP yQ) _ => _ ->; rewrite (negbTE Q0) /=.
  by apply/eqP/idP => [<-|]; [rewrite ltn_modp|exact: modp_small].
- move=> x y [P xP] [Q yQ]; apply: ensures_mono (gcd_ok hE xP yQ) _ => g [D gD hD].
  by rewrite (termsE xP) (termsE yQ) (termsE gD); exact: gcd_size.
- move=> x y [P xP] [Q yQ]; rewrite (termsE xP) (termsE yQ) => /eqP; rewrite size_poly_eq0 => P0 /eqP; rewrite size_poly_eq0 => Q0.
  apply: ensures_bind (gcd_ok hE xP yQ) _ => g [D gD hD].
  apply: ensures_bind (lcm_ok hE xP yQ) _ => l [L lL hL].
  apply: ensures_ret; rewrite /= (termsE gD) (termsE lL).
  have [e1 e2] := gcd_lcm_mul (poly_estruct F) hD hL.
  have PQ0 : (P : poly_idomainType F) * Q != 0 by rewrite mulf_neq0.
  have e := size_like e1 e2.
  have DL0 : D * L != 0 by apply: contraNneq PQ0 => h; move: e1; rewrite h => /dvd0s ->.
  move: DL0 e; rewrite mulf_eq0 negb_or => /andP[D0 L0].
  rewrite !size_mul // => e; move: D0 P0 e; rewrite -!size_poly_gt0.
  by move: (size (D : {poly F})) (size (L : {poly F})) (size P) (size Q) => i j k l'; lia.
- move=> x [P xP]; rewrite (termsE xP) => /eqP; rewrite size_poly_eq0 => P0.
  apply: ensures_bind (associate_repr_ok hI xP) _ => z zN.
  have lc : lead_coef (arep (poly_assoc (field_assoc F)) P : {poly F}) = 1.
    by rewrite /arep (negbTE P0) /= /poly_acoef lead_coefM lead_coefC mulVf // lead_coef_eq0.
  apply: ensures_bind (poly_leading_coef_ok p zN) _ => -[a [_ ha]|h].
    by apply: yes (is_one_ok (mo_mo_ok (ri_mon_ok (id_ring_ok (eu_idom_ok (fi_eucl_ok hA))))) ha) _; exact/eqP.
  by move: lc; rewrite h lead_coef0 => /eqP; rewrite eq_sym oner_eq0.
- move=> x y [P xP] [Q yQ]; apply: ensures_bind (relative_primes_ok hE xP yQ) _ => b hb.
  apply: (@ensures_bind _ _ _ _ _ (fun c => b = c)); last by move=> _ <-; apply: ensures_ret; exact: eqxx.
  apply: ensures_bind (gcd_ok hE xP yQ) _ => g [D gD hD]; apply: ensures_ret.
  rewrite (termsE gD); apply/idP/eqP.
    move=> /hb /coprime_gcd [h1 h2 h3]; have [g1 g2 g3] := hD.
    by rewrite (size_like (h3 _ g1 g2) (g3 _ h1 h2)) size_poly1.
  move=> /unit_size [V [_ VD]]; apply/hb.
  have [s [t DE]] := gcd_bezout (poly_estruct F) hD.
  by exists (V * s), (V * t); rewrite -!mulrA -mulrDr -DE.
- move=> x [P xP]; apply: ensures_mono (invertible_ok hM xP) _ => b.
  rewrite unit_size (termsE xP) => h; apply/idP/eqP; first by move/h.
  by move=> s1; apply/h.
Qed.
End Field.

(** Everything built from the numbers. *)
Lemma tower_degree cfg p E R rep AS A : @tower_idom cfg p E R rep AS A ->
  degree_laws p (fun x => exists P, poly_of rep x P) A (PolyIDom A).
Proof. by move=> /tower_idom_contract; exact: degree_laws_ok. Qed.
Lemma tower_division cfg p E F rep A : @tower_field cfg p E F rep A ->
  division_degrees p (fun x => exists P, poly_of rep x P) A (PolyEucl A).
Proof. by move=> /tower_field_contract; exact: division_degrees_ok. Qed.
