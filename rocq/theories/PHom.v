(** * PHom.v -- homomorphisms of the values give the laws of HomLaw.v. *)

From Coq Require Import ZArith Lia Znumtheory.
From mathcomp Require Import all_ssreflect all_algebra zify ssrZ.
From Verif Require Import Rust Traits MInts MConstr RingTac Wp Spec PropSpec ModSpec Quotient RingSpec NumSpec PDefaults.
From Verif Require Import PIntsZ PInts POrders PGroups PQuot PFrac PPoly PQuotProps PFracProps PModular PTowerEx Laws PLaws PLaws2 TimesLaw PTimesLaw HomLaw.

Set Implicit Arguments.
Unset Strict Implicit.
Unset Printing Implicit Defensive.

Import GRing.Theory.
Local Open Scope ring_scope.

Section Ring.
Variables (cfg : Cfg) (p : Prop) (E W : Type) (V U : zmodType).
Variables (rep : E -> V -> Prop) (rep' : W -> U -> Prop) (mm : E -> Prop).
Hypothesis mmP : forall x, mm x -> exists u, rep x u.
Variables (op : V -> V -> V) (e : V) (op' : U -> U -> U) (e' : U).
Hypothesis opA : associative op'.
Hypothesis op1x : left_id e' op'.
Hypothesis opx1 : right_id e' op'.
Variables (phi : V -> U) (f : E -> M W).
Hypothesis phiD : {morph phi : a b / a + b}.
Hypothesis phiM : forall a b, phi (op a b) = op' (phi a) (phi b).
Hypothesis phi1 : phi e = e'.
Hypothesis fP : forall x u, rep x u -> gives p rep' (f x) (phi u).
Variables (A : RingAlg E) (B : RingAlg W).
Hypothesis hA : ring_alg_spec cfg p rep op e A.
Hypothesis hB : ring_alg_spec cfg p rep' op' e' B.

Lemma phi0 : phi 0 = 0.
Proof. by apply: (addrI (phi 0)); rewrite -phiD !addr0. Qed.
Lemma phiN a : phi (- a) = - phi a.
Proof. by apply: (addrI (phi a)); rewrite -phiD !subrr phi0. Qed.

Lemma map_of (m : M E) u : gives p rep m u -> gives p rep' (let! a := m in f a) (phi u).
Proof. by move=> h; apply: ensures_bind h _ => a; exact: fP. Qed.
Lemma map1 x u (g : W -> M W) w : rep x u -> (forall a, rep' a (phi u) -> gives p rep' (g a) w) ->
  gives p rep' (let! a := f x in g a) w.
Proof. by move=> xu h; apply: ensures_bind (fP xu) _. Qed.
Lemma map2 x u y v (g : W -> W -> M W) w : rep x u -> rep y v ->
  (forall a b, rep' a (phi u) -> rep' b (phi v) -> gives p rep' (g a b) w) ->
  gives p rep' (let! a := f x in let! b := f y in g a b) w.
Proof.
by move=> xu yv h; apply: ensures_bind (fP xu) _ => a ax; apply: ensures_bind (fP yv) _ => b; exact: h.
Qed.

Lemma ring_map_ok : ring_map cfg p mm f A B.
Proof.
case: hA => -[hD hS hO] hC hG hU; case: hB => -[hD' hS' hO'] hC' hG' hU'; split.
- by move=> x /mmP[u xu]; exact: (member_ok hD' (fP xu)).
- move=> x y /mmP[u xu] /mmP[v yv].
  apply: (entails_ok (equals_ok hD xu yv) (same_ok hD' (fP xu) (fP yv))).
  by move/eqP->; rewrite eqxx.
- by apply: (same_eq hD' (map_of (zero_ok hC)) (zero_ok hC')); rewrite phi0.
- by apply: (same_eq hD' (map_of (one_ok hO)) (one_ok hO')); rewrite phi1.
- move=> x y /mmP[u xu] /mmP[v yv]; apply: (same_eq hD' (map_of (add_ok hC xu yv)) _ (phiD u v)).
  by apply: map2 xu yv _ => a b; exact: (add_ok hC').
- move=> x y /mmP[u xu] /mmP[v yv]; apply: (same_eq hD' (map_of (sub_ok hG xu yv))).
    by apply: map2 xu yv _ => a b; exact: (sub_ok hG').
  by rewrite phiD phiN.
- move=> x y /mmP[u xu] /mmP[v yv]; apply: (same_eq hD' (map_of (mul_ok hS xu yv)) _ (phiM u v)).
  by apply: map2 xu yv _ => a b; exact: (mul_ok hS').
- move=> x /mmP[u xu]; apply: (same_eq hD' (map_of (neg_ok hG xu)) _ (phiN u)).
  by apply: map1 xu _ => a; exact: (neg_ok hG').
- move=> x /mmP[u xu]; apply: (same_eq hD' (map_of (double_ok hC xu)) _ (phiD u u)).
  by apply: map1 xu _ => a; exact: (double_ok hC').
- move=> x /mmP[u xu]; apply: (same_eq hD' (map_of (square_ok hS xu)) _ (phiM u u)).
  by apply: map1 xu _ => a; exact: (square_ok hS').
- move=> n x /mmP[u xu] fn; apply: (same_eq hD' (map_of (ztimes_ok hG fn xu))).
    by apply: map1 xu _ => a; exact: (ztimes_ok hG' fn).
  exact: zmul_hom.
- move=> n fn; apply: (same_eq hD' (map_of (int_ok hU fn)) (int_ok hU' fn)).
  by rewrite zmul_hom // phi1.
- move=> x /mmP[u xu]; apply: ensures_bind (try_inv_ok hO xu) _ => -[y [v yv uv]|_]; last exact: ensures_ret.
  apply: ensures_bind (fP xu) _ => a au.
  have uv' : inverse_of op' e' (phi u) (phi v) by case: uv => h1 h2; split; rewrite -phiM ?h1 ?h2.
  apply: ensures_bind (try_inv_ok hO' au) _ => -[z [w zw uw]|/(_ _ uv')//].
  apply: (same_eq hD' (fP yv) (gret p zw)).
  exact: (inverse_uniq opA op1x opx1 uv' uw).
Qed.
Lemma one_to_one_ok : injective phi -> one_to_one p mm f A B.
Proof.
case: hA => -[hD hS hO] hC hG hU; case: hB => -[hD' hS' hO'] hC' hG' hU' inj.
move=> x y /mmP[u xu] /mmP[v yv].
by apply: (agree_ok (equals_ok hD xu yv) (same_ok hD' (fP xu) (fP yv))); rewrite (inj_eq inj).
Qed.
End Ring.

Section Field.
Variables (cfg : Cfg) (p : Prop) (E W : Type) (F K : fieldType).
Variables (rep : E -> F -> Prop) (rep' : W -> K -> Prop) (mm : E -> Prop).
Hypothesis mmP : forall x, mm x -> exists u, rep x u.
Variables (phi : {rmorphism F -> K}) (f : E -> M W).
Hypothesis fP : forall x u, rep x u -> gives p rep' (f x) (phi u).
Variables (A : FieldAlg E) (B : FieldAlg W).
Hypothesis hA : field_alg_spec cfg p rep A.
Hypothesis hB : field_alg_spec cfg p rep' B.

Lemma field_map_ok : field_map cfg p mm f A B.
Proof.
have hRA := id_ring_ok (eu_idom_ok (fi_eucl_ok hA)); have hRB := id_ring_ok (eu_idom_ok (fi_eucl_ok hB)).
have R : ring_map cfg p mm f A B.
  apply: (ring_map_ok mmP _ _ _ _ _ _ fP hRA hRB).
  - exact: mulrA.
  - exact: mul1r.
  - exact: mulr1.
  - exact: rmorphD.
  - exact: rmorphM.
  - exact: rmorph1.
have O := one_to_one_ok mmP fP hRA hRB (fmorph_inj phi).
case: hRA => -[hD hS hO] hC hG hU; case: hRB => -[hD' hS' hO'] hC' hG' hU'.
have [_ hF] := hA; have [_ hF'] := hB; split=> //.
- move=> x /mmP[u xu]; apply: (@agree_ok _ _ _ (u == 0) (phi u == 0)).
  + exact: is_zero_ok hC _ _ xu.
  + by apply: ensures_bind (fP xu) _ => a; exact: (is_zero_ok hC').
  + by rewrite fmorph_eq0.
- move=> x /mmP[u xu]; apply: ensures_bind (try_inv_ok hO xu) _ => o ho.
  apply: ensures_bind (fP xu) _ => a au; apply: ensures_bind (try_inv_ok hO' au) _ => q.
  case: o ho => [y [v yv uv]|nu]; case: q => [z [w zw uw]|nu'].
  + apply: (same_eq hD' (fP yv) (gret p zw)).
    apply: (inverse_uniq (@mulrA K) (@mul1r K) (@mulr1 K) _ uw).
    by case: uv => h1 h2; split; rewrite -rmorphM ?h1 ?h2 rmorph1.
  + case: (nu' (phi v)).
    by case: uv => h1 h2; split; rewrite -rmorphM ?h1 ?h2 rmorph1.
  + have u0 : u != 0.
      rewrite -(fmorph_eq0 phi); apply/eqP => h; case: uw => h1 _.
      by move/eqP: h1; rewrite h mul0r eq_sym oner_eq0.
    by case: (nu u^-1); split; rewrite ?mulfV ?mulVf.
  + exact: ensures_ret.
- move=> x /mmP[u xu] /(is_zero_value hC xu) /negbT u0.
  apply: (same_eq hD' (map_of fP (finv_ok hF xu u0)) _ (fmorphV phi u)).
  by apply: (map1 fP xu) => a au; apply: (finv_ok hF' au); rewrite fmorph_eq0.
- move=> x y /mmP[u xu] /mmP[v yv] /(is_zero_value hC yv) /negbT v0.
  apply: (same_eq hD' (map_of fP (fdiv_ok hF xu yv v0)) _ (fmorph_div phi u v)).
  by apply: (map2 fP xu yv) => a b au bv; apply: (fdiv_ok hF' au bv); rewrite fmorph_eq0.
- move=> n x /mmP[u xu] /(is_zero_value hC xu) /negbT u0 fn.
  apply: (same_eq hD' (map_of fP (fpower_ok hF fn xu u0))).
    by apply: (map1 fP xu) => a au; apply: (fpower_ok hF' fn au); rewrite fmorph_eq0.
  by rewrite !zexpE fmorphXz.
Qed.
End Field.

(** ** Residues *)
Section Residue.
Variables (cfg : Cfg) (p : Prop) (E : Type) (R : idomainType) (rep : E -> R -> Prop).
Variables (AS : assoc_struct R) (S : eucl_struct R) (A : EuclAlg E).
Hypothesis hA : eucl_alg_spec cfg p rep AS S A.
Let hR := id_ring_ok (eu_idom_ok hA).

Section One.
Variables (m : R) (modulo : E).
Hypotheses (m0 : m != 0) (mu : m \isn't a GRing.unit) (hm : rep modulo m).
Let md := Modulus m0 mu.
Let hQ := QuotientRing_ok hA (m := md) hm.

Lemma to_residue_ok x u : rep x u -> gives p (@q_rep E R S md rep) (to_residue A modulo x) (qpi S md u).
Proof. by move=> xu; exact: (b_rem hA (m := md) hm xu). Qed.
Lemma residue_map : ring_map cfg p (fun x => exists a, rep x a) (to_residue A modulo) A
  (QuotientRing cfg A modulo).
Proof.
apply: (ring_map_ok (phi := qpi S md) _ _ _ _ _ _ _ to_residue_ok hR hQ) => //.
- exact: mulrA.
- exact: mul1r.
- exact: mulr1.
- exact: rmorphD.
- exact: rmorphM.
Qed.
Lemma residue_kernel x a : rep x a -> holds p (Laws.agree
  (let! y := to_residue A modulo x in is_zero (QuotientRing cfg A modulo) y)
  (divisible A x modulo)).
Proof.
move=> xa; apply: (@agree_ok _ _ _ (qpi S md a == 0) (qpi S md a == 0) _ _ (erefl _)).
  by apply: ensures_bind (to_residue_ok xa) _ => y; exact: (is_zero_ok (ri_cm_ok hQ)).
apply: ensures_mono (divisible_ok (id_id_ok (eu_idom_ok hA)) xa hm) _ => b hb.
by apply/idP/eqP => [/hb/(qpi_eq0 S md)|/(qpi_eq0 S md)/hb].
Qed.
Lemma residue_onto : undoes p (fun x => exists a, residue_of S m rep x a) (fun x => ret x)
  (to_residue A modulo) (QuotientRing cfg A modulo).
Proof.
move=> x [a [xa /eqP ra]]; rewrite bind_ret.
have xq : @q_rep E R S md rep x (Quot (ra : erem S a md == a)) by [].
apply: (same_eq (mo_dom_ok (ri_mon_ok hQ)) (to_residue_ok xa) (gret p xq)).
by apply: val_inj => /=; apply/eqP.
Qed.
End One.

Lemma residues_map m m' modulo modulo' : m != 0 -> m \isn't a GRing.unit -> rep modulo m ->
  m' != 0 -> m' \isn't a GRing.unit -> rep modulo' m' -> dvds m' m ->
  ring_map cfg p (fun x => exists a, residue_of S m rep x a) (to_residue A modulo')
    (QuotientRing cfg A modulo) (QuotientRing cfg A modulo').
Proof.
move=> m0 mu hm m0' mu' hm' d.
have hQ := QuotientRing_ok hA (m := Modulus m0 mu) hm.
have hQ' := QuotientRing_ok hA (m := Modulus m0' mu') hm'.
have e a : qpi S (Modulus m0' mu') (qval (qpi S (Modulus m0 mu) a)) = qpi S (Modulus m0' mu') a.
  by apply/qpiE; exact: dvds_trans d (qpi_val S (Modulus m0 mu) a).
apply: (ring_map_ok (phi := fun q => qpi S (Modulus m0' mu') (qval q)) _ _ _ _ _ _ _ _ hQ hQ').
- by move=> x [a [xa /eqP ra]]; exists (Quot (ra : erem S a (Modulus m0 mu) == a)).
- exact: mulrA.
- exact: mul1r.
- exact: mulr1.
- by move=> a b; rewrite -{1}(qpiK a) -{1}(qpiK b) -rmorphD e rmorphD.
- by move=> a b; rewrite -{1}(qpiK a) -{1}(qpiK b) -rmorphM e rmorphM.
- by rewrite (e 1).
- by move=> x u xu; exact: (to_residue_ok m0' mu' hm').
Qed.
End Residue.

(** ** Residues in a field *)
Section ResidueField.
Variables (cfg : Cfg) (p : Prop) (E : Type) (R : idomainType) (rep : E -> R -> Prop).
Variables (AS : assoc_struct R) (S : eucl_struct R) (A : EuclAlg E).
Hypothesis hA : eucl_alg_spec cfg p rep AS S A.
Variables (m : R) (modulo : E).
Hypotheses (hirr : irreducible_elt m) (hm : rep modulo m).
Let m0 : m != 0. Proof. by case: hirr. Qed.
Let mu : m \isn't a GRing.unit. Proof. by case: hirr. Qed.
Let md := @IrrModulus R (Modulus m0 mu) hirr.
Let hQ := @QuotientField_ok cfg p E R rep AS S A hA md modulo hm.

Lemma residue_field_map : ring_map cfg p (fun x => exists a, rep x a) (to_residue A modulo) A
  (QuotientField cfg A modulo).
Proof.
apply: (ring_map_ok (phi := fun u => qpi S md u : qfield S md) _ _ _ _ _ _ _
  (to_residue_ok hA m0 mu hm) (id_ring_ok (eu_idom_ok hA)) (id_ring_ok (eu_idom_ok (fi_eucl_ok hQ)))) => //.
- exact: mulrA.
- exact: mul1r.
- exact: mulr1.
- exact: (rmorphD (qpi_rmorphism S md)).
- exact: (rmorphM (qpi_rmorphism S md)).
Qed.
End ResidueField.

(** ** Fractions *)
Section Fraction.
Variables (cfg : Cfg) (p : Prop) (E : Type) (R : idomainType) (rep : E -> R -> Prop).
Variables (AS : assoc_struct R) (S : eucl_struct R) (A : EuclAlg E).
Hypothesis hA : eucl_alg_spec cfg p rep AS S A.
Local Notation phi := [rmorphism of @FracField.tofrac R].
Let hR := id_ring_ok (eu_idom_ok hA).
Let hF := reduced_fractions_contract hA.

Lemma lowestx1 (a : R) : lowest AS a 1.
Proof.
have [h1 h2 _] := lowest1 AS; split=> //.
by exists 0, 1; rewrite mul0r mul1r add0r.
Qed.
Lemma to_fraction_ok x u : rep x u ->
  gives p (frac_rep (F := [fieldType of {fraction R}]) phi AS rep) (to_fraction A x) (phi u).
Proof.
move=> xu; apply: ensures_bind (one_ok (mo_mo_ok (ri_mon_ok hR))) _ => o hO.
apply: ensures_ret; exists u, 1; split=> //; first exact: lowestx1.
by rewrite rmorph1 divr1.
Qed.
Lemma fraction_map :
  ring_map cfg p (fun x => exists a, rep x a) (to_fraction A) A (ReducedFractions cfg A) /\
  one_to_one p (fun x => exists a, rep x a) (to_fraction A) A (ReducedFractions cfg A).
Proof.
have hB := id_ring_ok (eu_idom_ok (fi_eucl_ok hF)); split.
  apply: (ring_map_ok (phi := phi) _ _ _ _ _ _ _ to_fraction_ok hR hB) => //.
  - exact: mulrA.
  - exact: mul1r.
  - exact: mulr1.
  - exact: rmorphD.
  - exact: rmorphM.
apply: (one_to_one_ok (phi := phi) _ to_fraction_ok hR hB) => //.
exact: tofrac_inj.
Qed.
End Fraction.

(** ** Constants *)
Section Constant.
Variables (cfg : Cfg) (p : Prop) (E : Type).

Lemma to_constant_ok (R : idomainType) (rep : E -> R -> Prop) (A : RingAlg E) x u :
  ring_alg_spec cfg p rep *%R 1 A -> rep x u ->
  gives p (poly_rep rep) (to_constant A x) (polyC u).
Proof.
move=> hR xu; apply: ensures_bind (is_zero_ok (ri_cm_ok hR) xu) _ => b ->.
apply: ensures_ret; rewrite /poly_rep polyseqC.
by case: eqP => _ /=; [exact: reps_nil|apply: reps_cons => //; exact: reps_nil].
Qed.

Lemma constant_map (R : idomainType) (rep : E -> R -> Prop) (A : RingAlg E) :
  ring_alg_spec cfg p rep *%R 1 A ->
  ring_map cfg p (fun x => exists a, rep x a) (to_constant A) A (PolyRing A) /\
  one_to_one p (fun x => exists a, rep x a) (to_constant A) A (PolyRing A).
Proof.
move=> hR; have hP := PolyRing_ok hR; have hf x u := to_constant_ok (x := x) (u := u) hR; split.
  apply: (ring_map_ok (phi := @polyC R) _ _ _ _ _ _ _ hf hR hP) => //.
  - exact: mulrA.
  - exact: mul1r.
  - exact: mulr1.
  - exact: polyCD.
  - exact: polyCM.
by apply: (one_to_one_ok (phi := @polyC R) _ hf hR hP) => //; exact: polyC_inj.
Qed.

Lemma constant_field_map (F : fieldType) (rep : E -> F -> Prop) (A : FieldAlg E)
    (m : {poly F}) (modulo : seq E) :
  field_alg_spec cfg p rep A -> @irreducible_elt (poly_idomainType F) m -> poly_of rep modulo m ->
  field_map cfg p (fun x => exists a, rep x a) (to_constant A) A
    (QuotientField cfg (PolyEucl A) modulo).
Proof.
move=> hA hirr hm; have hR := id_ring_ok (eu_idom_ok (fi_eucl_ok hA)).
have m0 : m != 0 by case: hirr.
have mu : m \isn't a GRing.unit by case: hirr.
pose md := @IrrModulus (poly_idomainType F) (@Modulus (poly_idomainType F) m m0 mu) hirr.
have hQ := @QuotientField_ok cfg p _ _ _ _ _ _ (PolyEucl_ok hA) md modulo hm.
pose g (u : F) : qfield (poly_estruct F) md := qpi (poly_estruct F) md u%:P.
have gM : rmorphism g.
  split; first by move=> a b; rewrite /g polyCB (rmorphB (qpi_rmorphism (poly_estruct F) md)).
  split; last by rewrite /g polyC1.
  by move=> a b; rewrite /g polyCM (rmorphM (qpi_rmorphism (poly_estruct F) md)).
apply: (field_map_ok (phi := RMorphism gM) _ _ hA hQ) => // x u xu.
have s1 : (1 < size m)%N.
  rewrite ltnNge; apply/negP => h; case/negP: (mu); have mE := size1_polyC h.
  rewrite mE poly_unitE size_polyC coefC eqxx.
  have c0 : m`_0 != 0 by apply: contraNneq (m0) => c0; rewrite mE c0.
  by rewrite c0 unitfE.
apply: ensures_mono (to_constant_ok hR xu) _ => y hy; rewrite /qf_rep.
suff -> : qval (g u : quot (poly_estruct F) md) = u%:P by [].
rewrite /g /=; apply: modp_small.
by rewrite (leq_ltn_trans (size_polyC_leq1 _)).
Qed.
End Constant.

(** ** The two fields with two elements *)
Section Two.
Variables (cfg : Cfg).
Let md := prime_field prime_2.
Local Notation K := (qfield_fieldType Z_eucl md).
Let hB := BB_ok cfg False.
Let hQ : field_alg_spec cfg False (@qf_rep Z [idomainType of Z] zz_rep Z_eucl md) (QuotientField cfg ZZ 2) :=
  @QuotientField_ok cfg False Z _ zz_rep _ _ ZZ (ZZ_ok cfg False) md 2 erefl.

Lemma two_eq0 : (1 + 1 = 0 :> K).
Proof. by apply: val_inj. Qed.
Lemma two_cases (u : K) : u = 0 \/ u = 1.
Proof.
have hv : erem Z_eucl (qval (u : quot Z_eucl md)) (mval md) = qval (u : quot Z_eucl md) := qvalE _.
have : qval (u : quot Z_eucl md) = Z0 \/ qval (u : quot Z_eucl md) = Zpos xH.
  rewrite -hv; have := (Z.mod_pos_bound (qval (u : quot Z_eucl md)) 2 erefl).
  change (erem _ _ _) with (Z.modulo (qval (u : quot Z_eucl md)) 2); lia.
by case=> h; [left|right]; apply: val_inj; rewrite /= h.
Qed.
Definition to_two (b : F2) : K := if b == 0 then 0 else 1.
Definition of_two (u : K) : F2 := if u == 0 then 0 else 1.
Lemma F2_cases (b : F2) : b = 0 \/ b = 1.
Proof. by case: b => -[|[|]] // i; [left|right]; apply: val_inj. Qed.
Lemma to_two_morph : rmorphism to_two.
Proof.
split; last split.
- move=> a b; case: (F2_cases a) => ->; case: (F2_cases b) => ->; rewrite /to_two ?subr0 ?subrr ?eqxx ?oner_eq0 ?subr0 ?subrr //.
- move=> a b; case: (F2_cases a) => ->; case: (F2_cases b) => ->;
    by rewrite /to_two ?mulr0 ?mul0r ?mulr1 ?eqxx ?oner_eq0 ?mulr0 ?mul0r ?mulr1.
- by rewrite /to_two oner_eq0.
Qed.
Lemma of_two_morph : rmorphism of_two.
Proof.
split; last split.
- move=> a b; case: (two_cases a) => ->; case: (two_cases b) => ->; rewrite /of_two ?subr0 ?subrr ?eqxx ?oner_eq0 ?subr0 ?subrr //.
- move=> a b; case: (two_cases a) => ->; case: (two_cases b) => ->;
    by rewrite /of_two ?mulr0 ?mul0r ?mulr1 ?eqxx ?oner_eq0 ?mulr0 ?mul0r ?mulr1.
- by rewrite /of_two oner_eq0.
Qed.
Lemma bool_to_residue_ok x u : bb_rep x u ->
  gives False (@qf_rep Z [idomainType of Z] zz_rep Z_eucl md) (bool_to_residue x) (to_two u).
Proof. by move=> ->; apply: ensures_ret; case: x. Qed.
Lemma residue_to_bool_ok x u : @qf_rep Z [idomainType of Z] zz_rep Z_eucl md x u ->
  gives False bb_rep (residue_to_bool x) (of_two u).
Proof. by rewrite /qf_rep /zz_rep => ->; apply: ensures_ret; case: (two_cases u) => ->. Qed.

Lemma two_map :
  [/\ field_map cfg False (fun _ : bool => True) bool_to_residue BB (QuotientField cfg ZZ 2),
      field_map cfg False (fun x : Z => x = Z0 \/ x = Zpos xH) residue_to_bool (QuotientField cfg ZZ 2) BB,
      undoes False (fun _ : bool => True) bool_to_residue residue_to_bool BB
    & undoes False (fun x : Z => x = Z0 \/ x = Zpos xH) residue_to_bool bool_to_residue
        (QuotientField cfg ZZ 2)].
Proof.
have m2 (x : Z) : x = Z0 \/ x = Zpos xH -> exists u : K, @qf_rep Z [idomainType of Z] zz_rep Z_eucl md x u.
  by case=> ->; [exists 0|exists 1].
split.
- by apply: (field_map_ok (phi := RMorphism to_two_morph) _ bool_to_residue_ok hB hQ) => x _; exists x%:R.
- exact: (field_map_ok (phi := RMorphism of_two_morph) m2 residue_to_bool_ok hQ hB).
- move=> x _; have hD := mo_dom_ok (ri_mon_ok (id_ring_ok (eu_idom_ok (fi_eucl_ok hB)))).
  have hx : bb_rep x x%:R by [].
  apply: (same_eq hD _ (gret _ hx)).
    by apply: ensures_bind (bool_to_residue_ok hx) _ => y; exact: residue_to_bool_ok.
  by case: x {hx}.
- move=> x /m2[u hx]; have hD := mo_dom_ok (ri_mon_ok (id_ring_ok (eu_idom_ok (fi_eucl_ok hQ)))).
  apply: (same_eq hD _ (gret _ hx)).
    by apply: ensures_bind (residue_to_bool_ok hx) _ => y; exact: bool_to_residue_ok.
  by case: (two_cases u) => ->; apply/eqP.
Qed.
End Two.
