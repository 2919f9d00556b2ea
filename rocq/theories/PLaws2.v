(** * PLaws2.v -- the contracts of rings, domains and fields imply their laws. *)

From Coq Require Import ZArith.
From mathcomp Require Import all_ssreflect all_algebra zify.
From Verif Require Import Rust Traits RingTac Wp Spec PDefaults PIntsZ PGroups Laws PLaws.

Set Implicit Arguments.
Unset Strict Implicit.
Unset Printing Implicit Defensive.

Import GRing.Theory.
Local Open Scope ring_scope.

Section Ring.
Variables (cfg : Cfg) (p : Prop) (E : Type).

Section Abelian.
Variables (V : zmodType) (rep : E -> V -> Prop) (mm : E -> Prop) (D : Domain E).
Hypothesis mmP : forall x, mm x -> exists u, rep x u.
Hypothesis hD : domain_spec p rep D.
Variable C : CommMonoid E.
Hypothesis hC : cmonoid_spec p rep +%R 0 C.

Lemma abelian_laws_ok (A : AbelianGroup E) :
  (forall n, Z.le (Zneg xH) n -> Z.le n (Zpos xH) -> good_isize cfg n) ->
  abelian_spec cfg p rep A -> abelian_laws p mm D cfg C A.
Proof.
move=> h1 hA; split.
- by move=> x /mmP[u xu]; exact: (member_ok hD (neg_ok hA xu)).
- move=> x /mmP[u xu]; apply: (same_eq hD) (zero_ok hC) (subrr u).
  by apply: gbind (neg_ok hA xu) _ => y yv; exact: (add_ok hC xu yv).
- by move=> x /mmP[u xu]; apply: (same_eq hD) (neg_assign_ok hA xu) (neg_ok hA xu) _.
- move=> x y /mmP[u xu] /mmP[v yv]; apply: (same_eq hD) (sub_ok hA xu yv) _ erefl.
  by apply: gbind (neg_ok hA yv) _ => z zw; exact: (add_ok hC xu zw).
- by move=> x y /mmP[u xu] /mmP[v yv]; apply: (same_eq hD) (sub_assign_ok hA xu yv) (sub_ok hA xu yv) _.
- by move=> x /mmP[u xu]; apply: (same_eq hD) (ztimes_ok hA (h1 _ _ _) xu) (zero_ok hC) _.
- by move=> x /mmP[u xu]; apply: (same_eq hD) (ztimes_ok hA (h1 _ _ _) xu) (gret _ xu) _.
- by move=> x /mmP[u xu]; apply: (same_eq hD) (ztimes_ok hA (h1 _ _ _) xu) (neg_ok hA xu) _.
- move=> m n x /mmP[u xu] im iN imn nm nn nmn.
  have E1 : zmul u (Z.add m n) = zmul u m + zmul u n.
    rewrite -!zpow_zmul; apply: (zpow_add (@addrA V) (@add0r V) (@addr0 V)).
    by split; rewrite ?subrr ?addNr.
  apply: (same_eq hD) (ztimes_ok hA (conj imn nmn) xu) _ E1.
  apply: gbind (ztimes_ok hA (conj im nm) xu) _ => a au.
  by apply: gbind (ztimes_ok hA (conj iN nn) xu) _ => b bu; exact: (add_ok hC au bu).
Qed.

Lemma distributive_laws_ok (S : Semigroup E) op :
  (forall a b c : V, op a (b + c) = op a b + op a c) ->
  (forall a b c : V, op (a + b) c = op a c + op b c) ->
  semigroup_spec p rep op S -> distributive_laws p mm D S C.
Proof.
move=> hl hr hS.
have op0 a : op a 0 = 0 by apply: (addrI (op a 0)); rewrite -hl !addr0.
have op0' a : op 0 a = 0 by apply: (addrI (op 0 a)); rewrite -hr !addr0.
split.
- move=> x y z /mmP[u xu] /mmP[v yv] /mmP[w zw]; apply: (same_eq hD) (hl u v w).
    by apply: gbind (add_ok hC yv zw) _ => a au; exact: (mul_ok hS xu au).
  apply: gbind (mul_ok hS xu yv) _ => a au.
  by apply: gbind (mul_ok hS xu zw) _ => b bu; exact: (add_ok hC au bu).
- move=> x y z /mmP[u xu] /mmP[v yv] /mmP[w zw]; apply: (same_eq hD) (hr u v w).
    by apply: gbind (add_ok hC xu yv) _ => a au; exact: (mul_ok hS au zw).
  apply: gbind (mul_ok hS xu zw) _ => a au.
  by apply: gbind (mul_ok hS yv zw) _ => b bu; exact: (add_ok hC au bu).
- move=> x /mmP[u xu]; apply: (same_eq hD) (zero_ok hC) (op0 u).
  by apply: gbind (zero_ok hC) _ => z z0; exact: (mul_ok hS xu z0).
- move=> x /mmP[u xu]; apply: (same_eq hD) (zero_ok hC) (op0' u).
  by apply: gbind (zero_ok hC) _ => z z0; exact: (mul_ok hS z0 xu).
Qed.
End Abelian.

Lemma answers_decides m (b : bool) : answers p m b -> decides p m b.
Proof. by move=> h; apply: ensures_mono h _ => _ ->. Qed.
Lemma yes_decides m (P : Prop) : decides p m P -> P -> holds p m.
Proof. by move=> h hP; apply: ensures_mono h _ => r [_ h']; exact: h'. Qed.
Lemma no_decides m (P : Prop) : decides p m P -> ~ P -> holds p (notM m).
Proof.
move=> h hP; apply: ensures_bind h _ => r h'; apply: ensures_ret.
by case: r h' => // -[/(_ isT)].
Qed.
Lemma decides_iff m (P Q : Prop) : decides p m P -> (P <-> Q) -> decides p m Q.
Proof. by move=> h PQ; apply: ensures_mono h _ => r ->. Qed.

Section IDom.
Variables (R : idomainType) (rep : E -> R -> Prop) (mm : E -> Prop) (D : Domain E).
Hypothesis mmP : forall x, mm x -> exists u, rep x u.
Hypothesis hD : domain_spec p rep D.
Variables (S : Semigroup E) (O : Monoid E) (C : CommMonoid E) (I : IntegralDomain E).
Hypothesis hS : semigroup_spec p rep *%R S.
Hypothesis hO : monoid_spec p rep *%R 1 O.
Hypothesis hC : cmonoid_spec p rep +%R 0 C.
Variable AS : assoc_struct R.
Hypothesis hI : idom_spec p rep AS I.

Lemma is_zero_value y v b : rep y v -> returns (is_zero C y) b -> (v == 0) = b.
Proof. by move=> yv h; have := ensures_value (is_zero_ok hC yv) h => ->. Qed.
Lemma unit_inverse (u : R) : u \is a GRing.unit <-> exists v, inverse_of *%R 1 u v.
Proof.
split=> [h|[v [h1 h2]]]; last by apply/unitrPr; exists v.
by exists u^-1; rewrite /inverse_of mulrV ?mulVr.
Qed.

Lemma same_decides m1 m2 u v : gives p rep m1 u -> gives p rep m2 v ->
  decides p (same D m1 m2) (u = v).
Proof.
move=> h1 h2; apply: decides_iff (answers_decides (same_ok hD h1 h2)) _.
by split=> /eqP.
Qed.

Lemma idom_laws_ok : idom_laws p mm D S O C I.
Proof.
split.
- move=> x y /mmP[a xa] /mmP[b yb].
  apply: (@agree_ok _ _ _ (a * b == 0)); last exact: mulf_eq0.
    by apply: ensures_bind (mul_ok hS xa yb) _ => z zc; exact: (is_zero_ok hC zc).
  exact: either_ok (is_zero_ok hC xa) (is_zero_ok hC yb).
- move=> x y /mmP[a xa] /mmP[b yb] /(is_zero_value yb) /negbT b0.
  apply: ensures_bind (try_div_ok hI xa yb b0) _ => -[q [c qc aE]|_]; last exact: ensures_ret.
  apply: both_holds; first exact: (contains_ok hD qc).
  by apply: (same_eq hD) (mul_ok hS qc yb) (gret _ xa) (esym aE).
- move=> x y q /mmP[a xa] /mmP[b yb] /mmP[c qc] /(is_zero_value yb) /negbT b0.
  apply: ensures_bind (try_div_ok hI xa yb b0) _ => -[_ _|hn]; first exact: ensures_ret.
  apply: no_decides (same_decides (mul_ok hS qc yb) (gret _ xa)) _ => aE.
  by apply: hn; exists c.
- move=> x y /mmP[a xa] /mmP[b yb] /(is_zero_value yb) /eqP b0.
  by rewrite b0 in yb; exact: (try_div_zero hI xa yb).
- move=> x y /mmP[a xa] /mmP[b yb].
  apply: agree_decides (associates_ok hI xa yb)
    (both_decides (divisible_ok hI xa yb) (divisible_ok hI yb xa)) _.
  by split=> -[].
- move=> x /mmP[a xa] /(is_zero_value xa) /negbT a0.
  apply: (same_eq hD) (associate_repr_ok hI xa) _ (arep_neq0 _ a0).
  by apply: gbind (associate_coef_ok hI xa a0) _ => c cu; exact: (mul_ok hS cu xa).
- move=> x /mmP[a xa] /(is_zero_value xa) /negbT a0.
  apply: ensures_bind (associate_coef_ok hI xa a0) _ => c cu.
  apply: both_holds; first exact: (contains_ok hD cu).
  apply: yes_decides (invertible_ok hO cu) _.
  by apply/unit_inverse; exact: acoef_unit.
- move=> x y /mmP[a xa] /mmP[b yb].
  apply: agree_decides (associates_ok hI xa yb)
    (same_decides (associate_repr_ok hI xa) (associate_repr_ok hI yb)) _.
  split=> [[ab ba]|ab]; first exact: arep_assoc.
  split; first by apply: dvds_trans (arep_dvd AS a) _; rewrite ab; exact: dvd_arep.
  by apply: dvds_trans (arep_dvd AS b) _; rewrite -ab; exact: dvd_arep.
Qed.

Section Eucl.
Variables (T : eucl_struct R) (A : EuclideanDomain E).
Hypothesis hE : eucl_spec p rep T A.

Lemma gcd_lcm_mul (a b d m : R) : is_gcd a b d -> is_lcm a b m ->
  dvds (d * m) (a * b) /\ dvds (a * b) (d * m).
Proof.
move=> hd hm; have [d0|d0] := eqVneq d 0.
  move: hd hm; rewrite d0 mul0r => -[/dvd0s -> /dvd0s -> _] _.
  by rewrite mul0r; split; exact: dvds0.
have hl := lcm_of_gcd T d0 hd; have [da _ _] := hd.
set l := _ * b in hl.
have lE : d * l = a * b by rewrite /l mulrA (mulrC d) -(equo_dvd T d0 da).
have [ml1 ml2 ml3] := hm; have [l1 l2 l3] := hl.
rewrite -lE; split; [have [c ->] := ml3 _ l1 l2|have [c ->] := l3 _ ml1 ml2].
  by exists c; rewrite mulrCA.
by exists c; rewrite mulrCA.
Qed.

Lemma eucl_laws_ok : eucl_laws p mm D S O C I A.
Proof.
split.
- move=> x y /mmP[a xa] /mmP[b yb] /(is_zero_value yb) /negbT b0.
  apply: ensures_bind (quo_rem_ok hE xa yb b0) _ => z [zq zr].
  apply: both_holds.
    by apply: both_holds; [exact: (contains_ok hD zq)|exact: (contains_ok hD zr)].
  apply: both_holds.
    apply: (same_eq hD) (gret _ xa) (esym (e_div T a b0)).
    by apply: gbind (mul_ok hS zq yb) _ => c cu; exact: (add_ok hC cu zr).
  by apply: yes (reduced_ok hE zr yb) _; rewrite erem_idem // eqxx orbT.
- move=> x y r q /mmP[a xa] /mmP[b yb] /mmP[c rc] /mmP[d qd] /(is_zero_value yb) /negbT b0.
  apply: entails_decides.
  + apply: both_decides (answers_decides (reduced_ok hE rc yb)) _.
    apply: (@same_decides _ _ (d * b + c)) (gret _ xa).
    by apply: gbind (mul_ok hS qd yb) _ => z zu; exact: (add_ok hC zu rc).
  + exact: same_decides (rem_ok hE xa yb b0) (gret _ rc).
  rewrite (negbTE b0) /= => -[/eqP h1 <-].
  by rewrite addrC e_canon.
- move=> x y /mmP[a xa] /mmP[b yb] /(is_zero_value yb) /negbT b0.
  apply: (same_eq hD) (quo_ok hE xa yb b0) _ erefl.
  by apply: ensures_bind (quo_rem_ok hE xa yb b0) _ => z [zq zr]; exact: gret.
- move=> x y /mmP[a xa] /mmP[b yb] /(is_zero_value yb) /negbT b0.
  apply: (same_eq hD) (rem_ok hE xa yb b0) _ erefl.
  by apply: ensures_bind (quo_rem_ok hE xa yb b0) _ => z [zq zr]; exact: gret.
- move=> x y /mmP[a xa] /mmP[b yb] /(is_zero_value yb) /eqP b0; rewrite b0 in yb.
  by split; [exact: (quo_rem_zero hE xa yb)|exact: (quo_zero hE xa yb)|exact: (rem_zero hE xa yb)].
- move=> x y /mmP[a xa] /mmP[b yb].
  apply: ensures_bind (gcd_ok hE xa yb) _ => g [d gd [da db _]].
  apply: both_holds; first exact: (contains_ok hD gd).
  by apply: both_holds; [apply: yes_decides (divisible_ok hI xa gd) _|apply: yes_decides (divisible_ok hI yb gd) _].
- move=> x y c /mmP[a xa] /mmP[b yb] /mmP[e ce].
  apply: (@entails_decides _ _ _ (dvds e a /\ dvds e b) (dvds e a /\ dvds e b)) => //.
    exact: both_decides (divisible_ok hI xa ce) (divisible_ok hI yb ce).
  apply: ensures_bind (gcd_ok hE xa yb) _ => g [d gd [da db dm]].
  apply: decides_iff (divisible_ok hI gd ce) _.
  split=> [h|[h1 h2]]; last exact: dm.
  by split; apply: dvds_trans h _.
- move=> x y /mmP[a xa] /mmP[b yb].
  apply: ensures_bind (extended_gcd_ok hE xa yb) _ => z [d [s [t [[zd zs zt] [dE hd]]]]].
  apply: ensures_bind (gcd_ok hE xa yb) _ => g [d' gd hd'].
  apply: both_holds.
    apply: yes_decides (associates_ok hI zd gd) _.
    have [d1 d2 d3] := hd; have [e1 e2 e3] := hd'.
    by split; [exact: e3|exact: d3].
  apply: (same_eq hD) (gret _ zd) _ dE.
  apply: gbind (mul_ok hS zs xa) _ => u ua.
  by apply: gbind (mul_ok hS zt yb) _ => v vb; exact: (add_ok hC ua vb).
- move=> x y /mmP[a xa] /mmP[b yb].
  apply: ensures_bind (lcm_ok hE xa yb) _ => g [d gd [da db _]].
  apply: both_holds; first exact: (contains_ok hD gd).
  by apply: both_holds; [apply: yes_decides (divisible_ok hI gd xa) _|apply: yes_decides (divisible_ok hI gd yb) _].
- move=> x y c /mmP[a xa] /mmP[b yb] /mmP[e ce].
  apply: (@entails_decides _ _ _ (dvds a e /\ dvds b e) (dvds a e /\ dvds b e)) => //.
    exact: both_decides (divisible_ok hI ce xa) (divisible_ok hI ce yb).
  apply: ensures_bind (lcm_ok hE xa yb) _ => g [d gd [da db dm]].
  apply: decides_iff (divisible_ok hI ce gd) _.
  split=> [h|[h1 h2]]; last exact: dm.
  by split; [apply: dvds_trans da h|apply: dvds_trans db h].
- move=> x y /mmP[a xa] /mmP[b yb].
  apply: ensures_bind (gcd_ok hE xa yb) _ => g [d gd hd].
  apply: ensures_bind (lcm_ok hE xa yb) _ => l [m lm hm].
  apply: ensures_bind (mul_ok hS gd lm) _ => u ud.
  apply: ensures_bind (mul_ok hS xa yb) _ => v vd.
  exact: yes_decides (associates_ok hI ud vd) (gcd_lcm_mul hd hm).
- move=> x y /mmP[a xa] /mmP[b yb].
  apply: (@agree_decides _ _ _ (coprime_to a b) (coprime_to a b)) => //.
    exact: (relative_primes_ok hE xa yb).
  apply: ensures_bind (gcd_ok hE xa yb) _ => g [d gd hd].
  apply: decides_iff (invertible_ok hO gd) _.
  rewrite -(gcd_coprime T hd); split=> -[v]; first by case=> h _; exists v.
  by move=> h; exists v; rewrite /inverse_of (mulrC v).
Qed.
End Eucl.
End IDom.

Lemma field_laws_ok (F : fieldType) (rep : E -> F -> Prop) (mm : E -> Prop) (D : Domain E) S O C (A : Field E) :
  (forall x, mm x -> exists u, rep x u) ->
  domain_spec p rep D -> semigroup_spec p rep *%R S -> monoid_spec p rep *%R 1 O ->
  cmonoid_spec p rep +%R 0 C -> field_spec cfg p rep A ->
  field_laws p mm D S O C A.
Proof.
move=> mmP hD hS hO hC hF; split.
- apply: ensures_bind (one_ok hO) _ => o o1.
  by apply: yes (notM_ok (is_zero_ok hC o1)) _; rewrite oner_neq0.
- move=> x /mmP[a xa] /(is_zero_value hC xa) /negbT a0.
  apply: ensures_bind (finv_ok hF xa a0) _ => y ya.
  apply: both_holds; first exact: (contains_ok hD ya).
  by apply: (same_eq hD) (mul_ok hS xa ya) (one_ok hO) _; rewrite mulfV.
- move=> x /mmP[a xa] /(is_zero_value hC xa) /eqP a0; rewrite a0 in xa.
  exact: (finv_zero hF xa).
- move=> x y /mmP[a xa] /mmP[b yb] /(is_zero_value hC yb) /negbT b0.
  apply: ensures_bind (fdiv_ok hF xa yb b0) _ => q qc.
  apply: both_holds; first exact: (contains_ok hD qc).
  by apply: (same_eq hD) (mul_ok hS qc yb) (gret _ xa) _; rewrite divfK.
- move=> x y /mmP[a xa] /mmP[b yb] /(is_zero_value hC yb) /eqP b0; rewrite b0 in yb.
  exact: (fdiv_zero hF xa yb).
Qed.

(** ** Bundles *)
Lemma small_isize : Z.le (Zpos (xO xH)) (ptr_bits cfg) ->
  forall n, Z.le (Zneg xH) n -> Z.le n (Zpos xH) -> good_isize cfg n.
Proof.
move=> hcfg n n1 n2; have [h1 h2] := imin_imax hcfg; split; last by lia.
by apply/in_iP; lia.
Qed.

Lemma monoid_alg_laws_ok (V : eqType) (rep : E -> V -> Prop) (mm : E -> Prop) op e (A : MonoidAlg E) :
  (forall x, mm x -> exists u, rep x u) ->
  associative op -> left_id e op -> right_id e op ->
  monoid_alg_spec p rep op e A -> monoid_alg_laws p mm A.
Proof.
move=> mmP opA op1x opx1 [hD hS hO]; split.
- exact: (domain_laws_ok mmP hD).
- exact: (semigroup_laws_ok mmP hD opA hS).
- exact: (monoid_laws_ok mmP hD hS op1x opx1 hO).
Qed.

Section Cfg.
Hypothesis hcfg : Z.le (Zpos (xO xH)) (ptr_bits cfg).

Lemma group_alg_laws_ok (V : eqType) (rep : E -> V -> Prop) (mm : E -> Prop) op e inv (A : GroupAlg E) :
  (forall x, mm x -> exists u, rep x u) ->
  associative op -> left_id e op -> right_id e op ->
  (forall x u, rep x u -> inverse_of op e u (inv u)) ->
  group_alg_spec cfg p rep op e inv A -> group_alg_laws p mm cfg A.
Proof.
move=> mmP opA op1x opx1 hV [hM hG]; split; first exact: (monoid_alg_laws_ok mmP opA op1x opx1 hM).
case: hM => hD hS hO.
exact: (group_laws_ok mmP hD opA hS op1x opx1 hO hV (small_isize hcfg) hG).
Qed.

Lemma abelian_alg_laws_ok (V : zmodType) (rep : E -> V -> Prop) (mm : E -> Prop) (A : AbelianAlg E) :
  (forall x, mm x -> exists u, rep x u) ->
  abelian_alg_spec cfg p rep A -> abelian_alg_laws p mm cfg A.
Proof.
move=> mmP [hD hC hA]; split; first exact: (domain_laws_ok mmP hD).
- exact: (cmonoid_laws_ok mmP hD (@addrA V) (@addrC V) (@add0r V) hC).
- exact: (abelian_laws_ok mmP hD hC (small_isize hcfg) hA).
Qed.

Lemma ring_alg_laws_ok (V : zmodType) (rep : E -> V -> Prop) (mm : E -> Prop) op e (A : RingAlg E) :
  (forall x, mm x -> exists u, rep x u) ->
  associative op -> left_id e op -> right_id e op ->
  (forall a b c : V, op a (b + c) = op a b + op a c) ->
  (forall a b c : V, op (a + b) c = op a c + op b c) ->
  ring_alg_spec cfg p rep op e A -> ring_alg_laws p mm cfg A.
Proof.
move=> mmP opA op1x opx1 hl hr [hM hC hA hU]; split.
- exact: (monoid_alg_laws_ok mmP opA op1x opx1 hM).
- exact: (cmonoid_laws_ok mmP (mo_dom_ok hM) (@addrA V) (@addrC V) (@add0r V) hC).
- exact: (abelian_laws_ok mmP (mo_dom_ok hM) hC (small_isize hcfg) hA).
- exact: (distributive_laws_ok mmP (mo_dom_ok hM) hC hl hr (mo_sg_ok hM)).
Qed.

Lemma idom_alg_laws_ok (R : idomainType) (rep : E -> R -> Prop) (mm : E -> Prop) S (A : IDomAlg E) :
  (forall x, mm x -> exists u, rep x u) ->
  idom_alg_spec cfg p rep S A -> idom_alg_laws p mm cfg A.
Proof.
move=> mmP [hR hI]; split.
- apply: ring_alg_laws_ok mmP _ _ _ _ _ hR; [exact: mulrA|exact: mul1r|exact: mulr1|exact: mulrDr|exact: mulrDl].
- exact: (mul_commutes_ok mmP (mo_dom_ok (ri_mon_ok hR)) (mo_sg_ok (ri_mon_ok hR)) (@mulrC R)).
- case: hR => [[hD hS hO] hC _ _]; exact: (idom_laws_ok mmP hD hS hO hC hI).
Qed.

Lemma eucl_alg_laws_ok (R : idomainType) (rep : E -> R -> Prop) (mm : E -> Prop) S T (A : EuclAlg E) :
  (forall x, mm x -> exists u, rep x u) ->
  eucl_alg_spec cfg p rep S T A -> eucl_alg_laws p mm cfg A.
Proof.
move=> mmP [hI hE]; split; first exact: (idom_alg_laws_ok mmP hI).
case: hI => [[[hD hS hO] hC _ _] hI]; exact: (eucl_laws_ok mmP hD hS hO hC hI hE).
Qed.

Lemma field_alg_laws_ok (F : fieldType) (rep : E -> F -> Prop) (mm : E -> Prop) (A : FieldAlg E) :
  (forall x, mm x -> exists u, rep x u) ->
  field_alg_spec cfg p rep A -> field_alg_laws p mm cfg A.
Proof.
move=> mmP [hE hF]; split; first exact: (eucl_alg_laws_ok mmP hE).
case: hE => [[[[hD hS hO] hC _ _] hI] _]; exact: (field_laws_ok mmP hD hS hO hC hF).
Qed.
End Cfg.

Lemma semiring_alg_laws_ok (V : eqType) (rep : E -> V -> Prop) (mm : E -> Prop) op e plus zro (A : SemiRingAlg E) :
  (forall x, mm x -> exists u, rep x u) ->
  associative op -> left_id e op -> right_id e op ->
  associative plus -> commutative plus -> left_id zro plus ->
  left_distributive op plus -> right_distributive op plus ->
  left_zero zro op -> right_zero zro op ->
  semiring_alg_spec p rep op e plus zro A -> semiring_alg_laws p mm A.
Proof.
move=> mmP opA op1x opx1 pA pC p0 dl dr z1 z2 [hM hC]; split.
- exact: (monoid_alg_laws_ok mmP opA op1x opx1 hM).
- exact: (cmonoid_laws_ok mmP (mo_dom_ok hM) pA pC p0 hC).
case: hM => hD hS hO; split.
- move=> x y z /mmP[u xu] /mmP[v yv] /mmP[w zw]; apply: (same_eq hD) (dr u v w).
    by apply: gbind (add_ok hC yv zw) _ => a au; exact: (mul_ok hS xu au).
  apply: gbind (mul_ok hS xu yv) _ => a au.
  by apply: gbind (mul_ok hS xu zw) _ => b bu; exact: (add_ok hC au bu).
- move=> x y z /mmP[u xu] /mmP[v yv] /mmP[w zw]; apply: (same_eq hD) (dl u v w).
    by apply: gbind (add_ok hC xu yv) _ => a au; exact: (mul_ok hS au zw).
  apply: gbind (mul_ok hS xu zw) _ => a au.
  by apply: gbind (mul_ok hS yv zw) _ => b bu; exact: (add_ok hC au bu).
- move=> x /mmP[u xu]; apply: (same_eq hD) (zero_ok hC) (z2 u).
  by apply: gbind (zero_ok hC) _ => z z0; exact: (mul_ok hS xu z0).
- move=> x /mmP[u xu]; apply: (same_eq hD) (zero_ok hC) (z1 u).
  by apply: gbind (zero_ok hC) _ => z z0; exact: (mul_ok hS z0 xu).
Qed.

(** ** Orders *)
Lemma order_alg_laws_ok (V : eqType) (rep : E -> V -> Prop) (mm : E -> Prop) (le : rel V) (A : OrderAlg E) :
  (forall x, mm x -> exists u, rep x u) ->
  order_alg_spec p rep le A -> order_alg_laws p mm A.
Proof.
move=> mmP [hD hR hL]; split; first exact: (domain_laws_ok mmP hD).
exact: (order_api_laws_ok mmP hD hL hR).
Qed.
Lemma lattice_alg_laws_ok (V : eqType) (rep : E -> V -> Prop) (mm : E -> Prop) (le : rel V) (A : LatticeAlg E) :
  (forall x, mm x -> exists u, rep x u) ->
  lattice_alg_spec p rep le A -> lattice_alg_laws p mm A.
Proof.
move=> mmP [hO hLa]; split; first exact: (order_alg_laws_ok mmP hO).
case: hO => hD hR hL; exact: (lattice_laws_ok mmP hD hL hR hLa).
Qed.
Lemma lattice_alg_distr (V : eqType) (rep : E -> V -> Prop) (mm : E -> Prop) (le : rel V) (A : LatticeAlg E) :
  (forall x, mm x -> exists u, rep x u) ->
  distributive_order le ->
  lattice_alg_spec p rep le A -> lattice_distributes p mm A A.
Proof.
by move=> mmP hd [[hD hR hL] hLa]; exact: (lattice_distributes_ok mmP hD hL hLa hd).
Qed.
Lemma bounded_alg_laws_ok (V : eqType) (rep : E -> V -> Prop) (mm : E -> Prop) (le : rel V) top bot
    (A : BoundedAlg E) :
  (forall x, mm x -> exists u, rep x u) ->
  bounded_alg_spec p rep le top bot A -> bounded_alg_laws p mm A.
Proof.
move=> mmP [hO hB]; split; first exact: (order_alg_laws_ok mmP hO).
case: hO => hD hR hL; exact: (bounded_laws_ok mmP hD hR hB).
Qed.
Lemma boolean_alg_laws_ok (V : eqType) (rep : E -> V -> Prop) (mm : E -> Prop) (le : rel V) top bot
    (A : BooleanAlg E) :
  (forall x, mm x -> exists u, rep x u) ->
  distributive_order le ->
  (forall x u y v z w, rep x u -> rep y v -> rep z w ->
     is_compl le top bot u v -> is_compl le top bot v w -> w = u) ->
  boolean_alg_spec p rep le top bot A -> boolean_alg_laws p mm A.
Proof.
move=> mmP hd hu [hLa hB hN]; split.
- exact: (lattice_alg_laws_ok mmP hLa).
- case: hLa => [[hD hR hL] hLa]; exact: (bounded_laws_ok mmP hD hR hB).
- case: hLa => [[hD hR hL] hLa]; exact: (boolean_laws_ok mmP hD hL hLa hB hu hN).
- case: hLa => [[hD hR hL] hLa]; exact: (lattice_distributes_ok mmP hD hL hLa hd).
Qed.
End Ring.
