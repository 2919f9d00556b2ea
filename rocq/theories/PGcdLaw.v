(** * PGcdLaw.v -- the contracts imply the laws of GcdLaw.v. *)

From Coq Require Import ZArith.
From mathcomp Require Import all_ssreflect all_algebra zify.
From Verif Require Import Rust Traits RingTac Wp Spec PropSpec PDefaults PEucl PIntsZ PGroups PDiv PDistr Laws PLaws PLaws2 GcdLaw.

Set Implicit Arguments.
Unset Strict Implicit.
Unset Printing Implicit Defensive.

Import GRing.Theory.
Local Open Scope ring_scope.

(** ** Divisibility in an integral domain *)
Section Math.
Variable R : idomainType.
Implicit Types a b c d : R.
Definition like a b : Prop := dvds a b /\ dvds b a.

Lemma like_refl a : like a a.
Proof. by split; exact: dvds_refl. Qed.
Lemma like_sym a b : like a b -> like b a.
Proof. by case. Qed.
Lemma like_trans a b c : like a b -> like b c -> like a c.
Proof. by move=> [h1 h2] [h3 h4]; split; [exact: dvds_trans h1 h3|exact: dvds_trans h4 h2]. Qed.
Lemma like_divs a b : (forall d, dvds d a <-> dvds d b) -> like a b.
Proof. by move=> h; split; [apply/h|apply/(h b)]; exact: dvds_refl. Qed.
Lemma like_muls a b : (forall d, dvds a d <-> dvds b d) -> like a b.
Proof. by move=> h; split; [apply/(h b)|apply/h]; exact: dvds_refl. Qed.
Lemma gcd_divs a b d c : is_gcd a b d -> dvds c d <-> dvds c a /\ dvds c b.
Proof.
move=> [h1 h2 h3]; split=> [h|[]]; last exact: h3.
by split; exact: dvds_trans h _.
Qed.
Lemma lcm_muls a b d c : is_lcm a b d -> dvds d c <-> dvds a c /\ dvds b c.
Proof.
move=> [h1 h2 h3]; split=> [h|[]]; last exact: h3.
by split; apply: dvds_trans h.
Qed.
Lemma dvds_mul2 a b c : dvds a b -> dvds (c * a) (c * b).
Proof. by move=> [k ->]; exists k; rewrite mulrCA. Qed.
Lemma dvds_cancel a b c : c != 0 -> dvds (c * a) (c * b) -> dvds a b.
Proof. by move=> c0 [k /esym]; rewrite mulrCA => /(mulfI c0) h; exists k. Qed.
Lemma unit_dvd a : dvds a 1 <-> exists v, inverse_of *%R 1 a v.
Proof.
split=> [[c /esym h]|[c [_ h]]]; last by exists c.
by exists c; rewrite /inverse_of mulrC.
Qed.
Lemma coprime_gcd a b : coprime_to a b -> is_gcd a b 1.
Proof.
move=> [s [t h]]; split; [exact: dvd1s|exact: dvd1s|] => c ca cb.
by rewrite -h; apply: dvds_add; exact: dvds_mull.
Qed.
Lemma coprimeC a b : coprime_to a b -> coprime_to b a.
Proof. by move=> [s [t h]]; exists t, s; rewrite addrC. Qed.
Lemma coprime_mul a b c : coprime_to (a * b) c <-> coprime_to a c /\ coprime_to b c.
Proof.
split=> [[s [t h]]|[[s [t h]] [u [v k]]]].
  by split; [exists (s * b), t|exists (s * a), t]; rewrite -h -mulrA // (mulrC b).
exists (s * u), (s * a * v + t * u * b + t * v * c).
transitivity ((s * a + t * c) * (u * b + v * c)); last by rewrite h k mulr1.
by cring.
Qed.
Lemma gauss a b c : coprime_to a c -> dvds c (a * b) -> dvds c b.
Proof.
move=> [s [t h]] hc; have -> : b = s * (a * b) + (t * b) * c.
  by rewrite -[LHS]mul1r -h mulrDl mulrA (mulrAC t).
by apply: dvds_add; [exact: dvds_mull|exact: (dvds_mull _ (dvds_refl c))].
Qed.
Lemma coprime_dvd a b c : coprime_to a b -> dvds a c -> dvds b c -> dvds (a * b) c.
Proof.
move=> h [k ->]; rewrite mulrC => /(gauss h) [j ->].
by exists j; rewrite mulrCA.
Qed.
End Math.

Section Contracts.
Variables (cfg : Cfg) (p : Prop) (E : Type) (R : idomainType) (rep : E -> R -> Prop).
Variables (mm : E -> Prop).
Hypothesis mmP : forall x, mm x -> exists u, rep x u.

Lemma agree_iff m1 m2 (P Q : Prop) : decides p m1 P -> decides p m2 Q -> (P <-> Q) ->
  holds p (agree m1 m2).
Proof. exact: agree_decides. Qed.
Lemma agree_dec m1 m2 (P Q : Prop) : decides p m1 P -> decides p m2 Q ->
  decides p (agree m1 m2) (P <-> Q).
Proof.
move=> h1 h2; apply: ensures_bind h1 _ => a ha; apply: ensures_bind h2 _ => b hb.
apply: ensures_ret; rewrite -ha -hb; case: a b {ha hb} => -[] //=; split=> //.
- by move=> [/(_ isT)].
- by move=> [_ /(_ isT)].
Qed.
Lemma either_decides m1 m2 (P Q : Prop) : decides p m1 P -> decides p m2 Q ->
  decides p (either m1 m2) (P \/ Q).
Proof.
move=> h1 h2; apply: ensures_bind h1 _ => a ha; apply: ensures_bind h2 _ => b hb.
by apply: ensures_ret; rewrite -ha -hb; split=> /orP.
Qed.

Section IDom.
Variables (AS : assoc_struct R) (A : IDomAlg E).
Hypothesis hA : idom_alg_spec cfg p rep AS A.
Let hI := id_id_ok hA.
Let hR := id_ring_ok hA.
Let hM := mo_mo_ok (ri_mon_ok hR).
Let hS := mo_sg_ok (ri_mon_ok hR).
Let hD := mo_dom_ok (ri_mon_ok hR).
Let hC := ri_cm_ok hR.

Lemma divisible_bind m x a b : gives p rep m a -> rep x b ->
  decides p (let! z := m in divisible A z x) (dvds b a).
Proof. by move=> h xb; apply: ensures_bind h _ => z za; exact: (divisible_ok hI za xb). Qed.
Lemma divisible_by m x a b : gives p rep m a -> rep x b ->
  decides p (let! z := m in divisible A x z) (dvds a b).
Proof. by move=> h xb; apply: ensures_bind h _ => z za; exact: (divisible_ok hI xb za). Qed.
Lemma is_zero_dec x a : rep x a -> decides p (is_zero A x) (a = 0).
Proof. by move=> xa; apply: decides_iff (answers_decides (is_zero_ok hC xa)) _; split=> /eqP. Qed.
Lemma alike_decides m1 m2 a b : gives p rep m1 a -> gives p rep m2 b ->
  decides p (alike A m1 m2) (like a b).
Proof.
move=> h1 h2; apply: ensures_bind h1 _ => x xa; apply: ensures_bind h2 _ => y yb.
exact: (associates_ok hI xa yb).
Qed.

Lemma divisibility_laws_ok : divisibility_laws p mm A.
Proof.
split.
- by move=> x /mmP[a xa]; apply: yes_decides (divisible_ok hI xa xa) (dvds_refl a).
- move=> x y z /mmP[a xa] /mmP[b yb] /mmP[c zc].
  apply: entails_decides (both_decides (divisible_ok hI xa yb) (divisible_ok hI yb zc))
    (divisible_ok hI xa zc) _ => -[h1 h2]; exact: dvds_trans h2 h1.
- by move=> x /mmP[a xa]; apply: yes_decides (divisible_bind (zero_ok hC) xa) (dvds0 a).
- move=> x /mmP[a xa]; apply: agree_iff (divisible_by (zero_ok hC) xa) (is_zero_dec xa) _.
  by split=> [/dvd0s|->] //; exact: dvds0.
- by move=> x /mmP[a xa]; apply: yes_decides (divisible_by (one_ok hM) xa) (dvd1s a).
- move=> x /mmP[a xa].
  exact: agree_iff (divisible_bind (one_ok hM) xa) (invertible_ok hM xa) (unit_dvd a).
- move=> x y /mmP[a xa] /mmP[b yb]; apply: yes_decides (divisible_bind (mul_ok hS xa yb) xa) _.
  exact: dvds_mulr (dvds_refl a).
- move=> x y z /mmP[a xa] /mmP[b yb] /mmP[c zc].
  apply: entails_decides (both_decides (divisible_ok hI xa zc) (divisible_ok hI yb zc))
    (divisible_bind (add_ok hC xa yb) zc) _ => -[]; exact: dvds_add.
- move=> x y z /mmP[a xa] /mmP[b yb] /mmP[c zc].
  apply: entails_decides (both_decides (divisible_ok hI xa zc) (divisible_ok hI yb zc))
    (divisible_bind (sub_ok (ri_ab_ok hR) xa yb) zc) _ => -[]; exact: dvds_sub.
- move=> x y z /mmP[a xa] /mmP[b yb] /mmP[c zc] /(is_zero_value hC zc) /negbT c0.
  apply: (@agree_iff _ _ (dvds (b * c) (a * c))) (divisible_ok hI xa yb) _.
    apply: ensures_bind (mul_ok hS xa zc) _ => u uu.
    by apply: ensures_bind (mul_ok hS yb zc) _ => v vv; exact: (divisible_ok hI uu vv).
  by rewrite !(mulrC _ c); split; [exact: dvds_cancel|exact: dvds_mul2].
- move=> x y /mmP[a xa] /mmP[b yb] /(is_zero_value hC yb) /negbT b0.
  apply: (@agree_iff _ _ (dvds b a)) (divisible_ok hI xa yb) _ => //.
  apply: ensures_bind (try_div_ok hI xa yb b0) _ => -[q [c qc aE]|hn]; apply: ensures_ret.
    by split=> // _; exists c.
  by split.
- move=> x y z /mmP[a xa] /mmP[b yb] /mmP[c zc].
  apply: entails_decides (associates_ok hI xa yb)
    (agree_dec (divisible_ok hI zc xa) (divisible_ok hI zc yb)) _ => -[h1 h2].
  by split; exact: dvds_trans.
- by move=> x /mmP[a xa]; apply: yes_decides (associates_ok hI xa xa) (like_refl a).
- move=> x y /mmP[a xa] /mmP[b yb].
  by apply: agree_iff (associates_ok hI xa yb) (associates_ok hI yb xa) _; split=> -[].
- move=> x y z /mmP[a xa] /mmP[b yb] /mmP[c zc].
  apply: entails_decides (both_decides (associates_ok hI xa yb) (associates_ok hI yb zc))
    (associates_ok hI xa zc) _ => -[]; exact: like_trans.
- move=> x y u /mmP[a xa] /mmP[b yb] /mmP[c uc].
  apply: entails_decides (both_decides (invertible_ok hM uc)
    (same_decides hD (mul_ok hS uc xa) (gret p yb))) (associates_ok hI xa yb) _.
  move=> [[v [cv vc]] <-]; split; first exact: dvds_mull (dvds_refl a).
  by exists v; rewrite mulrA vc mul1r.
- move=> x /mmP[a xa]; apply: yes_decides (alike_decides (associate_repr_ok hI xa) (gret p xa)) _.
  by split; [exact: dvd_arep|exact: arep_dvd].
- move=> x /mmP[a xa]; apply: (same_eq hD) (associate_repr_ok hI xa) (arep_idem AS a).
  by apply: gbind (associate_repr_ok hI xa) _ => y ya; exact: (associate_repr_ok hI ya).
- move=> x u /mmP[a xa] /mmP[c uc].
  apply: entails_decides (invertible_ok hM uc)
    (same_decides hD (u := arep AS (c * a)) _ (associate_repr_ok hI xa)) _.
    by apply: gbind (mul_ok hS uc xa) _ => y ya; exact: (associate_repr_ok hI ya).
  by move=> /unit_inverse cu; exact: arep_unit.
Qed.
End IDom.

Section Eucl.
Variables (AS : assoc_struct R) (T : eucl_struct R) (A : EuclAlg E).
Hypothesis hA : eucl_alg_spec cfg p rep AS T A.
Let hE := eu_eu_ok hA.
Let hI := id_id_ok (eu_idom_ok hA).
Let hR := id_ring_ok (eu_idom_ok hA).
Let hM := mo_mo_ok (ri_mon_ok hR).
Let hS := mo_sg_ok (ri_mon_ok hR).
Let hD := mo_dom_ok (ri_mon_ok hR).
Let hC := ri_cm_ok hR.
Local Notation pays := (pays p rep).

Lemma alike_pays m1 m2 (P Q : R -> Prop) : pays m1 P -> pays m2 Q ->
  (forall u v, P u -> Q v -> like u v) -> holds p (alike A m1 m2).
Proof.
move=> h1 h2 h; apply: ensures_bind h1 _ => x [u xu Pu].
apply: ensures_bind h2 _ => y [v yv Qv].
exact: yes_decides (associates_ok hI xu yv) (h _ _ Pu Qv).
Qed.
Lemma pays_gcd x a y b : rep x a -> rep y b -> pays (gcd A x y) (is_gcd a b).
Proof. by move=> xa yb; exact: (gcd_ok hE xa yb). Qed.
Lemma pays_lcm x a y b : rep x a -> rep y b -> pays (lcm A x y) (is_lcm a b).
Proof. by move=> xa yb; exact: (lcm_ok hE xa yb). Qed.
Lemma pays_eq x a : rep x a -> pays (ret x) (eq a).
Proof. by move=> xa; apply: ensures_ret; exists a. Qed.

Lemma pays_bindg m (f : E -> M E) u (Q : R -> Prop) : gives p rep m u ->
  (forall z, rep z u -> pays (f z) Q) -> pays (bind m f) Q.
Proof. by move=> h1 h2; apply: ensures_bind h1 _ => z zu; exact: h2. Qed.

Lemma gcd_laws_ok : gcd_laws p mm A.
Proof.
split.
- move=> x y /mmP[a xa] /mmP[b yb]; apply: alike_pays (pays_gcd xa yb) (pays_gcd yb xa) _ => u v h1 h2.
  by apply: like_divs => d; rewrite (gcd_divs _ h1) (gcd_divs _ h2); tauto.
- move=> x y z /mmP[a xa] /mmP[b yb] /mmP[c zc].
  apply: (@alike_pays _ _ (fun w => exists2 d, is_gcd a b d & is_gcd d c w)
    (fun w => exists2 d, is_gcd b c d & is_gcd a d w)).
  + apply: pays_bind (pays_gcd xa yb) _ => g d gd hd.
    by apply: pays_mono (pays_gcd gd zc) _ => w hw; exists d.
  + apply: pays_bind (pays_gcd yb zc) _ => g d gd hd.
    by apply: pays_mono (pays_gcd xa gd) _ => w hw; exists d.
  move=> u v [d h1 h2] [e h3 h4]; apply: like_divs => k.
  by rewrite (gcd_divs _ h2) (gcd_divs _ h4) (gcd_divs _ h1) (gcd_divs _ h3); tauto.
- move=> x /mmP[a xa]; apply: alike_pays (pays_gcd xa xa) (pays_eq xa) _ => u _ h <-.
  by apply: like_divs => d; rewrite (gcd_divs _ h); tauto.
- move=> x /mmP[a xa]; apply: (@alike_pays _ _ (is_gcd a 0)) (pays_eq xa) _.
    by apply: pays_bindg (zero_ok hC) _ => o o0; exact: pays_gcd.
  move=> u _ h <-; apply: like_divs => d; rewrite (gcd_divs _ h).
  by have := dvds0 d; tauto.
- move=> x /mmP[a xa]; apply: ensures_bind (one_ok hM) _ => o o1.
  apply: ensures_bind (gcd_ok hE xa o1) _ => g [d gd [_ h _]].
  by apply: yes_decides (invertible_ok hM gd) _; apply/unit_dvd.
- move=> x y z /mmP[a xa] /mmP[b yb] /mmP[c zc].
  apply: (@alike_pays _ _ (is_gcd (c * a) (c * b)) (fun w => exists2 d, is_gcd a b d & c * d = w)).
  + apply: pays_bindg (mul_ok hS zc xa) _ => u uu.
    by apply: pays_bindg (mul_ok hS zc yb) _ => v vv; exact: pays_gcd.
  + apply: pays_bind (pays_gcd xa yb) _ => g d gd hd.
    by apply: pays_mono (pays_gives (mul_ok hS zc gd)) _ => w <-; exists d.
  move=> u _ [h1 h2 h3] [d hd <-]; have [da db _] := hd; split; last first.
    by apply: h3; exact: dvds_mul2.
  have [s [t ->]] := gcd_bezout T hd.
  by rewrite mulrDr !(mulrCA c); apply: dvds_add; exact: dvds_mull.
- move=> x y q /mmP[a xa] /mmP[b yb] /mmP[c qc].
  apply: (@alike_pays _ _ (is_gcd (a + c * b) b)) (pays_gcd xa yb) _.
    apply: pays_bindg (mul_ok hS qc yb) _ => u uu.
    by apply: pays_bindg (add_ok hC xa uu) _ => v vv; exact: pays_gcd.
  move=> u v h1 h2; apply: like_divs => d; rewrite (gcd_divs _ h1) (gcd_divs _ h2).
  split=> -[h3 h4]; split=> //; last by apply: dvds_add => //; exact: dvds_mull.
  by rewrite -(addrK (c * b) a); apply: dvds_sub => //; exact: dvds_mull.
- move=> x y /mmP[a xa] /mmP[b yb] /(is_zero_value hC yb) /negbT b0.
  apply: (@alike_pays _ _ (is_gcd b (erem T a b))) (pays_gcd xa yb) _.
    by apply: pays_bindg (rem_ok hE xa yb b0) _ => u uu; exact: pays_gcd.
  move=> u v /(is_gcd_step (e_div T a b0)) h1 h2.
  by apply: like_divs => d; rewrite (gcd_divs _ h1) (gcd_divs _ h2).
- move=> x y /mmP[a xa] /mmP[b yb].
  apply: (@agree_iff _ _ (a = 0 /\ b = 0)) (both_decides (is_zero_dec (eu_idom_ok hA) xa)
    (is_zero_dec (eu_idom_ok hA) yb)) _ => //.
  apply: ensures_bind (gcd_ok hE xa yb) _ => g [d gd [h1 h2 h3]].
  apply: decides_iff (is_zero_dec (eu_idom_ok hA) gd) _; split=> [d0|[a0 b0]].
    by move: h1 h2; rewrite d0 => /dvd0s-> /dvd0s->.
  by apply: dvd0s; apply: h3; rewrite ?a0 ?b0; exact: dvds_refl.
- move=> x y /mmP[a xa] /mmP[b yb]; apply: alike_pays (pays_lcm xa yb) (pays_lcm yb xa) _ => u v h1 h2.
  by apply: like_muls => d; rewrite (lcm_muls _ h1) (lcm_muls _ h2); tauto.
- move=> x y z /mmP[a xa] /mmP[b yb] /mmP[c zc].
  apply: (@alike_pays _ _ (fun w => exists2 d, is_lcm a b d & is_lcm d c w)
    (fun w => exists2 d, is_lcm b c d & is_lcm a d w)).
  + apply: pays_bind (pays_lcm xa yb) _ => g d gd hd.
    by apply: pays_mono (pays_lcm gd zc) _ => w hw; exists d.
  + apply: pays_bind (pays_lcm yb zc) _ => g d gd hd.
    by apply: pays_mono (pays_lcm xa gd) _ => w hw; exists d.
  move=> u v [d h1 h2] [e h3 h4]; apply: like_muls => k.
  by rewrite (lcm_muls _ h2) (lcm_muls _ h4) (lcm_muls _ h1) (lcm_muls _ h3); tauto.
- move=> x /mmP[a xa]; apply: alike_pays (pays_lcm xa xa) (pays_eq xa) _ => u _ h <-.
  by apply: like_muls => d; rewrite (lcm_muls _ h); tauto.
- move=> x /mmP[a xa]; apply: (@alike_pays _ _ (is_lcm a 1)) (pays_eq xa) _.
    by apply: pays_bindg (one_ok hM) _ => o o0; exact: pays_lcm.
  move=> u _ h <-; apply: like_muls => d; rewrite (lcm_muls _ h).
  by have := dvd1s d; tauto.
- move=> x y z /mmP[a xa] /mmP[b yb] /mmP[c zc].
  apply: (@alike_pays _ _ (is_lcm (c * a) (c * b)) (fun w => exists2 d, is_lcm a b d & c * d = w)).
  + apply: pays_bindg (mul_ok hS zc xa) _ => u uu.
    by apply: pays_bindg (mul_ok hS zc yb) _ => v vv; exact: pays_lcm.
  + apply: pays_bind (pays_lcm xa yb) _ => g d gd hd.
    by apply: pays_mono (pays_gives (mul_ok hS zc gd)) _ => w <-; exists d.
  move=> u _ [h1 h2 h3] [d [h4 h5 h6] <-]; split; first by apply: h3; exact: dvds_mul2.
  have [c0|c0] := eqVneq c 0.
    by move: h1; rewrite c0 !mul0r => /dvd0s->; exact: dvds0.
  have [k uE] : dvds c u by apply: dvds_trans h1; exact: dvds_mulr (dvds_refl c).
  move: h1 h2; rewrite uE (mulrC k) => /(dvds_cancel c0) h1 /(dvds_cancel c0) h2.
  exact: dvds_mul2 (h6 _ h1 h2).
- move=> x y /mmP[a xa] /mmP[b yb].
  apply: (@agree_iff _ _ (a = 0 \/ b = 0)) (either_decides (is_zero_dec (eu_idom_ok hA) xa)
    (is_zero_dec (eu_idom_ok hA) yb)) _ => //.
  apply: ensures_bind (lcm_ok hE xa yb) _ => g [d gd [h1 h2 h3]].
  apply: decides_iff (is_zero_dec (eu_idom_ok hA) gd) _; split=> [d0|[a0|b0]].
  + have : dvds d (a * b) by apply: h3; [exact: dvds_mulr (dvds_refl a)|exact: dvds_mull (dvds_refl b)].
    by rewrite d0 => /dvd0s/eqP; rewrite mulf_eq0 => /orP[]/eqP; [left|right].
  + by apply: dvd0s; rewrite -a0.
  + by apply: dvd0s; rewrite -b0.
- move=> x y /mmP[a xa] /mmP[b yb].
  apply: (@alike_pays _ _ (fun w => exists2 d, is_lcm a b d & is_gcd a d w)) (pays_eq xa) _.
    apply: pays_bind (pays_lcm xa yb) _ => g d gd hd.
    by apply: pays_mono (pays_gcd xa gd) _ => w hw; exists d.
  move=> u _ [d [h1 _ _] [h2 _ h3]] <-; split=> //; apply: h3 => //; exact: dvds_refl.
- move=> x y /mmP[a xa] /mmP[b yb].
  apply: (@alike_pays _ _ (fun w => exists2 d, is_gcd a b d & is_lcm a d w)) (pays_eq xa) _.
    apply: pays_bind (pays_gcd xa yb) _ => g d gd hd.
    by apply: pays_mono (pays_lcm xa gd) _ => w hw; exists d.
  move=> u _ [d [h1 _ _] [h2 _ h3]] <-; split=> //; apply: h3 => //; exact: dvds_refl.
- move=> x y z /mmP[a xa] /mmP[b yb] /mmP[c zc].
  apply: (@alike_pays _ _ (fun w => exists2 d, is_lcm b c d & is_gcd a d w)
    (fun w => exists d e, [/\ is_gcd a b d, is_gcd a c e & is_lcm d e w])).
  + apply: pays_bind (pays_lcm yb zc) _ => g d gd hd.
    by apply: pays_mono (pays_gcd xa gd) _ => w hw; exists d.
  + apply: pays_bind (pays_gcd xa yb) _ => g d gd hd.
    apply: pays_bind (pays_gcd xa zc) _ => h e he hh.
    by apply: pays_mono (pays_lcm gd he) _ => w hw; exists d, e.
  move=> u v [l hl hu] [d [e [hd he hv]]]; split; first exact: (gcd_distr T hl hu hd he hv).
  have [d1 d2 _] := hd; have [e1 e2 _] := he; have [l1 l2 _] := hl; have [_ _ v3] := hv.
  have [_ _ u3] := hu.
  by apply: v3; apply: u3 => //; [exact: dvds_trans d2 l1|exact: dvds_trans e2 l2].
- move=> x y z /mmP[a xa] /mmP[b yb] /mmP[c zc].
  apply: (@alike_pays _ _ (fun w => exists2 d, is_gcd b c d & is_lcm a d w)
    (fun w => exists d e, [/\ is_lcm a b d, is_lcm a c e & is_gcd d e w])).
  + apply: pays_bind (pays_gcd yb zc) _ => g d gd hd.
    by apply: pays_mono (pays_lcm xa gd) _ => w hw; exists d.
  + apply: pays_bind (pays_lcm xa yb) _ => g d gd hd.
    apply: pays_bind (pays_lcm xa zc) _ => h e he hh.
    by apply: pays_mono (pays_gcd gd he) _ => w hw; exists d, e.
  move=> u v [l hl hu] [d [e [hd he hv]]]; split; last exact: (lcm_distr T hl hu hd he hv).
  have [d1 d2 _] := hd; have [e1 e2 _] := he; have [l1 l2 _] := hl; have [_ _ v3] := hv.
  have [_ _ u3] := hu.
  by apply: u3; apply: v3 => //; [exact: dvds_trans l1 d2|exact: dvds_trans l2 e2].
- move=> x y /mmP[a xa] /mmP[b yb]; split.
    apply: (@agree_iff _ _ (dvds b a) (dvds b a)) (divisible_ok hI xa yb) _ _ => //.
    apply: ensures_bind (gcd_ok hE xa yb) _ => g [d gd hd].
    apply: decides_iff (alike_decides (eu_idom_ok hA) (gret p gd) (gret p yb)) _.
    have [h1 h2 h3] := hd; split=> [[_ h]|h]; first exact: dvds_trans h h1.
    by split=> //; apply: h3 => //; exact: dvds_refl.
  apply: (@agree_iff _ _ (dvds b a) (dvds b a)) (divisible_ok hI xa yb) _ _ => //.
  apply: ensures_bind (lcm_ok hE xa yb) _ => g [d gd hd].
  apply: decides_iff (alike_decides (eu_idom_ok hA) (gret p gd) (gret p xa)) _.
  have [h1 h2 h3] := hd; split=> [[h _]|h]; first exact: dvds_trans h2 h.
  by split=> //; apply: h3 => //; exact: dvds_refl.
- move=> x y /mmP[a xa] /mmP[b yb].
  apply: agree_iff (relative_primes_ok hE xa yb) (relative_primes_ok hE yb xa) _.
  by split; exact: coprimeC.
- move=> x y z /mmP[a xa] /mmP[b yb] /mmP[c zc].
  apply: (@agree_iff _ _ (coprime_to (a * b) c)) (both_decides (relative_primes_ok hE xa zc)
    (relative_primes_ok hE yb zc)) (coprime_mul a b c).
  by apply: ensures_bind (mul_ok hS xa yb) _ => u uu; exact: (relative_primes_ok hE uu zc).
- move=> x y z /mmP[a xa] /mmP[b yb] /mmP[c zc].
  apply: entails_decides (both_decides (relative_primes_ok hE xa zc)
    (divisible_bind (eu_idom_ok hA) (mul_ok hS xa yb) zc)) (divisible_ok hI yb zc) _ => -[]; exact: gauss.
- move=> x y z /mmP[a xa] /mmP[b yb] /mmP[c zc].
  apply: entails_decides (both_decides (relative_primes_ok hE xa yb)
    (both_decides (divisible_ok hI zc xa) (divisible_ok hI zc yb)))
    (divisible_by (eu_idom_ok hA) (mul_ok hS xa yb) zc) _ => -[h1 [h2 h3]]; exact: coprime_dvd.
- move=> x y /mmP[a xa] /mmP[b yb].
  apply: ensures_bind (relative_primes_ok hE xa yb) _ => -[] hb; last first.
    apply: (@ensures_bind _ _ _ _ _ (fun _ => True)); last by move=> *; exact: ensures_ret.
    apply: ensures_bind (lcm_ok hE xa yb) _ => l [m lm _].
    apply: ensures_bind (mul_ok hS xa yb) _ => u uu.
    by apply: ensures_mono (associates_ok hI lm uu) _.
  have {hb} hc : coprime_to a b by apply/hb.
  apply: (@ensures_bind _ _ _ _ _ (fun r => r = true)); last by move=> _ ->; exact: ensures_ret.
  apply: alike_pays (pays_lcm xa yb) (pays_gives (mul_ok hS xa yb)) _ => u _ [h1 h2 h3] <-.
  split; first by apply: h3; [exact: dvds_mulr (dvds_refl a)|exact: dvds_mull (dvds_refl b)].
  exact: coprime_dvd.
- move=> x y /mmP[a xa] /mmP[b yb].
  apply: ensures_bind (gcd_ok hE xa yb) _ => g [d gd hd].
  apply: ensures_bind (is_zero_ok hC gd) _ => _ ->.
  have [d0|d0] := eqVneq d 0; first exact: ensures_ret.
  apply: ensures_bind (quo_ok hE xa gd d0) _ => u uu.
  apply: ensures_bind (quo_ok hE yb gd d0) _ => v vv.
  apply: yes_decides (relative_primes_ok hE uu vv) _.
  have [h1 h2 _] := hd; have [s [t dE]] := gcd_bezout T hd; exists s, t.
  apply: (mulIf d0); rewrite mul1r mulrDl -!mulrA.
  by rewrite -(equo_dvd T d0 h1) -(equo_dvd T d0 h2).
Qed.
End Eucl.
End Contracts.
