(** * PChin.v -- the Chinese remainder theorem. *)

From Coq Require Import ZArith Lia.
From mathcomp Require Import all_ssreflect all_algebra zify ssrZ.
From Verif Require Import Rust Traits MInts MConstr RingTac Wp Spec PropSpec ArgSpec Quotient PDefaults.
From Verif Require Import ZFacts PIntsZ PInts PNum POrders PQuot PQuotProps PModProps PArgs Laws PLaws GcdLaw PGcdLaw ChinLaw.

Set Implicit Arguments.
Unset Strict Implicit.
Unset Printing Implicit Defensive.

Import GRing.Theory.
Local Open Scope ring_scope.

Section Chinese.
Variables (cfg : Cfg) (p : Prop) (E : Type) (R : idomainType) (rep : E -> R -> Prop).
Variables (AS : assoc_struct R) (S : eucl_struct R) (A : EuclAlg E).
Hypothesis hA : eucl_alg_spec cfg p rep AS S A.
Let hR := id_ring_ok (eu_idom_ok hA).
Let hE := eu_eu_ok hA.
Let hD := mo_dom_ok (ri_mon_ok hR).
Let mm x := exists a : R, rep x a.

Lemma erem_congr (m a b : R) : m != 0 -> erem S a m = erem S b m <-> dvds m (a - b).
Proof.
move=> m0; split=> [h|[c h]].
  exists (equo S a m - equo S b m).
  by rewrite [in LHS](e_div S a m0) [X in _ - X](e_div S b m0) h; cring.
by rewrite -(subrK b a) h addrC e_canon.
Qed.
Lemma same_residue_ok m mo x a y b : m != 0 -> rep mo m -> rep x a -> rep y b ->
  decides p (same_residue A mo x y) (dvds m (a - b)).
Proof.
move=> m0 hm xa yb.
apply: ensures_mono (same_ok hD (rem_ok hE xa hm m0) (rem_ok hE yb hm m0)) _ => r ->.
by split=> [/eqP|] /(erem_congr _ _ m0) // h; apply/eqP.
Qed.

Variables (m n : R) (mo no mno : E).
Hypotheses (hm : rep mo m) (hn : rep no n).
Hypotheses (m0 : m != 0) (mu : m \isn't a GRing.unit).
Hypotheses (n0 : n != 0) (nu : n \isn't a GRing.unit).
Hypothesis hmn : returns (mul A mo no) mno.

Lemma rep_mn : rep mno (m * n).
Proof. exact: ensures_value (mul_ok (mo_sg_ok (ri_mon_ok hR)) hm hn) hmn. Qed.
Lemma mn0 : m * n != 0.
Proof. by rewrite mulf_neq0. Qed.
Lemma mnu : m * n \isn't a GRing.unit.
Proof. by rewrite unitrM (negbTE mu). Qed.

Lemma has_inverseE (k a : R) : has_inverse k a <-> coprime_to a k.
Proof.
split=> [[b [c h]]|[s [t h]]].
  by exists b, c; rewrite -h; cring.
by exists s, t; rewrite -h; cring.
Qed.

Lemma chinese_units_ok : chinese_units cfg A p mm mo no mno.
Proof.
move=> x [a xa].
have [_ /(_ x a xa)[_ h]] := quotient_ring_any hA mn0 mnu rep_mn.
have [_ /(_ x a xa)[_ h1]] := quotient_ring_any hA m0 mu hm.
have [_ /(_ x a xa)[_ h2]] := quotient_ring_any hA n0 nu hn.
apply: (agree_iff h (both_decides h1 h2)); rewrite !has_inverseE; split.
  by move/coprimeC/coprime_mul => [/coprimeC ? /coprimeC ?].
by case=> /coprimeC u1 /coprimeC u2; apply/coprimeC/coprime_mul.
Qed.

Lemma chinese_lcm_ok : chinese_lcm A p mo no mno.
Proof.
apply: (agree_iff (Q := coprime_to m n) (relative_primes_ok hE hm hn) _ (iff_refl _)).
apply: ensures_bind (lcm_ok hE hm hn) _ => l [L lL [l1 l2 l3]].
apply: ensures_mono (divisible_ok (id_id_ok (eu_idom_ok hA)) lL rep_mn) _ => b hb.
rewrite hb; split=> [h|h]; last exact: coprime_dvd.
have [d [s [t [dE [[u du] [v dv] _]]]]] := bezout S m n.
have d0 : d != 0 by apply: contra_neq m0 => d0; rewrite du d0 mulr0.
have /l3 hl : dvds m (u * n) by exists v; rewrite du dv; cring.
have /hl {}hl : dvds n (u * n) by exists u.
have [c hc] := dvds_trans h hl.
have e : 1 = c * d.
  apply: (@mulfI _ (u * n)).
    by apply: contra_neq mn0 => e; rewrite du mulrAC e mul0r.
  by rewrite mulr1 {1}hc du; cring.
by exists (c * s), (c * t); rewrite e dE; cring.
Qed.

Hypothesis hco : returns (relative_primes A mo no) true.
Let co : coprime_to m n.
Proof. by have := ensures_value (relative_primes_ok hE hm hn) hco => -[h _]; exact: h. Qed.

Lemma chinese_ok x a y b : rep x a -> rep y b -> ensures p (chinese cfg A mo no x y)
  (fun z => exists k c, [/\ rep z c, c = a + k * m, erem S k n = k & dvds n (c - b)]).
Proof.
move=> xa yb; have [hq /(_ mo m hm)[hi _]] := quotient_ring_any hA n0 nu hn.
apply: ensures_bind hi _ => -[i [i' ii hii]|no'] /=; last first.
  by case: no'; apply/has_inverseE.
have [[_ hs _] _] := hq y b x a yb xa.
apply: ensures_bind hs _ => d [d' [dd _] hd].
have [ri _] := ii; have [[_ _ hmul] _] := hq d d' i i' dd ri.
apply: ensures_bind hmul _ => k [k' [kk kr] hk].
apply: ensures_bind (mul_ok (mo_sg_ok (ri_mon_ok hR)) kk hm) _ => c cc.
apply: ensures_mono (add_ok (ri_cm_ok hR) xa cc) _ => z zz.
exists k', (a + k' * m); split=> //.
case: hii => e1 h1; case: hd => e2 h2; case: hk => e3 h3.
have -> : a + k' * m - b = (d' - (b - a)) + (m * i' - 1) * d' - (d' * i' - k') * m by cring.
rewrite h3 -(opprB _ d') h2 -(opprB _ (m * i')) h1.
by exists (- e2 - e1 * d' - e3 * m); cring.
Qed.

Lemma chinese_laws_ok : chinese_laws cfg A p mm mo no mno.
Proof.
split.
- move=> x y [a xa] [b yb]; apply: ensures_bind (chinese_ok xa yb) _ => z [k [c [zc cE _ _]]].
  apply: ensures_mono (same_residue_ok m0 hm zc xa) _ => r hr; apply/hr.
  by exists k; rewrite cE; cring.
- move=> x y [a xa] [b yb]; apply: ensures_bind (chinese_ok xa yb) _ => z [k [c [zc cE _ h]]].
  by apply: ensures_mono (same_residue_ok n0 hn zc yb) _ => r hr; apply/hr.
move=> x y [a xa] [b yb].
apply: (agree_iff (both_decides (same_residue_ok m0 hm xa yb) (same_residue_ok n0 hn xa yb))
         (same_residue_ok mn0 rep_mn xa yb)); split.
  by case=> h1 h2; exact: coprime_dvd.
by case=> k h; split; [exists (k * n)|exists (k * m)]; rewrite h; cring.
Qed.
End Chinese.
