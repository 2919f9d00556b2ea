(** * PFrac.v -- ReducedFractions computes in the field of fractions. *)

From Coq Require Import ZArith Lia.
From mathcomp Require Import all_ssreflect all_algebra zify.
From Verif Require Import Rust Traits MInts MConstr RingTac Wp Spec PDefaults PEucl.

Set Implicit Arguments.
Unset Strict Implicit.
Unset Printing Implicit Defensive.

Import GRing.Theory.
Local Open Scope ring_scope.

(** [a / b] is in lowest terms with the canonical denominator. *)
Definition lowest (R : idomainType) (AS : assoc_struct R) (a b : R) : Prop :=
  [/\ b != 0, acoef AS b = 1 & coprime_to a b].

(** The pair [(n, d)] denotes the fraction [a / b]; [phi] embeds the base into its
    field of fractions. *)
Definition frac_rep (E : Type) (R : idomainType) (F : fieldType) (phi : R -> F)
    (AS : assoc_struct R) (rep : E -> R -> Prop) (x : E * E) (q : F) : Prop :=
  exists a b, [/\ rep x.1 a, rep x.2 b, lowest AS a b & q = phi a / phi b].

Section Lowest.
Variables (R : idomainType) (AS : assoc_struct R) (S : eucl_struct R).
Implicit Types a b c d u : R.

Lemma acoef_canon b : b != 0 -> acoef AS (acoef AS b * b) = 1.
Proof.
move=> b0; have uu := acoef_unit AS b0.
by apply: (mulIr uu); rewrite mul1r acoef_mul.
Qed.

Lemma coprime_unit a b u : u \is a GRing.unit -> coprime_to a b ->
  coprime_to (a * u) (b * u).
Proof.
move=> uu [s [t st]]; exists (s / u), (t / u); rewrite -[RHS]st.
by congr (_ + _); rewrite mulrACA mulVr // mulr1.
Qed.

Lemma coprimeC a b : coprime_to a b -> coprime_to b a.
Proof. by move=> [s [t st]]; exists t, s; rewrite addrC. Qed.

Lemma lowest_coef a b : b != 0 -> coprime_to a b ->
  lowest AS (a * acoef AS b) (b * acoef AS b).
Proof.
move=> b0 ab; have uu := acoef_unit AS b0; split.
- by rewrite mulf_neq0 //; apply: contraTneq uu => ->; rewrite unitr0.
- by rewrite mulrC acoef_canon.
- exact: coprime_unit.
Qed.

Lemma lowest1 : lowest AS 1 1.
Proof. by split; [exact: oner_neq0|exact: acoef1|exists 0, 1; cring]. Qed.
Lemma lowest0 : lowest AS 0 1.
Proof. by split; [exact: oner_neq0|exact: acoef1|exists 0, 1; cring]. Qed.
Lemma lowestN a b : lowest AS a b -> lowest AS (- a) b.
Proof. by move=> [h1 h2 [s [t st]]]; split=> //; exists (- s), t; rewrite mulrNN. Qed.

(** The representation in lowest terms is unique. *)
Lemma lowest_uniq a b c d : lowest AS a b -> lowest AS c d -> a * d = c * b ->
  a = c /\ b = d.
Proof.
move=> [b0 hb [s [t st]]] [d0 hd [s' [t' st']]] h.
have bd : b = d.
  apply: (@arep_anti _ AS).
  - by rewrite arep_neq0 // hb mul1r.
  - by rewrite arep_neq0 // hd mul1r.
  - exists (s * c + t * d); transitivity (s * (a * d) + t * b * d).
      by rewrite -[LHS]mul1r -st; cring.
    by rewrite h; cring.
  - exists (s' * a + t' * b); transitivity (s' * (c * b) + t' * d * b).
      by rewrite -[LHS]mul1r -st'; cring.
    by rewrite -h; cring.
by split=> //; apply: (mulIf d0); rewrite h bd.
Qed.

Lemma lowest_gcd a b g : b != 0 -> is_gcd a b g ->
  [/\ g != 0, a = equo S a g * g, b = equo S b g * g, equo S b g != 0 &
      coprime_to (equo S a g) (equo S b g)].
Proof.
move=> b0 gg; have [s [t gE]] := gcd_bezout S gg; case: gg => ga gb _.
have g0 : g != 0.
  by apply: contraNneq b0 => g0; move: gb; rewrite g0 => /dvd0s ->.
have aE := equo_dvd S g0 ga; have bE := equo_dvd S g0 gb; split=> //.
  by apply: contraNneq b0 => h; rewrite bE h mul0r.
exists s, t; apply: (mulIf g0); rewrite mul1r [RHS]gE [in RHS]aE [in RHS]bE; cring.
Qed.
End Lowest.

Section Fractions.
Variables (cfg : Cfg) (p : Prop) (E : Type) (R : idomainType) (rep : E -> R -> Prop).
Variables (AS : assoc_struct R) (S : eucl_struct R) (A : EuclAlg E).
Hypothesis hA : eucl_alg_spec cfg p rep AS S A.
Variables (F : fieldType) (phi : {rmorphism R -> F}).
Hypothesis phi_inj : injective phi.

Let hI := eu_idom_ok hA.
Let hR := id_ring_ok hI.
Let hD := mo_dom_ok (ri_mon_ok hR).
Let hS := mo_sg_ok (ri_mon_ok hR).
Let hM := mo_mo_ok (ri_mon_ok hR).
Let hC := ri_cm_ok hR.
Let hG := ri_ab_ok hR.
Let hi := id_id_ok hI.
Let hE := eu_eu_ok hA.
Local Notation frep := (frac_rep phi AS rep).

Lemma phi_eq0 a : (phi a == 0) = (a == 0).
Proof. by rewrite -(rmorph0 phi) (inj_eq phi_inj). Qed.

Lemma frac_eq a b c d : b != 0 -> d != 0 ->
  (phi a / phi b == phi c / phi d) = (a * d == c * b).
Proof.
move=> b0 d0; rewrite eqr_div ?phi_eq0 // -!rmorphM (inj_eq phi_inj) //.
Qed.

(** Multiplying numerator and denominator with the canonical unit. *)
Lemma frac_normalize n a d b :
  rep n a -> rep d b -> b != 0 -> coprime_to a b ->
  ensures p (let! coef := associate_coef A d in
     let! c := is_one A coef in
     if ~~ c then
       let! numer := mul A n coef in
       let! denom := mul A d coef in
       ret (numer, denom)
     else ret (n, d)) (fun y => frep y (phi a / phi b)).
Proof.
move=> na db b0 ab; have uu := acoef_unit AS b0.
apply: ensures_bind (associate_coef_ok hi db b0) _ => u ub.
apply: ensures_bind (is_one_ok hM ub) _ => r ->.
case: eqVneq => [u1|u1] /=.
  by apply: ensures_ret; exists a, b.
apply: ensures_bind (mul_ok hS na ub) _ => n' n'a.
apply: ensures_bind (mul_ok hS db ub) _ => d' d'b.
apply: ensures_ret; exists (a * acoef AS b), (b * acoef AS b); split=> //.
  exact: lowest_coef.
apply/eqP; rewrite frac_eq ?mulf_neq0 //; last by apply: contraTneq uu => ->; rewrite unitr0.
apply/eqP; cring.
Qed.

Lemma fractions_reduce_ok x a b : rep x.1 a -> rep x.2 b -> b != 0 ->
  ensures p (fractions_reduce A x) (fun y => frep y (phi a / phi b)).
Proof.
case: x => n d /= na db b0.
apply: ensures_bind (is_zero_ok hC db) _ => r ->; apply: ensures_assert_bind => //.
apply: ensures_bind (gcd_ok hE na db) _ => g' [g gg gg'].
have [g0 aE bE b0' cop] := lowest_gcd S b0 gg'.
apply: ensures_bind (quo_ok hE na gg g0) _ => n' n'E.
apply: ensures_bind (quo_ok hE db gg g0) _ => d' d'E.
rewrite (_ : phi a / phi b = phi (equo S a g) / phi (equo S b g)); first exact: frac_normalize.
apply/eqP; rewrite frac_eq // {1}aE {2}bE; apply/eqP; cring.
Qed.

Lemma frac_domain : domain_spec p frep (fractions_domain A).
Proof.
split=> /=.
- move=> x u v [a [b [xa xb _ ->]]] [c [d [xc xd _ ->]]].
  by rewrite (dom_fun hD xa xc) (dom_fun hD xb xd).
- move=> x v [a [b [xa xb [b0 bc ab] _]]].
  apply: ensures_bind (relative_primes_ok hE xa xb) _ => r /(iffRL)/(_ ab) ->.
  apply: ensures_bind (associate_coef_ok hi xb b0) _ => c cE.
  by apply: ensures_mono (is_one_ok hM cE) _ => r' ->; rewrite bc eqxx.
- move=> x u y v [a [b [xa xb ab ->]]] [c [d [yc yd cd ->]]].
  have := ensures_andM (equals_ok hD xa yc) (fun _ => equals_ok hD xb yd).
  move=> h; apply: ensures_mono h _ => r ->.
  have [b0 _ _] := ab; have [d0 _ _] := cd.
  rewrite frac_eq //; apply/idP/idP => [/andP[/eqP -> /eqP ->]//|/eqP h].
  by have [-> ->] := lowest_uniq ab cd h; rewrite !eqxx.
Qed.

(** [contains] on pairs of members of the base with non-zero denominator. *)
Lemma fractions_contains_ok x a b : rep x.1 a -> rep x.2 b -> b != 0 ->
  decides p (contains (fractions_domain A) x) (lowest AS a b).
Proof.
move=> xa xb b0 /=.
apply: ensures_bind (relative_primes_ok hE xa xb) _ => -[] h; last first.
  by apply: ensures_ret; split=> // -[_ _ /h].
apply: ensures_bind (associate_coef_ok hi xb b0) _ => c cE.
apply: ensures_mono (is_one_ok hM cE) _ => r' ->.
by split=> [/eqP bc|[_ -> _]//]; split=> //; apply/h.
Qed.

Lemma frac_mul x u y v : frep x u -> frep y v -> gives p frep (fractions_mul A x y) (u * v).
Proof.
move=> [a [b [xa xb [b0 _ _] ->]]] [c [d [yc yd [d0 _ _] ->]]].
apply: ensures_bind (mul_ok hS xa yc) _ => n nE.
apply: ensures_bind (mul_ok hS xb yd) _ => m mE.
rewrite mulrACA -invfM -!rmorphM.
by apply: (@fractions_reduce_ok (n, m)) => //; rewrite mulf_neq0.
Qed.

Lemma frac_add x u y v : frep x u -> frep y v -> gives p frep (fractions_add A x y) (u + v).
Proof.
move=> [a [b [xa xb [b0 _ _] ->]]] [c [d [yc yd [d0 _ _] ->]]].
apply: ensures_bind (equals_ok hD xb yd) _ => r ->.
case: eqVneq => bd.
  rewrite -{d d0 yd}bd; apply: ensures_bind (_ : ensures p _ (fun e =>
    rep e.1 (a + c) /\ rep e.2 b)) _ => [|e [e1 e2]].
    by apply: ensures_bind (add_ok hC xa yc) _ => n nE; apply: ensures_ret.
  by rewrite -mulrDl -rmorphD; apply: fractions_reduce_ok.
apply: ensures_bind (_ : ensures p _ (fun e =>
    rep e.1 (a * d + b * c) /\ rep e.2 (b * d))) _ => [|e [e1 e2]].
  apply: ensures_bind (mul_ok hS xa yd) _ => n1 n1E.
  apply: ensures_bind (mul_ok hS xb yc) _ => n2 n2E.
  apply: ensures_bind (add_ok hC n1E n2E) _ => n nE.
  by apply: ensures_bind (mul_ok hS xb yd) _ => m mE; apply: ensures_ret.
rewrite addf_div ?phi_eq0 // -!rmorphM -rmorphD [c * b]mulrC.
by apply: fractions_reduce_ok => //; rewrite mulf_neq0.
Qed.

Lemma frac_one : gives p frep (fractions_one A) 1.
Proof.
apply: ensures_bind (one_ok hM) _ => n nE; apply: ensures_bind (one_ok hM) _ => d dE.
apply: ensures_ret; exists 1, 1; split=> //; first exact: lowest1.
by rewrite rmorph1 divr1.
Qed.
Lemma frac_zero : gives p frep (fractions_zero A) 0.
Proof.
apply: ensures_bind (zero_ok hC) _ => n nE; apply: ensures_bind (one_ok hM) _ => d dE.
apply: ensures_ret; exists 0, 1; split=> //; first exact: lowest0.
by rewrite rmorph0 mul0r.
Qed.
Lemma frac_is_one x u : frep x u -> answers p (fractions_is_one A x) (u == 1).
Proof.
move=> [a [b [xa xb ab ->]]].
have h := ensures_andM (is_one_ok hM xa) (fun _ => is_one_ok hM xb).
apply: ensures_mono h _ => r ->; have [b0 _ _] := ab.
have -> : 1 = phi 1 / phi 1 by rewrite rmorph1 divr1.
rewrite frac_eq ?oner_neq0 //; apply/idP/idP => [/andP[/eqP -> /eqP ->]//|/eqP h2].
by have [-> ->] := lowest_uniq ab (lowest1 AS) h2; rewrite !eqxx.
Qed.
Lemma frac_eq0 a b : b != 0 -> (phi a / phi b == 0) = (a == 0).
Proof. by move=> b0; rewrite mulf_eq0 invr_eq0 !phi_eq0 (negbTE b0) orbF. Qed.

Lemma frac_cmonoid : cmonoid_spec p frep +%R 0 (fractions_cmonoid A).
Proof.
apply: (cmonoid_default (@addrA _) (@add0r _) (@addr0 _)) => //.
- exact: frac_zero.
- move=> x u xu; apply: (default_is_zero_ok _ frac_zero) xu.
  exact: equals_ok frac_domain.
- exact: frac_add.
Qed.

Lemma frac_neg x u : frep x u -> gives p frep (fractions_neg A x) (- u).
Proof.
move=> [a [b [xa xb ab ->]]]; apply: ensures_bind (neg_ok hG xa) _ => n nE.
apply: ensures_ret; exists (- a), b; split=> //; first exact: lowestN.
by rewrite rmorphN mulNr.
Qed.

Lemma rmorph_zmul (V W : zmodType) (f : {additive V -> W}) v n : f (zmul v n) = zmul (f v) n.
Proof. by case: n => [|k|k] /=; rewrite ?raddf0 ?raddfN ?raddfMn. Qed.
Lemma zmul_mulr (V : ringType) (v w : V) n : zmul v n * w = zmul (v * w) n.
Proof. by case: n => [|k|k] /=; rewrite ?mul0r ?mulNr ?mulrnAl. Qed.

Lemma frac_ztimes n x u : good_isize cfg n -> frep x u ->
  gives p frep (fractions_ztimes A n x) (zmul u n).
Proof.
move=> gn [a [b [xa xb [b0 _ _] ->]]].
apply: ensures_bind (ztimes_ok hG gn xa) _ => m mE.
by rewrite -zmul_mulr -(rmorph_zmul phi); apply: (@fractions_reduce_ok (m, x.2)).
Qed.

Lemma frac_abelian : abelian_spec cfg p frep (fractions_abelian A).
Proof.
split=> /=; try exact: frac_neg.
- move=> x u y v xu yv; apply: default_sub_ok xu yv; first exact: frac_neg.
  exact: add_assign_ok frac_cmonoid.
- move=> x u y v xu yv; apply: default_sub_assign_ok xu yv; first exact: frac_neg.
  exact: add_assign_ok frac_cmonoid.
- exact: frac_ztimes.
Qed.

Lemma frac_inv x u : frep x u -> u != 0 -> gives p frep (fractions_inv A x) u^-1.
Proof.
move=> [a [b [xa xb [b0 _ ab] ->]]]; rewrite frac_eq0 // => a0.
apply: ensures_bind (is_zero_ok hC xa) _ => r ->; apply: ensures_assert_bind => //.
by rewrite invf_div; apply: frac_normalize => //; exact: coprimeC.
Qed.

Lemma frac_inv_zero x : frep x 0 -> panics (fractions_inv A x).
Proof.
move=> [a [b [xa xb [b0 _ ab] /esym/eqP]]]; rewrite frac_eq0 // => a0.
apply: panics_ensures (is_zero_ok hC xa) _ => r ->.
by apply: panics_assert_bind; rewrite a0.
Qed.

Lemma frac_invertible x u : frep x u -> answers p (fractions_invertible A x) (u != 0).
Proof.
move=> [a [b [xa xb [b0 _ ab] ->]]]; rewrite frac_eq0 //.
exact: (ensures_notM (is_zero_ok hC xa)).
Qed.

Lemma field_inverseP (G : fieldType) (u : G) : (exists v, inverse_of *%R 1 u v) <-> u != 0.
Proof.
split=> [[v [uv _]]|u0]; last by exists u^-1; split; rewrite ?mulfV ?mulVf.
by apply: contra_eq_neq uv => ->; rewrite mul0r eq_sym oner_neq0.
Qed.

Lemma frac_try_inv x u : frep x u -> ensures p (fractions_try_inv A x) (fun o =>
    match o with
    | Some y => exists2 v, frep y v & inverse_of *%R 1 u v
    | None => forall v, ~ inverse_of *%R 1 u v
    end).
Proof.
move=> xu; apply: ensures_bind (frac_invertible xu) _ => r ->.
case: ifP => [u0|/negbFE u0]; last first.
  by apply: ensures_ret => v uv; have/field_inverseP := ex_intro _ v uv; rewrite u0.
move: (xu) => [a [b [xa xb [b0 _ ab] uE]]].
have a0 : a != 0 by move: u0; rewrite uE frac_eq0.
apply: ensures_bind (@fractions_reduce_ok (x.2, x.1) _ _ xb xa a0) _ => y yE.
apply: ensures_ret; exists (phi b / phi a) => //.
by rewrite -invf_div -uE; split; rewrite ?mulfV ?mulVf.
Qed.

Lemma frac_ring : ring_alg_spec cfg p frep *%R 1 (fractions_ring A).
Proof.
split; first split.
- exact: frac_domain.
- by apply: semigroup_default; exact: frac_mul.
- split=> /=.
  + exact: frac_one.
  + exact: frac_is_one.
  + exact: frac_try_inv.
  + move=> x u xu; apply: ensures_mono (frac_invertible xu) _ => r ->.
    by rewrite field_inverseP.
- exact: frac_cmonoid.
- exact: frac_abelian.
- by apply: unitary_default; [exact: frac_ztimes|exact: frac_one].
Qed.

(** ReducedFractions over a Euclidean domain is its field of fractions. *)
Lemma ReducedFractions_ok : field_alg_spec cfg p frep (ReducedFractions cfg A).
Proof.
have hR' := frac_ring.
apply: field_alg_ok => //; split=> /=.
- exact: frac_inv.
- exact: frac_inv_zero.
- move=> x a y b xa yb b0; apply: ensures_bind (frac_inv yb b0) _ => i iE.
  exact: frac_mul.
- by move=> x a y _ y0; apply: panics_bind; exact: frac_inv_zero.
- by move=> n x a gn xa a0; apply: (default_fpower_ok hR').
- by move=> n x x0; apply: (default_fpower_zero hR').
Qed.
End Fractions.

(** Every element of the field of fractions has a representation in lowest terms,
    so for a base that represents all of R every fraction is represented. *)
Local Notation tofrac := (@FracField.tofrac _).

Lemma fraction_ratio (R : idomainType) (q : {fraction R}) :
  exists a b : R, b != 0 /\ q = tofrac a / tofrac b.
Proof.
elim/quotW: q => x; have d0 : \d_x != 0 by exact: denom_ratioP.
exists \n_x, \d_x; split=> //.
have d0' : tofrac \d_x != 0 by rewrite tofrac_eq0.
apply: (mulIf d0'); rewrite divfK //.
unlock FracField.tofrac; rewrite -[LHS]FracField.pi_mul /FracField.mulf.
by apply/eqmodP; rewrite /= FracField.equivfE !numden_Ratio ?mulf_neq0 ?oner_neq0 // !mulr1 mulrC.
Qed.

Lemma fraction_lowest (R : idomainType) (AS : assoc_struct R) (S : eucl_struct R)
    (q : {fraction R}) :
  exists a b, lowest AS a b /\ q = tofrac a / tofrac b.
Proof.
have inj : injective (@FracField.tofrac R) by move=> x y /eqP; rewrite tofrac_eq => /eqP.
have [a [b [b0 ->]]] := fraction_ratio q.
have [g [_ [_ [_ gg]]]] := bezout S a b.
have [g0 aE bE b0' cop] := lowest_gcd S b0 gg.
have uu := acoef_unit AS b0'.
exists (equo S a g * acoef AS (equo S b g)), (equo S b g * acoef AS (equo S b g)).
have l := lowest_coef AS b0' cop; split=> //; have [l0 _ _] := l.
apply/eqP; rewrite (@frac_eq _ _ [rmorphism of @FracField.tofrac R] inj) //.
move: aE bE; move: (equo S a g) (equo S b g) => a' b' -> ->; apply/eqP; cring.
Qed.

Lemma tofrac_inj (R : idomainType) : injective (@FracField.tofrac R).
Proof. by move=> x y /eqP; rewrite tofrac_eq => /eqP. Qed.
