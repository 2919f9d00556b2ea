(** * PSort.v -- sorting with meet and join. *)

From Coq Require Import ZArith Lia List.
From mathcomp Require Import all_ssreflect all_algebra ssrZ zify.
From Verif Require Import Rust Traits MInts MConstr Wp Spec PropSpec RingSpec PDefaults Laws.
From Verif Require Import PLaws PDiv POrdProps PDioph SortSpec.

Set Implicit Arguments.
Unset Strict Implicit.
Unset Printing Implicit Defensive.

Lemma ensures_both (p : Prop) E (V : eqType) (rep : E -> V -> Prop) (m : M (seq E)) (P Q : seq V -> Prop) :
  (forall x u v, rep x u -> rep x v -> u = v) ->
  ensures p m (fun t => exists2 ws, Forall2 rep t ws & P ws) ->
  ensures p m (fun t => exists2 ws, Forall2 rep t ws & Q ws) ->
  ensures p m (fun t => exists ws, [/\ Forall2 rep t ws, P ws & Q ws]).
Proof.
move=> fn [[t [rt [ws h1 hP]]]|[hp pt]]; last by right.
case=> [[t' [rt' [ws' h2 hQ]]]|[_ pt]]; last by case: (returns_panics rt pt).
left; exists t; split=> //; exists ws; split=> //; move: h2; rewrite -(returns_det rt rt') => h2.
suff -> : ws = ws' by [].
elim: h1 ws' h2 {hP hQ rt rt'} => [|y w t1 w1 yw _ IH] ws' hw; inversion hw => //.
by rewrite (fn _ _ _ yw H1) (IH _ H3).
Qed.

Section Chain.
Variables (p : Prop) (E : Type) (V : eqType) (rep : E -> V -> Prop) (le : rel V) (A : LatticeAlg E).
Hypothesis hA : lattice_alg_spec p rep le A.
Let hL := la_la_ok hA.
Let hO := or_laws (la_or_ok hA).
Let tr : transitive le.
Proof. by move=> v u w; exact: (Spec.le_trans hO). Qed.

Lemma chain_insert_ok x u cs vs : rep x u -> Forall2 rep cs vs -> sorted le vs ->
  ensures p (chain_insert A x cs) (fun t => exists2 ws, Forall2 rep t ws &
    [/\ sorted le ws, size ws = (size vs).+1 &
        forall b, le b u -> all (le b) vs -> all (le b) ws]).
Proof.
move=> xu h; elim: h x u xu => [|c v cs' vs' cv _ IH] x u xu /=.
  move=> _; apply: ensures_ret; exists [:: u]; first by constructor=> //; constructor.
  by split=> // b bu _; rewrite /= bu.
rewrite path_sortedE // => /andP[hv sv].
apply: ensures_bind (meet_ok hL xu cv) _ => lo [l loE [lu lv lmin]].
apply: ensures_bind (join_ok hL xu cv) _ => hi [m hiE [um vm _]].
apply: ensures_bind (IH _ _ hiE sv) _ => t [ws h1 [h2 h3 h4]]; apply: ensures_ret.
have below b : le b u -> le b v -> all (le b) ws.
  move=> bu bv; apply: h4; first exact: tr bu um.
  by apply: sub_all hv => w; exact: tr.
exists (l :: ws); first by constructor.
split=> /=.
- by rewrite path_sortedE // h2 andbT; exact: below.
- by rewrite h3.
by move=> b bu /andP[bv _]; rewrite lmin //=; exact: below.
Qed.
Lemma to_chain_ok xs us : Forall2 rep xs us ->
  ensures p (to_chain A xs) (fun t => exists ws,
    [/\ Forall2 rep t ws, sorted le ws & size ws = size us]).
Proof.
elim=> [|x u xs' us' xu _ IH] /=; first by apply: ensures_ret; exists [::]; split=> //; constructor.
apply: ensures_bind IH _ => t [ws [h1 h2 h3]].
apply: ensures_mono (chain_insert_ok xu h1 h2) _ => t' [ws' h4 [h5 h6 _]].
by exists ws'; split=> //=; rewrite h6 h3.
Qed.

(** In a total order it sorts. *)
Hypothesis total : forall x u y v, rep x u -> rep y v -> le u v || le v u.
Lemma chain_insert_perm x u cs vs : rep x u -> Forall2 rep cs vs -> sorted le vs ->
  ensures p (chain_insert A x cs) (fun t => exists ws,
    [/\ Forall2 rep t ws, sorted le ws & perm_eq ws (u :: vs)]).
Proof.
move=> xu h sv.
suff hp : ensures p (chain_insert A x cs) (fun t => exists2 ws, Forall2 rep t ws & perm_eq ws (u :: vs)).
  apply: ensures_mono (ensures_both (dom_fun (or_dom_ok (la_or_ok hA))) (chain_insert_ok xu h sv) hp) _.
  by move=> t [ws [h1 [h2 _ _] h3]]; exists ws.
elim: h x u xu {sv} => [|c v cs' vs' cv _ IH] x u xu /=.
  by apply: ensures_ret; exists [:: u] => //; constructor=> //; constructor.
apply: ensures_bind (meet_ok hL xu cv) _ => lo [l loE [lu lv lmin]].
apply: ensures_bind (join_ok hL xu cv) _ => hi [m hiE [um vm mmax]].
apply: ensures_bind (IH _ _ hiE) _ => t [ws h1 h2]; apply: ensures_ret.
exists (l :: ws); first by constructor.
have -> : perm_eq (l :: ws) [:: u, v & vs'] = perm_eq (l :: ws) [:: l, m & vs'].
  have rf := Spec.le_refl hO; case/orP: (total xu cv) => h.
    by rewrite (Spec.le_anti hO loE xu lu (lmin _ (rf u) h)) (Spec.le_anti hO hiE cv (mmax _ h (rf v)) vm).
  rewrite (Spec.le_anti hO loE cv lv (lmin _ h (rf v))) (Spec.le_anti hO hiE xu (mmax _ (rf u) h) um).
  have e : perm_eq [:: u, v & vs'] [:: v, u & vs'] by apply/permP => z /=; rewrite addnCA.
  by rewrite (permPr e).
by rewrite perm_cons.
Qed.
Lemma to_chain_sorts xs us : Forall2 rep xs us ->
  ensures p (to_chain A xs) (fun t => exists ws,
    [/\ Forall2 rep t ws, sorted le ws & perm_eq ws us]).
Proof.
elim=> [|x u xs' us' xu _ IH] /=; first by apply: ensures_ret; exists [::]; split=> //; constructor.
apply: ensures_bind IH _ => t [ws [h1 h2 h3]].
apply: ensures_mono (chain_insert_perm xu h1 h2) _ => t' [ws' [h4 h5 h6]].
by exists ws'; split=> //; apply: perm_trans h6 _; rewrite perm_cons.
Qed.

Lemma rep_mem xs us : Forall2 rep xs us -> forall u, u \in us -> exists x, rep x u.
Proof.
elim=> [|x u xs' us' xu _ IH] v; first by [].
by rewrite inE => /orP[/eqP ->|/IH //]; exists x.
Qed.
Lemma to_chain_order xs us ys vs : Forall2 rep xs us -> Forall2 rep ys vs -> perm_eq us vs ->
  ensures p (to_chain A xs) (fun s => ensures p (to_chain A ys) (fun t => exists ws,
    [/\ Forall2 rep s ws & Forall2 rep t ws])).
Proof.
move=> hx hy e; apply: ensures_mono (to_chain_sorts hx) _ => s [ws [h1 h2 h3]].
apply: ensures_mono (to_chain_sorts hy) _ => t [ws' [h4 h5 h6]]; exists ws; split=> //.
suff -> : ws = ws' by [].
apply: (sorted_eq_in _ _ h2 h5).
- by move=> a b c _ _ _; exact: tr.
- move=> a b /(rep_mem h1)[x xa] /(rep_mem h1)[y yb] /andP[]; exact: (Spec.le_anti hO xa yb).
- by apply: perm_trans h3 _; apply: perm_trans e _; rewrite perm_sym.
Qed.
End Chain.

(** The divisibility lattice: a list becomes a chain of divisors of the same product. *)
Import GRing.Theory.
Local Open Scope ring_scope.
Section Divisors.
Variables (R : idomainType) (S : eucl_struct R).
Implicit Types a b d m : R.

Lemma dvds_mul a b c d : dvds a b -> dvds c d -> dvds (a * c) (b * d).
Proof. by move=> [q ->] [r ->]; exists (q * r); rewrite mulrACA. Qed.

Lemma gcd_mul_lcm a b d m : is_gcd a b d -> is_lcm a b m -> dvds (d * m) (a * b) /\ dvds (a * b) (d * m).
Proof.
move=> hg [am bm mmin]; have [d0|d0] := eqVneq d 0.
  by move: hg; rewrite d0 => /gcd0[-> _]; rewrite !mul0r; split; exact: dvds_refl.
have [da db dmax] := hg; have aE := equo_dvd S d0 da; have bE := equo_dvd S d0 db.
move: (equo S a d) (equo S b d) aE bE => a' b' aE bE; split.
  have -> : a * b = d * (a' * b) by rewrite aE mulrAC mulrC.
  apply: dvds_mul (dvds_refl d) _; apply: mmin; last by exists a'.
  by exists b'; rewrite bE aE mulrCA.
have [s [t dE]] := gcd_bezout S hg.
rewrite dE mulrDl; case: am bm => [q mE] [r mE'].
exists (s * r + t * q); rewrite {1}mE' mE mulrDl; congr (_ + _).
  by rewrite -!mulrA; congr (_ * _); rewrite mulrCA.
by rewrite -!mulrA; congr (_ * _); rewrite [b * _]mulrC -mulrA.
Qed.

Variables (cfg : Cfg) (p : Prop) (E : Type) (rep : E -> R -> Prop) (AS : assoc_struct R) (A : EuclAlg E).
Hypothesis hA : eucl_alg_spec cfg p rep AS S A.
Let crep := div_rep AS rep.
Let L := DivisibilityLattice A.
Let hL : lattice_alg_spec p crep (edvd S) L := DivisibilityLattice_ok (@edvdP _ S) hA.
Definition assoc a b := dvds a b /\ dvds b a.

Lemma assoc_refl a : assoc a a.
Proof. by split; exact: dvds_refl. Qed.
Lemma assoc_trans b a c : assoc a b -> assoc b c -> assoc a c.
Proof. by move=> [h1 h2] [h3 h4]; split; [exact: dvds_trans h1 h3|exact: dvds_trans h4 h2]. Qed.
Lemma assoc_mul a b c d : assoc a b -> assoc c d -> assoc (a * c) (b * d).
Proof. by move=> [h1 h2] [h3 h4]; split; exact: dvds_mul. Qed.

Lemma chain_insert_prod x u cs vs : crep x u -> Forall2 crep cs vs ->
  ensures p (chain_insert L x cs) (fun t => exists2 ws, Forall2 crep t ws &
    assoc (\prod_(w <- ws) w) (u * \prod_(w <- vs) w)).
Proof.
move=> xu h; elim: h x u xu => [|c v cs' vs' cv _ IH] x u xu /=.
  apply: ensures_ret; exists [:: u]; first by constructor=> //; constructor.
  by rewrite big_cons; exact: assoc_refl.
have [hm hj] := divisibility_lattice hA xu cv.
apply: ensures_bind hm _ => lo [d loE hg]; apply: ensures_bind hj _ => hi [m hiE hm].
apply: ensures_bind (IH _ _ hiE) _ => t [ws h1 h2]; apply: ensures_ret.
exists (d :: ws); first by constructor.
rewrite !big_cons; apply: assoc_trans (assoc_mul (assoc_refl d) h2) _; rewrite !mulrA.
by apply: assoc_mul (assoc_refl _); exact: gcd_mul_lcm.
Qed.
Lemma to_chain_prod xs us : Forall2 crep xs us ->
  ensures p (to_chain L xs) (fun t => exists2 ws, Forall2 crep t ws &
    assoc (\prod_(w <- ws) w) (\prod_(u <- us) u)).
Proof.
elim=> [|x u xs' us' xu _ IH] /=.
  by apply: ensures_ret; exists [::]; [constructor|exact: assoc_refl].
apply: ensures_bind IH _ => t [ws h1 h2].
apply: ensures_mono (chain_insert_prod xu h1) _ => t' [ws' h4 h5].
by exists ws' => //; rewrite big_cons; apply: assoc_trans h5 (assoc_mul (assoc_refl u) h2).
Qed.
Lemma divisor_chain xs us : Forall2 crep xs us ->
  ensures p (to_chain L xs) (fun t => exists ws,
    [/\ Forall2 crep t ws, size ws = size us,
        forall i, (i.+1 < size ws)%N -> dvds (nth 0 ws i) (nth 0 ws i.+1),
        dvds (\prod_(w <- ws) w) (\prod_(u <- us) u) &
        dvds (\prod_(u <- us) u) (\prod_(w <- ws) w)]).
Proof.
move=> h; have hs : ensures p (to_chain L xs) (fun t => exists2 ws, Forall2 crep t ws &
    sorted (edvd S) ws /\ size ws = size us).
  by apply: ensures_mono (to_chain_ok hL h) _ => t [ws [h1 h2 h3]]; exists ws.
apply: ensures_mono (ensures_both (dom_fun (or_dom_ok (la_or_ok hL))) hs (to_chain_prod h)) _.
move=> t [ws [h1 [h2 h3] [h4 h5]]]; exists ws; split=> // i hi.
by apply/(edvdP S); move/(sortedP 0): h2; apply.
Qed.
End Divisors.
