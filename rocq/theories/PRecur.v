(** * PRecur.v -- linear recurrences by powers of residues. *)

From Coq Require Import ZArith Lia List.
From mathcomp Require Import all_ssreflect all_algebra ssrZ zify.
From Verif Require Import Rust Traits MInts MConstr Wp Spec PropSpec RingSpec PDefaults Quotient Laws.
From Verif Require Import RingTac PPoly PQuot PLaws PIrr RecurSpec.

Set Implicit Arguments.
Unset Strict Implicit.
Unset Printing Implicit Defensive.

Import GRing.Theory.
Local Open Scope ring_scope.

Section Math.
Variable F : fieldType.
Definition lin (u : nat -> F) (P : {poly F}) : F := \sum_(i < size P) P`_i * u i.

Lemma lin_ext u (P : {poly F}) N : (size P <= N)%N -> lin u P = \sum_(i < N) P`_i * u i.
Proof.
move=> h; rewrite /lin (big_ord_widen_cond N xpredT (fun i => P`_i * u i) h) /=.
rewrite [RHS](bigID (fun i : 'I_N => i < size P)%N) /= [X in _ = _ + X]big1 ?addr0 // => i.
by rewrite -leqNgt => hi; rewrite nth_default // mul0r.
Qed.
Lemma linD u (P Q : {poly F}) : lin u (P + Q) = lin u P + lin u Q.
Proof.
have hP := leq_maxl (size P) (size Q); have hQ := leq_maxr (size P) (size Q).
rewrite (lin_ext u (size_add P Q)) (lin_ext u hP) (lin_ext u hQ) -big_split /=.
by apply: eq_bigr => i _; rewrite coefD mulrDl.
Qed.
Lemma linZ u c (P : {poly F}) : lin u (c *: P) = c * lin u P.
Proof.
rewrite (lin_ext u (size_scale_leq c P)) /lin big_distrr /=.
by apply: eq_bigr => i _; rewrite coefZ mulrA.
Qed.
Lemma linX u (P : {poly F}) : lin u (P * 'X) = lin (fun i => u i.+1) P.
Proof.
have h : (size (P * 'X)%R <= (size P).+1)%N.
  by apply: leq_trans (size_mul_leq _ _) _; rewrite size_polyX addnC.
rewrite (lin_ext u h) big_ord_recl coefMX eqxx mul0r add0r.
by apply: eq_bigr => i _; rewrite coefMX.
Qed.
Lemma linXn u n : lin u 'X^n = u n.
Proof.
elim: n u => [|n IH] u; last by rewrite exprSr linX IH.
by rewrite expr0 /lin size_poly1 big_ord1 coef1 mul1r.
Qed.
Lemma lin_multiple (P Q : {poly F}) u :
  (forall n, \sum_(i < size P) P`_i * u (n + i)%N = 0) -> lin u (Q * P) = 0.
Proof.
elim/poly_ind: Q u => [|Q c IH] u h; first by rewrite mul0r /lin size_poly0 big_ord0.
rewrite mulrDl mulrAC linD linX IH; last by move=> n; exact: (h n.+1).
by rewrite mul_polyC linZ /lin (h 0%N) mulr0 addr0.
Qed.
End Math.

Section Code.
Variables (cfg : Cfg) (p : Prop) (E : Type) (F : fieldType) (rep : E -> F -> Prop) (A : FieldAlg E).
Hypothesis hA : field_alg_spec cfg p rep A.
Local Notation R := (poly_idomainType F).
Local Notation S := (poly_estruct F).
Local Notation prep := (poly_of rep).
Let hE := PolyEucl_ok hA.
Let hr := id_ring_ok (eu_idom_ok (fi_eucl_ok hA)).

Lemma dot_ok s a y ys us u : rep s a -> Forall2 rep y ys -> (size ys <= size us)%N ->
  Forall2 rep us u -> gives p rep (dot A s y us) (a + \sum_(i < size ys) ys`_i * u`_i).
Proof.
move=> sa h; elim: h s a us u sa => [|x b y' ys' xb _ IH] s a us u sa /=.
  by case: us => *; rewrite big_ord0 addr0; apply: ensures_ret.
move=> hs hu; move: hs; case: hu => [|z c us' u' zc hu] // hs.
apply: ensures_bind (mul_ok (mo_sg_ok (ri_mon_ok hr)) xb zc) _ => t tE.
apply: ensures_bind (add_ok (ri_cm_ok hr) sa tE) _ => s' sE.
by rewrite big_ord_recl /= addrA; exact: IH.
Qed.

Variables (v : seq E) (P : R).
Hypotheses (vP : prep v P) (s1 : (1 < size v)%N).
Let sP : size v = size (P : {poly F}).
Proof. exact: reps_size vP. Qed.
Let P0 : P != 0.
Proof. by rewrite -size_poly_eq0 -sP; case: size s1. Qed.
Let Pu : P \isn't a GRing.unit.
Proof. by rewrite unit_size -sP; case: eqP s1 => // ->. Qed.
Let md := @Modulus R P P0 Pu.
Local Notation qrep := (@q_rep (seq E) R S md prep).
Local Notation pi := (qpi S md).
Let hQ : ring_alg_spec cfg p qrep *%R 1 (QuotientRing cfg (PolyEucl A) v) :=
  @QuotientRing_ok cfg p (seq E) R prep _ S (PolyEucl A) hE md v vP.
Let hS := mo_sg_ok (ri_mon_ok hQ).

Lemma residue_gpower x U n : qrep x U ->
  gives p qrep (gpower (MultiplicativeGroup cfg (QuotientRing cfg (PolyEucl A) v)) (Z.of_nat n) x) (U ^+ n).
Proof.
move=> xU; rewrite /gpower /= /default_gpower; case: Z.ltb_spec; first lia.
move=> _; rewrite bind_ret; apply: ensures_bind (one_ok (mo_mo_ok (ri_mon_ok hQ))) _ => o oE.
have := @power_loop_ok p _ _ qrep *%R 1 (@mulrA _) (@mul1r _) (@mulr1 _)
  _ _ (mul_assign_ok hS) (square_ok hS) (Z.of_nat n) x U o 1 (Zle_0_nat n) xU oE.
move=> h; apply: ensures_bind h _ => s sE; apply: ensures_ret; move: sE; rewrite mul1r Nat2Z.id.
have -> // : forall i, npow *%R 1 U i = U ^+ i.
by elim=> [|i IH] //=; rewrite IH exprS.
Qed.

Lemma term_ok us (u : nat -> F) n : (forall m, \sum_(i < size (P : {poly F})) (P : {poly F})`_i * u (m + i)%N = 0) ->
  Forall2 rep us (mkseq u (size v).-1) -> gives p rep (term cfg A v us (Z.of_nat n)) (u n).
Proof.
move=> hu hus; apply: ensures_bind (zero_ok (ri_cm_ok hr)) _ => z zE.
apply: ensures_bind (one_ok (mo_mo_ok (ri_mon_ok hr))) _ => o oE.
have xX : prep [:: z; o] ('X : {poly F}) by rewrite /poly_of polyseqX; repeat constructor.
apply: ensures_bind (rem_ok (eu_eu_ok hE) xX vP P0) _ => x xE.
have xq : qrep x (pi 'X) by exact: xE.
apply: ensures_bind (residue_gpower n xq) _ => y yE.
pose W : {poly F} := qval (pi 'X ^+ n); have yW : prep y W by exact: yE.
have [c cE] : dvds P ((W : R) - 'X^n) by apply/(qpiE S md); rewrite qpiK rmorphX.
have sW : (size W < size v)%N.
  rewrite sP /W -(qvalE (pi 'X ^+ n)).
  by have := ltn_modp (qval (pi 'X ^+ n) : {poly F}) P; rewrite P0; apply.
have sus : size us = (size v).-1 by rewrite (reps_size hus) size_mkseq.
have sle : (size W <= (size v).-1)%N by rewrite -ltnS prednK // (ltnW s1).
have := dot_ok zE yW _ hus; rewrite sus => /(_ sle); rewrite add0r.
have -> // : \sum_(i < size W) W`_i * (mkseq u (size v).-1)`_i = u n.
transitivity (lin u W).
  by apply: eq_bigr => i _; rewrite nth_mkseq // (leq_trans (ltn_ord i)).
have -> : W = c * P + 'X^n by rewrite -cE subrK.
by rewrite linD linXn (lin_multiple _ hu) add0r.
Qed.
End Code.

Lemma fib_zero (V : comRingType) (a b : V) : -1 * a + (-1 * b + (1 * (b + a) + 0)) = 0.
Proof. by cring. Qed.

Section Fib.
Variables (cfg : Cfg) (p : Prop) (E : Type) (F : fieldType) (rep : E -> F -> Prop) (A : FieldAlg E).
Hypothesis hA : field_alg_spec cfg p rep A.
Let hr := id_ring_ok (eu_idom_ok (fi_eucl_ok hA)).

Lemma fib_rec n : fib n.+2 = (fib n.+1 + fib n)%N.
Proof. by []. Qed.

Lemma fibonacci_ok n : gives p rep (fibonacci cfg A (Z.of_nat n)) ((fib n)%:R).
Proof.
apply: ensures_bind (zero_ok (ri_cm_ok hr)) _ => z zE.
apply: ensures_bind (one_ok (mo_mo_ok (ri_mon_ok hr))) _ => o oE.
have hn : gives p rep (neg A o) (- 1) by have := neg_ok (ri_ab_ok hr) oE.
apply: ensures_bind hn _ => m mE.
pose s : seq F := [:: -1; -1; 1].
have ps : polyseq (Poly s) = s by rewrite (PolyK (c := 1)) /=; [|exact: oner_neq0].
have vP : poly_of rep [:: m; m; o] (Poly s) by rewrite /poly_of ps; repeat constructor.
apply: (term_ok hA vP _ (u := fun n => (fib n)%:R)) => //; last by repeat constructor.
move=> i; rewrite ps /= !big_ord_recl big_ord0 /= !addnS !addn0 fib_rec natrD.
exact: fib_zero.
Qed.
End Fib.
