(** * PComp.v -- compositions of polynomials. *)

From Coq Require Import ZArith Lia List.
From mathcomp Require Import all_ssreflect all_algebra ssrZ zify.
From Verif Require Import Rust Traits MInts MConstr Wp Spec PropSpec RingSpec PDefaults Laws HomLaw EvalLaw.
From Verif Require Import PPoly PLaws PHom PEval SqfSpec PSqf CompSpec.

Set Implicit Arguments.
Unset Strict Implicit.
Unset Printing Implicit Defensive.

Import GRing.Theory.
Local Open Scope ring_scope.

Section Code.
Variables (cfg : Cfg) (p : Prop) (E : Type) (F : fieldType) (rep : E -> F -> Prop) (A : FieldAlg E).
Hypothesis hA : field_alg_spec cfg p rep A.
Local Notation R := (poly_idomainType F).
Local Notation ring := (PolyEucl A).
Let hE := PolyEucl_ok hA.
Let hR := id_ring_ok (eu_idom_ok hE).
Let hr := id_ring_ok (eu_idom_ok (fi_eucl_ok hA)).
Let hD := mo_dom_ok (ri_mon_ok hR).

Lemma constants_ok v s : Forall2 rep v s ->
  ensures p (mapM (to_constant A) v) (fun u => Forall2 (poly_of rep) u (map polyC s)).
Proof.
elim=> [|x u v' s' xu _ IH]; first by apply: ensures_ret; constructor.
apply: ensures_bind (to_constant_ok hr xu) _ => y yE.
by apply: ensures_bind IH _ => w wE; apply: ensures_ret; constructor.
Qed.

Lemma compose_ok v (P : {poly F}) w (Q : {poly F}) : poly_of rep v P -> poly_of rep w Q ->
  gives p (poly_of rep) (compose A v w) (P \Po Q).
Proof.
move=> vP wQ; apply: ensures_bind (constants_ok vP) _ => u uE.
have := value_rec hR uE wQ; rewrite /comp_poly map_polyE horner_Poly; exact.
Qed.

Lemma compose_value v (P : {poly F}) w (Q : {poly F}) x a :
  poly_of rep v P -> poly_of rep w Q -> rep x a ->
  holds p (same A (let! u := compose A v w in value A u x)
    (let! y := value A w x in value A v y)).
Proof.
move=> vP wQ xa; apply: (same_eq (mo_dom_ok (ri_mon_ok hr)) (u := (P \Po Q).[a]) (v := P.[Q.[a]])).
- by apply: ensures_bind (compose_ok vP wQ) _ => u uE; exact: (value_ok hr uE xa).
- by apply: ensures_bind (value_ok hr wQ xa) _ => y yE; exact: (value_ok hr vP yE).
exact: horner_comp.
Qed.

Lemma compose_assoc v (P : {poly F}) w (Q : {poly F}) t (T : {poly F}) :
  poly_of rep v P -> poly_of rep w Q -> poly_of rep t T ->
  holds p (same ring (let! u := compose A v w in compose A u t)
    (let! y := compose A w t in compose A v y)).
Proof.
move=> vP wQ tT; apply: (same_eq hD (u := (P \Po Q) \Po T : R) (v := P \Po (Q \Po T))).
- by apply: ensures_bind (compose_ok vP wQ) _ => u uE; exact: (compose_ok uE tT).
- by apply: ensures_bind (compose_ok wQ tT) _ => y yE; exact: (compose_ok vP yE).
by rewrite comp_polyA.
Qed.

Lemma compose_chain v (P : {poly F}) w (Q : {poly F}) : poly_of rep v P -> poly_of rep w Q ->
  holds p (same ring (let! u := compose A v w in derivative A u)
    (let! d := derivative A v in let! y := compose A d w in
     let! e := derivative A w in mul ring y e)).
Proof.
move=> vP wQ; apply: (same_eq hD (u := (P \Po Q)^`() : R) (v := (P^`() \Po Q) * Q^`())).
- by apply: ensures_bind (compose_ok vP wQ) _ => u uE; exact: (derivative_ok hA uE).
- apply: ensures_bind (derivative_ok hA vP) _ => d dE.
  apply: ensures_bind (compose_ok dE wQ) _ => y yE.
  apply: ensures_bind (derivative_ok hA wQ) _ => e eE.
  by have := mul_ok (mo_sg_ok (ri_mon_ok hR)) yE eE.
exact: deriv_comp.
Qed.

Lemma compose_degree v (P : {poly F}) w (Q : {poly F}) : poly_of rep v P -> poly_of rep w Q ->
  (0 < size v)%N -> (1 < size w)%N ->
  ensures p (compose A v w) (fun u => (size u).-1 = ((size v).-1 * (size w).-1)%N).
Proof.
move=> vP wQ v0 w1; apply: ensures_mono (compose_ok vP wQ) _ => u uE.
by rewrite (reps_size uE) (reps_size vP) (reps_size wQ) size_comp_poly.
Qed.
End Code.
