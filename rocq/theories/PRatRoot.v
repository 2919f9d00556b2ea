(** * PRatRoot.v -- fractions that are roots of polynomials. *)

From Coq Require Import ZArith Lia List.
From mathcomp Require Import all_ssreflect all_algebra ssrZ zify.
From Verif Require Import Rust Traits MInts MConstr Wp Spec PropSpec RingSpec PDefaults Laws HomLaw EvalLaw.
From Verif Require Import RingTac PLaws PFrac PFracProps PGcdLaw PHom PEval.

Set Implicit Arguments.
Unset Strict Implicit.
Unset Printing Implicit Defensive.

Import GRing.Theory.
Local Open Scope ring_scope.

Lemma homog_step (V : comRingType) (h y c b z : V) :
  (h * y + c) * (b * z) = h * z * (y * b) + c * b * z.
Proof. by cring. Qed.

Section Math.
Variables (R : idomainType) (F : fieldType) (phi : {rmorphism R -> F}).
Hypothesis inj : injective phi.
Variables (a b : R).
Hypotheses (b0 : b != 0) (ab : coprime_to a b).
Let x := phi a / phi b.
Let pb0 : phi b != 0.
Proof. by rewrite -(rmorph0 phi) (inj_eq inj). Qed.

Fixpoint homog (s : seq R) : R :=
  if s is c :: s' then homog s' * a + c * b ^+ size s' else 0.

Lemma homogE s : horner_rec (map phi s) x * phi b ^+ size s = phi (b * homog s).
Proof.
elim: s => [|c s IH] /=; first by rewrite mul0r mulr0 rmorph0.
have xb : x * phi b = phi a by rewrite /x divfK.
rewrite exprS homog_step.
by rewrite IH xb -rmorphX -!rmorphM -rmorphD; congr (phi _); rewrite mulrDr mulrA mulrA [c * b]mulrC.
Qed.

Lemma homog0 s : horner_rec (map phi s) x = 0 -> homog s = 0.
Proof.
move=> h; have := homogE s; rewrite h mul0r => /esym /eqP.
rewrite -(rmorph0 phi) (inj_eq inj) mulf_eq0 (negbTE b0) => /eqP //.
Qed.

Lemma coprime_exp c d n : coprime_to c d -> coprime_to (c ^+ n) (d : R).
Proof.
move=> h; elim: n => [|n IH]; first by exists 1, 0; rewrite mul0r addr0 mulr1.
by rewrite exprS; apply/coprime_mul.
Qed.

Lemma root_first c s : homog (c :: s) = 0 -> dvds a c.
Proof.
move=> /= h; apply: (@gauss R (b ^+ size s) c a).
  by apply: coprime_exp; exact: coprimeC.
by exists (- homog s); apply/eqP; rewrite mulNr -addr_eq0 [_ * c]mulrC addrC h.
Qed.

Lemma homog_last c s : dvds b (homog (c :: s) - last c s * a ^+ size s).
Proof.
elim: s c => [|d s IH] c; first by exists 0; rewrite /= !mul0r add0r expr0 subrr.
have [q qE] := IH d; exists (q * a + c * b ^+ size s).
move: qE; rewrite [homog [:: c, d & s]]/= -/(homog (d :: s)) [last c _]/= [size _]/=.
rewrite !exprS; move: (homog (d :: s)) (last d s) (a ^+ _) (b ^+ _) => h l y z qE.
have -> : h * a + c * (b * z) - l * (a * y) = (h - l * y) * a + c * z * b by cring.
by rewrite qE; cring.
Qed.

Lemma root_last c s : homog (c :: s) = 0 -> dvds b (last c s).
Proof.
move=> h; have [q] := homog_last c s; rewrite h sub0r => qE.
apply: (@gauss R (a ^+ size s) _ b); first exact: coprime_exp.
by exists (- q); rewrite mulNr -qE opprK mulrC.
Qed.
End Math.

Section Code.
Variables (cfg : Cfg) (p : Prop) (E : Type) (R : idomainType) (rep : E -> R -> Prop).
Variables (AS : assoc_struct R) (S : eucl_struct R) (A : EuclAlg E).
Hypothesis hA : eucl_alg_spec cfg p rep AS S A.
Local Notation phi := [rmorphism of @FracField.tofrac R].
Local Notation frep := (frac_rep (F := [fieldType of {fraction R}]) phi AS rep).
Local Notation Q := (ReducedFractions cfg A).
Let hI := eu_idom_ok hA.
Let hR := id_ring_ok hI.
Let hF := reduced_fractions_contract hA.
Let hQ := id_ring_ok (eu_idom_ok (fi_eucl_ok hF)).

Lemma fraction_list v s : Forall2 rep v s ->
  ensures p (mapM (to_fraction A) v) (fun u => Forall2 frep u (map phi s)).
Proof.
elim=> [|x u v' s' xu _ IH]; first by apply: ensures_ret; constructor.
apply: ensures_bind (to_fraction_ok hA xu) _ => y yE.
by apply: ensures_bind IH _ => w wE; apply: ensures_ret; constructor.
Qed.

Lemma root_homog v s x a b : Forall2 rep v s -> rep x.1 a -> rep x.2 b -> lowest AS a b ->
  returns (let! u := mapM (to_fraction A) v in is_root Q u x) true -> homog a b s = 0.
Proof.
move=> vs xa xb low ht; have [b0 _ ab] := low.
have fx : frep x (phi a / phi b) by exists a, b.
have h : answers p (let! u := mapM (to_fraction A) v in is_root Q u x)
    (horner_rec (map phi s) (phi a / phi b) == 0).
  apply: ensures_bind (fraction_list vs) _ => u uE.
  apply: ensures_bind (value_rec hQ uE fx) _ => y yE.
  exact: is_zero_ok (ri_cm_ok hQ) _ _ yE.
have /esym/eqP e := ensures_value h ht.
exact: (homog0 (phi := phi) (@tofrac_inj R) b0 e).
Qed.

Lemma rational_root c w s x : Forall2 rep (c :: w) s -> (exists q, frep x q) ->
  returns (let! u := mapM (to_fraction A) (c :: w) in is_root Q u x) true ->
  answers p (divisible A c x.1) true /\ answers p (divisible A (last c w) x.2) true.
Proof.
move=> vs [q [a [b [xa xb low _]]]] ht; have [b0 _ ab] := low.
have := root_homog vs xa xb low ht; inversion vs as [|c' d w' s' cd ws e1 e2]; subst => h0.
have hl : rep (last c w) (last d s').
  elim: ws (c) (d) cd {ht vs h0} => //= y u w' t yu _ IH _ _ _; exact: IH.
split.
  apply: ensures_mono (divisible_ok (id_id_ok hI) cd xa) _ => r [_]; apply.
  exact: (root_first ab h0).
apply: ensures_mono (divisible_ok (id_id_ok hI) hl xb) _ => r [_]; apply.
exact: (root_last ab h0).
Qed.

Lemma integral_root c w s x : Forall2 rep (c :: w) s -> (exists q, frep x q) -> rep (last c w) 1 ->
  returns (let! u := mapM (to_fraction A) (c :: w) in is_root Q u x) true ->
  answers p (is_one A x.2) true.
Proof.
move=> vs [q [a [b [xa xb low _]]]] l1 ht; have [b0 b1 ab] := low.
have := root_homog vs xa xb low ht; inversion vs as [|c' d w' s' cd ws e1 e2]; subst => h0.
have hl : rep (last c w) (last d s').
  elim: ws (c) (d) cd {ht vs h0 l1} => //= y u w' t yu _ IH _ _ _; exact: IH.
have l1' : last d s' = 1 by exact: (dom_fun (mo_dom_ok (ri_mon_ok hR)) hl l1).
have [k kE] := root_last ab h0; rewrite l1' in kE.
have bu : b \is a GRing.unit by apply/unitrP; exists k; rewrite -kE mulrC -kE.
have bE : b = 1.
  have := acoef_mul AS bu (oner_neq0 R); rewrite mulr1 b1 acoef1 mul1r //.
by have := is_one_ok (mo_mo_ok (ri_mon_ok hR)) xb; rewrite bE eqxx.
Qed.
End Code.
