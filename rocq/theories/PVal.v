(** * PVal.v -- residues modulo a product of different linear factors are vectors of values. *)

From Coq Require Import ZArith Znumtheory Lia List.
From mathcomp Require Import all_ssreflect all_fingroup all_algebra.
From mathcomp Require Import ssrZ zify.
From Verif Require Import Rust RustFacts Traits MInts MConstr Spec Wp ModSpec NumSpec RingSpec PropSpec TowerSpec ParSpec SameSpec ValSpec.
From Verif Require Import PDefaults PVec Quotient PQuot PPoly PTower PIrr.
From Verif Require Import PPar PPar2 PPar3 PPar4 PPar5 PSame PSame2.

Set Implicit Arguments.
Unset Strict Implicit.
Unset Printing Implicit Defensive.

Import GRing.Theory.
Local Open Scope ring_scope.

Section Math.
Variables (F : fieldType) (n : nat) (a : 'I_n.+1 -> F).
Hypothesis ainj : injective a.
Local Notation R := (poly_idomainType F).
Local Notation S := (poly_estruct F).
Definition nodes : {poly F} := \prod_i ('X - (a i)%:P).

Lemma size_nodes : size nodes = n.+2.
Proof. by rewrite /nodes size_prod_XsubC -[index_enum _]enumT size_enum_ord. Qed.
Lemma nodes0 : (nodes : R) != 0.
Proof. by rewrite -size_poly_eq0 size_nodes. Qed.
Lemma nodes_unit : (nodes : R) \isn't a GRing.unit.
Proof. by rewrite unit_size size_nodes. Qed.
Definition nodes_mod : modulus R := Modulus nodes0 nodes_unit.
Lemma nodes_at i : nodes.[a i] = 0.
Proof. by rewrite horner_prod (bigD1 i) //= hornerXsubC subrr mul0r. Qed.

Lemma nodes_dvd (U : {poly F}) : (forall i, U.[a i] = 0) -> dvds (nodes : R) U.
Proof.
move=> h; suff : nodes %| U by move/dvdpP => [q ->]; exists q.
have -> : nodes = \prod_(z <- [seq a i | i <- enum 'I_n.+1]) ('X - z%:P).
  by rewrite big_map big_enum.
apply: uniq_roots_dvdp.
  by apply/allP => z /mapP[i _ ->]; apply/rootP.
by rewrite uniq_rootsE map_inj_uniq // enum_uniq.
Qed.

Local Notation V := (ffun_ringType [ringType of F] (ord0 : 'I_n.+1)).
Definition values (u : quot S nodes_mod) : V := [ffun i => (qval u : {poly F}).[a i]].
Lemma valuesE (U : {poly F}) : values (qpi S nodes_mod U) = [ffun i => U.[a i]].
Proof.
apply/ffunP => i; rewrite !ffunE; have [q h] := qpi_val S nodes_mod (U : R).
move/(congr1 (fun p : {poly F} => p.[a i])): h; rewrite hornerD hornerN hornerM /= nodes_at mulr0.
by move/eqP; rewrite subr_eq0 => /eqP.
Qed.
Lemma values_rmorph : rmorphism values.
Proof.
split=> [u v|].
  rewrite -[u]qpiK -[v]qpiK -rmorphB !valuesE; apply/ffunP => i.
  by rewrite !ffunE hornerD hornerN.
split=> [u v|].
  rewrite -[u]qpiK -[v]qpiK -rmorphM !valuesE; apply/ffunP => i.
  by rewrite !ffunE hornerM.
rewrite -[1](rmorph1 (qpi_rmorphism S nodes_mod)) valuesE; apply/ffunP => i.
by rewrite !ffunE hornerC.
Qed.
Canonical values_additive := Additive values_rmorph.
Canonical values_rmorphism := RMorphism values_rmorph.

Lemma values_inj : injective values.
Proof.
move=> u v h; apply/eqP; rewrite -subr_eq0; apply/eqP; rewrite -[LHS]qpiK; apply/qpi_eq0.
apply: nodes_dvd => i; have : values (u - v) i = 0 by rewrite rmorphB /= h subrr ffunE.
by rewrite ffunE.
Qed.

(** Lagrange *)
Definition lagrange (f : V) : {poly F} :=
  \sum_i (f i)%:P * \prod_(j | j != i) ((a i - a j)^-1%:P * ('X - (a j)%:P)).
Lemma lagrangeE f i : (lagrange f).[a i] = f i.
Proof.
rewrite /lagrange horner_sum (bigD1 i) //= [X in _ + X]big1 ?addr0 => [|k ki].
  rewrite hornerM hornerC horner_prod big1 ?mulr1 // => j ji; rewrite hornerM hornerC hornerXsubC mulVf //.
  by rewrite subr_eq0 (inj_eq ainj) eq_sym.
rewrite hornerM hornerC horner_prod (bigD1 i) /=; last by rewrite eq_sym.
by rewrite hornerM hornerC hornerXsubC subrr mulr0 mul0r mulr0.
Qed.
Lemma values_surj f : exists u, values u = f.
Proof.
exists (qpi S nodes_mod (lagrange f)); rewrite valuesE; apply/ffunP => i.
by rewrite ffunE lagrangeE.
Qed.
Lemma values_embedding : monoid_embedding *%R 1 *%R 1 values.
Proof.
split; [exact: values_inj|exact: rmorphM|exact: rmorph1|].
move=> u v [uv vu]; have [w wE] := values_surj v; exists w; rewrite -wE in uv vu.
by split; apply: values_inj; rewrite rmorphM rmorph1.
Qed.
End Math.

Section Code.
Variables (c : Cfg) (E : Type) (F : fieldType) (rep : E -> F -> Prop) (A : FieldAlg E).
Local Notation ok := (ModSpec.usual_isize c).
Hypotheses (hA : field_alg_spec c False rep A) (sA : field_alg_par ok eq A A).
Variables (n : nat) (a : 'I_n.+1 -> F) (v : seq E).
Hypotheses (ainj : injective a) (hv : poly_of rep v (\prod_i ('X - (a i)%:P))).
Local Notation S := (poly_estruct F).
Local Notation qrep := (@q_rep (seq E) (poly_idomainType F) S (nodes_mod a) (poly_of rep)).
Local Notation vrep := (@vector_of n.+1 E F rep).

Lemma values_rel x y : transported qrep vrep (@values F n a) x y <-> values_at rep a x y.
Proof.
split=> [[u xu yu]|[U [xU sx yU]]].
  exists (qval u); split=> //; rewrite (reps_size xu) -ltnS -(size_nodes a).
  have /eqP <- := qvalP u; rewrite /= ltn_modp; exact: nodes0.
have h : erem S (U : poly_idomainType F) (nodes_mod a) == U.
  by apply/eqP; rewrite /= modp_small // size_nodes ltnS -(reps_size xU).
by exists (Quot h).
Qed.

Lemma values_same : ring_alg_par ok (values_at rep a)
  (QuotientRing c (PolyEucl A) v) (VectorRing c n.+1 A).
Proof.
apply: (ring_par_iff values_rel).
apply: (same_rings (V2 := ffun_ringType [ringType of F] (ord0 : 'I_n.+1)) (phi := [rmorphism of @values F n a])).
- exact: values_embedding.
- exact: (@QuotientRing_ok _ _ _ _ _ _ _ _ (PolyEucl_ok hA) (nodes_mod a) _ hv).
- exact: (VectorRing_ok n.+1 (id_ring_ok (eu_idom_ok (fi_eucl_ok hA)))).
- apply: (ring_par_iff (R := vec_par eq)); first exact: vec_par_eq.
  by apply: par_quotient_ring; [exact: par_poly_eucl|exact/vec_par_eq].
- apply: (ring_par_iff (R := vec_par eq)); first exact: vec_par_eq.
  exact: par_vector_ring (id_ring_alg_par (eu_idom_alg_par (fi_eucl_alg_par sA))).
Qed.
End Code.

Section Pairs.
Variables (E : Type) (F : fieldType) (rep : E -> F -> Prop).
Hypotheses (rfun : forall x u w, rep x u -> rep x w -> u = w).
Hypotheses (rinj : forall x y u, rep x u -> rep y u -> x = y) (ronto : forall u, exists x, rep x u).
Lemma reps_one (s : seq F) x y : Forall2 rep x s -> Forall2 rep y s -> x = y.
Proof.
move=> h; elim: h y => [|x0 u xs us xu _ IH] y hy; inversion_clear hy => //.
by rewrite (rinj xu H) (IH _ H0).
Qed.
Lemma reps_fun (s t : seq F) x : Forall2 rep x s -> Forall2 rep x t -> s = t.
Proof.
move=> h; elim: h t => [|x0 u xs us xu _ IH] t ht; inversion_clear ht => //.
by rewrite (rfun xu H) (IH _ H0).
Qed.
Lemma reps_onto (s : seq F) : exists x, Forall2 rep x s.
Proof.
elim: s => [|u s [xs h]]; first by exists [::].
by have [x xu] := ronto u; exists (x :: xs); constructor.
Qed.

Variables (n : nat) (a : 'I_n.+1 -> F).
Hypothesis ainj : injective a.
Lemma values_pairs :
  pairs_off (fun x => exists2 U : {poly F}, poly_of rep x U & (size x <= n.+1)%N)
    (fun y => exists f : {ffun 'I_n.+1 -> F}, vector_of rep y f) (values_at rep a) /\
  exhausts (fun y => exists f : {ffun 'I_n.+1 -> F}, vector_of rep y f) (values_at rep a).
Proof.
split; first split.
- by move=> x y [U [xU sx yU]]; split; [exists U|exists [ffun i => U.[a i]]].
- move=> x [U xU sx]; have [y yU] := reps_onto [seq [ffun j => U.[a j]] i | i <- enum 'I_n.+1].
  by exists y, U.
- move=> x y y' [U [xU sx yU]] [U' [xU' _ yU']].
  have UE : U = U' by apply: val_inj; exact: reps_fun xU xU'.
  by apply: reps_one yU _; rewrite UE.
- move=> x x' y [U [xU sx yU]] [U' [xU' sx' yU']].
  suff UE : U = U' by apply: reps_one xU _; rewrite UE.
  apply/eqP; rewrite -subr_eq0; apply/eqP.
  have /(qpi_eq0 (poly_estruct F) (nodes_mod a)) : dvds (nodes a : poly_idomainType F) (U - U').
    apply: nodes_dvd => // i; rewrite hornerD hornerN.
    have := reps_fun yU yU'; move/eq_in_map/(_ i (mem_enum _ _)).
    by rewrite !ffunE => ->; rewrite subrr.
  move/(congr1 (@qval _ _ _)); rewrite qval0 /= modp_small // size_nodes ltnS.
  apply: leq_trans (size_add _ _) _; rewrite size_opp geq_max.
  by rewrite -(reps_size xU) -(reps_size xU') sx sx'.
move=> y [f yf]; have [u uE] := values_surj ainj f.
have [x xu] := reps_onto (qval u : {poly F}); exists x, (qval u); split=> //.
- rewrite (reps_size xu) -ltnS -(size_nodes a); have /eqP <- := qvalP u.
  by rewrite /= ltn_modp; exact: nodes0.
- by rewrite -[[ffun i => _]]/(values u) uE.
Qed.
End Pairs.

Section Fourier.
Variables (F : fieldType) (n : nat) (g : F).
Hypothesis hg : n.+1.-primitive_root g.
Lemma powers_inj : injective (fun i : 'I_n.+1 => g ^+ i).
Proof.
move=> i j /eqP; rewrite (eq_prim_root_expr hg) !modn_small // => /eqP h; exact: val_inj.
Qed.
Lemma powers_prod : \prod_(i < n.+1) ('X - (g ^+ i)%:P) = 'X^n.+1 - 1.
Proof. by rewrite -(factor_Xn_sub_1 hg) big_mkord. Qed.
End Fourier.

Lemma fourier_same (c : Cfg) (E : Type) (F : fieldType) (rep : E -> F -> Prop) (A : FieldAlg E) :
  field_alg_spec c False rep A -> field_alg_par (ModSpec.usual_isize c) eq A A ->
  forall (n : nat) (g : F) (v : seq E), n.+1.-primitive_root g -> poly_of rep v ('X^n.+1 - 1) ->
  ring_alg_par (ModSpec.usual_isize c) (values_at rep (fun i : 'I_n.+1 => g ^+ i))
    (QuotientRing c (PolyEucl A) v) (VectorRing c n.+1 A).
Proof.
move=> hA sA n g v hg hv; apply: values_same => //; first exact: powers_inj.
by rewrite (powers_prod hg).
Qed.
