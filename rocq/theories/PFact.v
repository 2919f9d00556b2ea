(** * PFact.v -- factorizations into irreducible elements. *)

From Coq Require Import ZArith Lia List Permutation Znumtheory.
From mathcomp Require Import all_ssreflect all_algebra ssrZ zify.
From Verif Require Import Rust Traits MInts MConstr Wp Spec PropSpec RingSpec PDefaults Quotient NumSpec.
From Verif Require Import RingTac PPoly PQuot PLaws Laws PInts PIntsZ PGcdLaw TowerSpec PTower PDegree PModular.
From Verif Require Import FFSpec IrrSpec PIrr PIrr2 FactSpec.

Set Implicit Arguments.
Unset Strict Implicit.
Unset Printing Implicit Defensive.

Import GRing.Theory.
Local Open Scope ring_scope.

Section Unique.
Variables (R : idomainType) (S : eucl_struct R).

Definition assoc (a b : R) : Prop := dvds a b /\ dvds b a.
Definition prod_of (us : seq R) : R := foldr *%R 1 us.

Lemma irr_prime (g a b : R) : irreducible_elt g -> dvds g (a * b) -> ~ dvds g a -> dvds g b.
Proof.
move=> gi gab na; have [g0 gu _] := gi.
have [s [t h]] := @irr_coprime R S (@IrrModulus R (@Modulus R g g0 gu) gi) a na.
rewrite -[b]mul1r -h mulrDl -mulrA; apply: dvds_add.
  by rewrite /= mulrCA; apply: dvds_mulr; exact: dvds_refl.
by rewrite -mulrA; exact: dvds_mull.
Qed.

Lemma irr_assoc (g v : R) : irreducible_elt g -> irreducible_elt v -> dvds g v -> assoc g v.
Proof.
move=> [g0 gu _] [_ _ hv] [c vE]; have [cu|h] := hv _ _ vE; last by rewrite h in gu.
by split; [exists c|exists c^-1; rewrite vE mulrA mulVr // mul1r].
Qed.

Lemma unit_dvds1 (a : R) : dvds a 1 -> a \is a GRing.unit.
Proof. by move=> [c h]; apply/unitrP; exists c; split; rewrite // mulrC. Qed.

Lemma dvds_rem (g a : R) : g != 0 -> dvds g a <-> erem S a g = 0.
Proof.
move=> g0; split=> [[c ->]|h]; first by rewrite -[c * g]add0r e_canon // e_rem0.
by rewrite {1}(e_div S a g0) h addr0; exists (equo S a g).
Qed.

(** An irreducible divisor of a product of irreducible elements is one of them, up to a
    unit. *)
Lemma irr_split (g : R) vs : irreducible_elt g -> Forall (@irreducible_elt R) vs ->
  dvds g (prod_of vs) -> exists v1 v v2, vs = v1 ++ v :: v2 /\ assoc g v.
Proof.
move=> gi; have [g0 gu _] := gi; elim: vs => [|v vs IH] hv /= gd.
  by rewrite (unit_dvds1 gd) in gu.
move: (Forall_inv hv) (Forall_inv_tail hv) => vi vsi.
have [/eqP/(dvds_rem _ g0) h|/eqP nv] := boolP (erem S v g == 0).
  by exists [::], v, vs; split=> //; exact: irr_assoc.
have {}nv : ~ dvds g v by move=> /(dvds_rem _ g0).
have [v1 [w [v2 [-> h]]]] := IH vsi (irr_prime gi gd nv).
by exists (v :: v1), w, v2.
Qed.

Lemma prod_of_split v1 (v : R) v2 : prod_of (v1 ++ v :: v2) = v * prod_of (v1 ++ v2).
Proof. by elim: v1 => [|w v1 IH] //=; rewrite IH mulrCA. Qed.

Lemma assoc_cancel (u v a b : R) : u != 0 -> assoc u v -> assoc (u * a) (v * b) -> assoc a b.
Proof.
move=> u0 [/dvds_anti h /h[c cu ->]] [h1 h2]; split.
  apply: (@dvds_cancel _ _ _ u u0); apply: dvds_trans h1 _.
  by exists c^-1; rewrite mulrA [c * u]mulrC -!mulrA mulrCA [c^-1 * _]mulrA mulVr // mul1r.
apply: (@dvds_cancel _ _ _ u u0); apply: dvds_trans h2; exists c.
by rewrite mulrA.
Qed.

(** Two factorizations of associates match up to order and units. *)
Variables (E : Type) (rep : E -> R -> Prop).
Lemma unique_math xs us ys vs : Forall2 rep xs us -> Forall2 rep ys vs ->
  Forall (@irreducible_elt R) us -> Forall (@irreducible_elt R) vs ->
  assoc (prod_of us) (prod_of vs) ->
  exists2 zs, Permutation zs ys & Forall2 (fun x z => exists u v, [/\ rep x u, rep z v & assoc u v]) xs zs.
Proof.
move=> h; elim: h ys vs => {xs us} [|x u xs us xu _ IH] ys vs hy hu hv.
  case: hy hv => [|y v ys' vs' yv _] hv [h1 h2]; first by exists [::].
  have [_ /negP[]] := Forall_inv hv; apply: unit_dvds1; apply: dvds_trans h2.
  by rewrite /= mulrC; exists (prod_of vs').
move: (Forall_inv hu) (Forall_inv_tail hu) => /= ui usi h.
have ud : dvds u (prod_of vs).
  by apply: dvds_trans h.1; exists (prod_of us); rewrite mulrC.
have [v1 [v [v2 [vE uv]]]] := irr_split ui hv ud; rewrite vE in hy hv h.
have [y1 [y2' [hy1 [hy2 yE]]]] := Forall2_app_inv_r _ _ hy.
inversion hy2 as [|y v' y2 v2' yv hy3]; subst.
move: hv => /Forall_app[hv1 hv2].
have [] := IH (y1 ++ y2) (v1 ++ v2) (Forall2_app hy1 hy3) usi.
- by apply/Forall_app; split=> //; exact: Forall_inv_tail hv2.
- have [u0 _ _] := ui; apply: (assoc_cancel u0 uv); rewrite -prod_of_split; exact: h.
move=> zs pz hz; exists (y :: zs).
  by apply: Permutation_trans (Permutation_middle _ _ _); constructor.
by constructor=> //; exists u, v.
Qed.

(** Existence, if reducible elements can be split into smaller ones. *)
Lemma exists_math (f : R -> nat) :
  (forall a : R, a != 0 -> a \isn't a GRing.unit -> irreducible_elt a \/
     exists b c, [/\ a = b * c, b \isn't a GRing.unit, c \isn't a GRing.unit &
                      (f b < f a)%N /\ (f c < f a)%N]) ->
  forall a : R, a != 0 -> a \isn't a GRing.unit ->
  exists2 us, Forall (@irreducible_elt R) us & a = prod_of us.
Proof.
move=> hs a; have [n] := ubnP (f a); elim: n a => // n IH a fa a0 au.
have [ai|[b [c [aE bu cu [fb fc]]]]] := hs _ a0 au.
  by exists [:: a]; [constructor|rewrite /= mulr1].
have [b0 c0] : b != 0 /\ c != 0 by move: a0; rewrite aE mulf_eq0 negb_or => /andP.
have [us hu bE] := IH b (leq_trans fb fa) b0 bu.
have [vs hv cE] := IH c (leq_trans fc fa) c0 cu.
exists (us ++ vs); first by apply/Forall_app.
rewrite aE bE cE; elim: us {hu bE} => [|u us IHu] /=; first by rewrite mul1r.
by rewrite -IHu mulrA.
Qed.
End Unique.

Section Calls.
Variables (cfg : Cfg) (p : Prop) (E : Type) (R : idomainType) (rep : E -> R -> Prop).
Variables (AS : assoc_struct R) (S : eucl_struct R) (A : EuclAlg E).
Hypothesis hA : eucl_alg_spec cfg p rep AS S A.
Let hR := id_ring_ok (eu_idom_ok hA).

Lemma product_ok xs us : Forall2 rep xs us -> gives p rep (product A xs) (prod_of us).
Proof.
elim=> [|x u xs' us' xu _ IH] /=; first exact: one_ok (mo_mo_ok (ri_mon_ok hR)).
apply: ensures_bind IH _ => z zE.
by have := mul_ok (mo_sg_ok (ri_mon_ok hR)) xu zE.
Qed.

(** If [associates] answers true for the products of two lists of irreducible members,
    the lists match up to order and associates. *)
Lemma factors_unique xs us ys vs : Forall2 rep xs us -> Forall2 rep ys vs ->
  Forall (@irreducible_elt R) us -> Forall (@irreducible_elt R) vs ->
  returns (let! a := product A xs in let! b := product A ys in associates A a b) true ->
  exists2 zs, Permutation zs ys & Forall2 (fun x z => holds p (associates A x z)) xs zs.
Proof.
move=> hx hy hu hv ht.
have hE : decides p (let! a := product A xs in let! b := product A ys in associates A a b)
    (assoc (prod_of us) (prod_of vs)).
  apply: ensures_bind (product_ok hx) _ => a aE; apply: ensures_bind (product_ok hy) _ => b bE.
  by have := associates_ok (id_id_ok (eu_idom_ok hA)) aE bE.
have [zs pz hz] := unique_math S hx hy hu hv ((ensures_value hE ht).1 isT).
exists zs => //; elim: hz => {pz} [|x z xs' zs' [u [v [xu zv uv]]] _ IH]; constructor=> //.
apply: ensures_mono (associates_ok (id_id_ok (eu_idom_ok hA)) xu zv) _ => r hr.
by apply/hr.
Qed.
End Calls.

Section Exists.
Variables (cfg : Cfg) (E : Type) (R : idomainType) (rep : E -> R -> Prop).
Variables (AS : assoc_struct R) (S : eucl_struct R) (A : EuclAlg E).
Hypothesis hA : eucl_alg_spec cfg False rep AS S A.
Hypothesis surj : forall u, exists x, rep x u.

Lemma factors_from (x : E) (us : seq R) : rep x (prod_of us) -> Forall (@irreducible_elt R) us ->
  exists2 xs, Forall (fun y => exists2 u, rep y u & irreducible_elt u) xs &
    returns (let! z := product A xs in equals A z x) true.
Proof.
move=> xE hu; have [xs h] : exists xs, Forall2 rep xs us.
  elim: us {xE hu} => [|u us [xs h]]; first by exists [::].
  by have [y yu] := surj u; exists (y :: xs); constructor.
exists xs.
  elim: h hu => {xE xs us} [|y u xs us yu _ IH] hu; constructor.
    by exists u; [|exact: Forall_inv hu].
  by apply: IH; exact: Forall_inv_tail hu.
have : answers False (let! z := product A xs in equals A z x) true.
  apply: ensures_bind (product_ok hA h) _ => z zE.
  have hD := mo_dom_ok (ri_mon_ok (id_ring_ok (eu_idom_ok hA))).
  by have := equals_ok hD zE xE; rewrite eqxx.
by case=> [[b [rb <-]]|[[]]].
Qed.
End Exists.
