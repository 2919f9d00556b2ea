(** * PRCount.v -- the number of roots of a polynomial in a finite field. *)

From Coq Require Import ZArith Lia List.
From mathcomp Require Import all_ssreflect all_algebra ssrZ zify.
From Verif Require Import Rust Traits MInts MConstr Wp Spec PropSpec RingSpec PDefaults Quotient Laws EvalLaw.
From Verif Require Import PPoly PLaws PEval TowerSpec PTower PWilson RCountSpec.

Set Implicit Arguments.
Unset Strict Implicit.
Unset Printing Implicit Defensive.

Import GRing.Theory.
Local Open Scope ring_scope.

Lemma forall2_set (E : Type) (F : ringType) (rep : E -> F -> Prop) z c v s i y b :
  rep z c -> rep y b -> Forall2 rep v s -> Forall2 rep (set_nth z v i y) (set_nth c s i b).
Proof.
move=> z0 yb h; elim: h i => [|x u v' s' xu h IH] [|i] /=; try by repeat constructor.
  rewrite /set_nth /=; constructor=> //; elim: i => [|i IH] /=; first by repeat constructor.
  by constructor.
Qed.
Lemma forall2_nseq (E : Type) (F : ringType) (rep : E -> F -> Prop) z c n :
  rep z c -> Forall2 rep (nseq n z) (nseq n c).
Proof. by move=> zc; elim: n => [|n IH] /=; constructor. Qed.

Section Code.
Variables (cfg : Cfg) (E : Type) (F : fieldType) (rep : E -> F -> Prop) (A : FieldAlg E) (k : nat).
Hypothesis hA : finite_field cfg rep A k.
Let hF := finite_field_contract hA.
Let hk : enumerated rep k.
Proof. by case: (finite_field_ok hA). Qed.
Let hr := id_ring_ok (eu_idom_ok (fi_eucl_ok hF)).
Let k1 := k_gt1 hk.
Let mem x := exists u, rep x u.
Let fn x u v : rep x u -> rep x v -> u = v.
Proof. exact: finite_field_fun hA x u v. Qed.

Lemma field_polyE : polyseq ('X^k - 'X : {poly F}) =
  set_nth 0 (set_nth 0 (nseq k.+1 0) 1 (-1)) k 1.
Proof.
have sX : size ('X^k - 'X : {poly F}) = k.+1.
  by rewrite size_addl size_polyXn // size_opp size_polyX.
apply: (@eq_from_nth _ 0).
  by rewrite sX !size_set_nth size_nseq; move: k1; rewrite /maxn; do 2?case: ifP; lia.
move=> i _; rewrite coefB coefXn coefX; set t := nseq _ _.
have tE j : t`_j = 0 by rewrite nth_nseq if_same.
move: t tE => t tE; rewrite nth_set_nth /= nth_set_nth /= tE.
case: eqP => [->|_] /=; first by rewrite gtn_eqF // subr0.
by case: eqP => _ /=; rewrite ?subr0 ?sub0r.
Qed.
Lemma field_poly_ok : gives False (poly_of rep) (field_poly A k) ('X^k - 'X : {poly F}).
Proof.
apply: ensures_bind (zero_ok (ri_cm_ok hr)) _ => z zE.
apply: ensures_bind (one_ok (mo_mo_ok (ri_mon_ok hr))) _ => o oE.
have hn : gives False rep (neg A o) (- 1) by have := neg_ok (ri_ab_ok hr) oE.
apply: ensures_bind hn _ => n nE; apply: ensures_ret; rewrite /poly_of field_polyE.
by do 2!apply: forall2_set => //; exact: forall2_nseq.
Qed.

Lemma members_of (rs : seq F) : uniq rs ->
  exists xs, [/\ NoDup xs, length xs = size rs &
    forall x, In x xs <-> exists2 u, u \in rs & rep x u].
Proof.
have [inj surj _] := hk; elim: rs => [|u rs IH] /=.
  by exists [::]; split=> //; [constructor|move=> x; split=> // -[]].
move=> /andP[ur /IH [xs [nd sz h]]]; have [y yu] := surj u; exists (y :: xs); split.
- by constructor=> // /h[v vr yv]; move: ur; rewrite (fn yu yv) vr.
- by rewrite /= sz.
move=> x /=; split=> [[<-|/h[v vr xv]]|[v]].
- by exists u; rewrite ?inE ?eqxx.
- by exists v; rewrite // inE vr orbT.
- by rewrite inE => /orP[/eqP-> xu|vr xv]; [left; exact: inj yu xu|right; apply/h; exists v].
Qed.

Lemma gcd_roots (P D : {poly F}) : is_gcd (P : poly_idomainType F) ('X^k - 'X) D ->
  exists rs : seq F, [/\ uniq rs, (size D).-1 = size rs & forall u, (u \in rs) = root P u].
Proof.
have [_ _ [s [us ss hs]]] := hk.
case=> [[c1 cP]] [c2 cX] hg.
have d1 : D %| P by rewrite cP; exact: dvdp_mull.
have d2 : D %| \prod_(u <- s) ('X - u%:P) by rewrite (all_linear hk us hs) cX; exact: dvdp_mull.
have [m e] := dvdp_prod_XsubC d2; exists (mask m s); split; first exact: mask_uniq.
  by rewrite (eqp_size e) size_prod_XsubC.
move=> u; have <- : root D u = (u \in mask m s) by rewrite (eqp_root e) root_prod_XsubC.
apply/idP/idP => [h|h]; first by rewrite cP rootM h orbT.
have [q ->] : dvds ('X - u%:P : poly_idomainType F) D.
  apply: hg; first by have [q ->] := factor_theorem _ _ h; exists q.
  suff /factor_theorem[q ->] : root ('X^k - 'X : {poly F}) u by exists q.
  by rewrite -(all_linear hk us hs) root_prod_XsubC.
by rewrite rootM root_XsubC eqxx orbT.
Qed.

Lemma root_count_ok v (P : {poly F}) : poly_of rep v P ->
  ensures False (root_count A k v)
    (fun n => has_members (fun x => mem x /\ returns (is_root A v x) true) n).
Proof.
move=> vP; apply: ensures_bind field_poly_ok _ => f fE.
apply: ensures_bind (gcd_ok (eu_eu_ok (PolyEucl_ok hF)) vP fE) _ => g [D gD hD].
apply: ensures_ret; have [rs [ur sz h]] := gcd_roots hD.
have [xs [nd sx hx]] := members_of ur; exists xs; split=> //; first by rewrite sx (reps_size gD) sz.
have rootE x u : rep x u -> returns (is_root A v x) true <-> root P u.
  move=> xu; have [[b [rb e]]|[[]]] := is_root_ok hr vP xu; rewrite e in rb.
  by split=> [/(returns_det rb)|ru]; rewrite -?ru // in rb *; case: (root P u) rb.
move=> x; apply: iff_trans (hx x) _; split=> [[u]|[[u xu]]].
  by rewrite h => ru xu; split; [exists u|apply/(rootE _ _ xu)].
by move/(rootE _ _ xu) => ru; exists u; rewrite ?h.
Qed.

Lemma no_roots v (P : {poly F}) : poly_of rep v P ->
  decides False (let! n := root_count A k v in ret (0 < n)%N)
    (exists2 x, mem x & returns (is_root A v x) true).
Proof.
move=> vP; apply: ensures_bind (root_count_ok vP) _ => n [xs [nd <- h]]; apply: ensures_ret.
case: xs h {nd} => [|x xs] h /=; split=> //.
  by case=> x hx rx; case/(h x): (conj hx rx).
by move=> _; have [|hx rx] := (h x).1; [left|exists x].
Qed.
End Code.
