(** * PWilson.v -- the product of all elements of a finite field, and of all linear
    polynomials over it. *)

From Coq Require Import ZArith Lia List Permutation Znumtheory.
From mathcomp Require Import all_ssreflect all_algebra ssrZ zify.
From Verif Require Import Rust Traits MInts MConstr Wp Spec PropSpec RingSpec PDefaults Quotient NumSpec.
From Verif Require Import PPoly PQuot PLaws Laws PInts PIntsZ TowerSpec PTower FactSpec PFact PModular ZFacts.

Set Implicit Arguments.
Unset Strict Implicit.
Unset Printing Implicit Defensive.

Import GRing.Theory.
Local Open Scope ring_scope.

Section Math.
Variables (E : Type) (F : fieldType) (rep : E -> F -> Prop) (k : nat).
Hypothesis hk : enumerated rep k.

Lemma members_uniq xs us : NoDup xs -> Forall2 rep xs us -> uniq us.
Proof.
have [inj _ _] := hk; move=> hx h; elim: h hx => {xs us} [|x u xs us xu h IH] // hx.
inversion hx as [|x' l nx nxs]; subst; rewrite /= IH // andbT; apply/negP => ui; apply: nx.
elim: h ui {IH nxs hx} => {xs us} [|y v xs us yv h IH] //=; rewrite inE => /orP[/eqP uv|/IH]; last by right.
by left; rewrite uv in xu; exact: inj yv xu.
Qed.

Lemma members_cover xs us u : (forall x, rep x u -> In x xs) -> Forall2 rep xs us ->
  (forall x u v, rep x u -> rep x v -> u = v) -> u \in us.
Proof.
have [_ surj _] := hk; have [x xu] := surj u => /(_ x xu) hi h fn; elim: h hi => {xs us} [|y v xs us yv h IH] //=.
by rewrite inE => -[yx|/IH ->]; rewrite ?orbT // (fn _ _ _ (eq_ind _ (fun z => rep z v) yv _ yx) xu) eqxx.
Qed.

Lemma all_size us : uniq us -> (forall u : F, u \in us) -> size us = k.
Proof.
move=> uu hu; have [_ _ [s [us' ss hs]]] := hk; rewrite -ss.
by apply: perm_size; apply: uniq_perm => // u; rewrite hu hs.
Qed.

Lemma k_gt1 : (1 < k)%N.
Proof.
have [_ _ [s [us ss hs]]] := hk; rewrite -ss.
have h : uniq [:: (0 : F); 1] by rewrite /= inE eq_sym oner_neq0.
by apply: (uniq_leq_size h) => u _; exact: hs.
Qed.

Lemma all_linear us : uniq us -> (forall u : F, u \in us) ->
  \prod_(u <- us) ('X - u%:P) = 'X^k - 'X :> {poly F}.
Proof.
move=> uu hu; have sk := all_size uu hu; have k1 := k_gt1.
have sX : size ('X^k - 'X : {poly F}) = k.+1.
  by rewrite size_addl size_polyXn // size_opp size_polyX.
have h := @all_roots_prod_XsubC F ('X^k - 'X) us.
rewrite [RHS]h; last by rewrite uniq_rootsE.
- rewrite lead_coefE sX /= coefB coefXn eqxx coefX gtn_eqF // subr0 scale1r //.
- by rewrite sX sk.
- apply/allP => u _; rewrite /root !hornerE hornerXn (enumerated_fermat hk) subrr //.
Qed.

(** Wilson *)
Lemma all_nonzero us : uniq us -> (forall u : F, (u \in us) = (u != 0)) ->
  \prod_(u <- us) u = -1.
Proof.
move=> uu hu; have u0 : uniq (0 :: us) by rewrite /= hu eqxx.
have hall u : u \in 0 :: us by rewrite inE hu orbN.
have := all_linear u0 hall; rewrite big_cons subr0 => h.
have k1 := k_gt1; have h2 : \prod_(u <- us) ('X - u%:P) = 'X^(k.-1) - 1 :> {poly F}.
  apply: (@mulfI _ 'X); first by rewrite polyX_eq0.
  by rewrite h mulrBr mulr1 -exprS prednK // ltnW.
have := congr1 (fun P => P.[0]) h2; rewrite horner_prod !hornerE hornerXn.
rewrite expr0n (_ : k.-1 == 0%N = false); last by move: k1; case: (k) => [|[]].
rewrite sub0r => <-.
rewrite [RHS](eq_bigr (fun u => - u)); last by move=> u _; rewrite !hornerE.
rewrite -[RHS](big_map (fun u => - u) xpredT (fun u => u)).
apply: perm_big; apply: uniq_perm => //.
  by rewrite map_inj_uniq //; exact: oppr_inj.
move=> u; rewrite hu; apply/idP/mapP => [n0|[v]]; last by rewrite hu => v0 ->; rewrite oppr_eq0.
by exists (- u); rewrite ?hu ?oppr_eq0 ?opprK.
Qed.
End Math.

Section Calls.
Variables (cfg : Cfg) (E : Type) (F : fieldType) (rep : E -> F -> Prop) (A : FieldAlg E) (k : nat).
Hypothesis hA : finite_field cfg rep A k.
Let hk : enumerated rep k := let: conj _ h := finite_field_ok hA in h.
Let hF := finite_field_contract hA.
Let hR := id_ring_ok (eu_idom_ok (fi_eucl_ok hF)).
Let fn := finite_field_fun hA.

Lemma prod_ofE (R : idomainType) (us : seq R) : prod_of us = \prod_(u <- us) u.
Proof. by elim: us => [|u us IH] /=; rewrite ?big_nil // big_cons IH. Qed.

Lemma list_values (P : E -> Prop) xs : (forall x, In x xs <-> (exists u, rep x u) /\ P x) ->
  exists us, Forall2 rep xs us.
Proof.
move=> h; have {h} : forall x, In x xs -> exists u, rep x u by move=> x /h[].
elim: xs => [|x xs IH] h; first by exists [::].
have [u xu] := h x (or_introl erefl).
by have [us hu] := IH (fun y hy => h y (or_intror hy)); exists (u :: us); constructor.
Qed.

Lemma wilson xs : NoDup xs ->
  (forall x, In x xs <-> (exists u, rep x u) /\ returns (is_zero A x) false) ->
  returns (let! z := product A xs in let! o := one A in let! s := add A z o in is_zero A s) true.
Proof.
move=> nd hx; have [us hu] := list_values hx.
have iz x u : rep x u -> answers False (is_zero A x) (u == 0).
  by move=> xu; have := is_zero_ok (ri_cm_ok hR) xu.
have hus u : (u \in us) = (u != 0).
  apply/idP/idP => [ui|u0].
    have [x [xu /hx[_ rz]]] : exists x, rep x u /\ In x xs.
      elim: hu ui {nd hx} => {xs us} [|y v xs us yv h IH] //=; rewrite inE => /orP[/eqP->|/IH[x [h1 h2]]].
        by exists y; split=> //; left.
      by exists x; split=> //; right.
    by rewrite -(ensures_value (iz _ _ xu) rz).
  apply: (members_cover hk _ hu fn) => x xu; apply/hx; split; first by exists u.
  by have [[b [rb bE]]|[[]]] := iz _ _ xu; rewrite bE (negbTE u0) in rb.
suff : answers False (let! z := product A xs in let! o := one A in let! s := add A z o in is_zero A s) true.
  by case=> [[b [rb <-]]|[[]]].
apply: ensures_bind (product_ok (fi_eucl_ok hF) hu) _ => z.
rewrite prod_ofE (all_nonzero hk (members_uniq hk nd hu) hus) => zE.
apply: ensures_bind (one_ok (mo_mo_ok (ri_mon_ok hR))) _ => o oE.
apply: ensures_bind (add_ok (ri_cm_ok hR) zE oE) _ => s sE.
by have := iz _ _ sE; rewrite addNr eqxx.
Qed.

(** The product of x - a over all members a is x^k - x. *)
Lemma linear_ok x u : rep x u ->
  gives False (poly_of rep) (let! n := neg A x in let! o := one A in ret [:: n; o]) ('X - u%:P : {poly F}).
Proof.
move=> xu; have hn : gives False rep (neg A x) (- u) by have := neg_ok (ri_ab_ok hR) xu.
apply: ensures_bind hn _ => n nE.
apply: ensures_bind (one_ok (mo_mo_ok (ri_mon_ok hR))) _ => o oE.
by apply: ensures_ret; rewrite /poly_of polyseqXsubC; do 2?constructor=> //.
Qed.

Lemma all_factors xs ys : NoDup xs -> (forall x, In x xs <-> exists u, rep x u) ->
  Forall2 (fun x y => returns (let! n := neg A x in let! o := one A in ret [:: n; o]) y) xs ys ->
  exists2 v, returns (product (PolyEucl A) ys) v & poly_of rep v ('X^k - 'X : {poly F}).
Proof.
move=> nd hx hy; have hx' x : In x xs <-> (exists u, rep x u) /\ True.
  by apply: (iff_trans (hx x)); split=> [h|[]].
have [us hu] := list_values hx'.
have hP : Forall2 (poly_of rep) ys [seq 'X - u%:P | u <- us].
  elim: hu ys hy {nd hx hx'} => {xs us} [|x u xs us xu _ IH] ys hy.
    by inversion hy; constructor.
  inversion hy as [|x' y xs' ys' hxy hys]; subst; constructor; last exact: IH.
  exact: ensures_value (linear_ok xu) hxy.
have hus u : u \in us.
  by apply: (members_cover hk _ hu fn) => x xu; apply/hx; exists u.
have [[v [rv vP]]|[[]]] := product_ok (PolyEucl_ok hF) hP.
exists v => //; move: vP; rewrite (@prod_ofE (poly_idomainType F)) big_map.
by rewrite (all_linear hk (members_uniq hk nd hu) hus).
Qed.
End Calls.

(** (q-1)! + 1 is divisible by the prime q. *)
Lemma factorial_prime cfg (q : Z) : Znumtheory.prime q ->
  returns (let! z := product (QuotientField cfg ZZ q) (List.map Z.of_nat (List.seq 1 (Z.to_nat q).-1)) in
           let! o := one (QuotientField cfg ZZ q) in
           let! s := add (QuotientField cfg ZZ q) z o in is_zero (QuotientField cfg ZZ q) s) true.
Proof.
move=> hq; have hA := FF_prime cfg hq; have q2 := prime_ge_2 _ hq.
pose md := prime_field hq; have q0 : q <> Z0 by lia.
have hR := id_ring_ok (eu_idom_ok (fi_eucl_ok (finite_field_contract hA))).
apply: (wilson hA).
  apply: FinFun.Injective_map_NoDup; last exact: seq_NoDup.
  by move=> a b; exact: Nat2Z.inj.
have mem x : (exists u, @qf_rep Z [idomainType of Z] zz_rep Z_eucl md x u) <-> Z.le 0 x /\ Z.lt x q.
  split=> [[u xu]|[h1 h2]].
    have := qvalE u; rewrite -(xu : x = qval u) => h.
    by have := zrem_bound x q q0; rewrite (h : zrem x q = x); lia.
  have hc : erem Z_eucl (x : [idomainType of Z]) md == x.
    by apply/eqP; apply: (proj2 (zrem_self _ _ q0)); lia.
  by exists (Quot hc).
have iz x : (exists u, @qf_rep Z [idomainType of Z] zz_rep Z_eucl md x u) ->
    returns (is_zero (QuotientField cfg ZZ q) x) false <-> x <> Z0.
  move=> [u xu]; have hz := is_zero_ok (ri_cm_ok hR) xu.
  have xE : (u == 0) = (x == Z0).
    by rewrite -qval_eq0 -(xu : x = qval u).
  split=> [rz x0|x0]; first by have := ensures_value hz rz; rewrite xE x0.
  by have [[b [rb bE]]|[[]]] := hz; rewrite bE xE (introF eqP x0) in rb.
move=> x; rewrite in_map_iff; split=> [[n [<- /in_seq hn]]|[hm rz]].
  have hm := (mem (Z.of_nat n)).2 ltac:(lia); split=> //.
  by apply: (iz _ hm).2; lia.
have x0 := (iz _ hm).1 rz; move/mem: hm => hm; exists (Z.to_nat x); split; first lia.
by apply/in_seq; lia.
Qed.
