(** * PTower.v -- every structure of TowerSpec.v meets its contract, and the number of
    elements of the finite fields. *)

From Coq Require Import ZArith Znumtheory Lia List.
From mathcomp Require Import all_ssreflect all_algebra fraction ssrZ zify.
From Verif Require Import Rust Traits MInts MConstr RingTac Wp Spec PropSpec RingSpec NumSpec Laws.
From Verif Require Import PDefaults PEucl ZFacts PIntsZ PInts POrders Quotient PQuot PModular PFrac.
From Verif Require Import PFracProps PVec PPolyA PPoly PMat PLaws PLaws2 PWeaken TowerSpec.

Set Implicit Arguments.
Unset Strict Implicit.
Unset Printing Implicit Defensive.

Import GRing.Theory.
Local Open Scope ring_scope.

Scheme tower_field_ind2 := Induction for tower_field Sort Prop
with tower_eucl_ind2 := Induction for tower_eucl Sort Prop.
Combined Scheme tower_field_eucl_ind from tower_field_ind2, tower_eucl_ind2.

Section Contracts.
Variables (cfg : Cfg) (p : Prop).

Lemma tower_field_eucl :
  (forall E F rep A, @tower_field cfg p E F rep A -> field_alg_spec cfg p rep A) /\
  (forall E R rep AS S A, @tower_eucl cfg p E R rep AS S A -> eucl_alg_spec cfg p rep AS S A).
Proof.
apply: (tower_field_eucl_ind
  (P := fun E F rep A _ => field_alg_spec cfg p rep A)
  (P0 := fun E R rep AS S A _ => eucl_alg_spec cfg p rep AS S A)).
- exact: BB_ok.
- move=> w m w4 m_in m_small.
  by apply: (@field_alg_weaken cfg False p) => //; exact: (QuotientField_small cfg w4 m_in m_small).
- by move=> E R rep AS S A m modulo _ hA hm; exact: (QuotientField_ok hA hm).
- by move=> E R rep AS S A _ hA; exact: (reduced_fractions_contract hA).
- exact: ZZ_ok.
- by move=> w pp w2; apply: (@eucl_alg_weaken cfg True p) => //; exact: (CheckedInts_ok cfg w2).
- by move=> E F rep A _ [].
- by move=> E F rep A _ hA; exact: PolyEucl_ok.
Qed.

Lemma tower_field_contract E F rep A :
  @tower_field cfg p E F rep A -> field_alg_spec cfg p rep A.
Proof. exact: tower_field_eucl.1. Qed.
Lemma tower_eucl_contract E R rep AS S A :
  @tower_eucl cfg p E R rep AS S A -> eucl_alg_spec cfg p rep AS S A.
Proof. exact: tower_field_eucl.2. Qed.

Lemma tower_idom_contract E R rep AS A :
  @tower_idom cfg p E R rep AS A -> idom_alg_spec cfg p rep AS A.
Proof.
elim=> {E R rep AS A} [E R rep AS S A /tower_eucl_contract/eu_idom_ok //|E R rep AS A _ hA].
exact: PolyIDom_ok.
Qed.

Lemma tower_ring_contract (hc : Z.le (Zpos (xO xH)) (ptr_bits cfg)) E V rep op e A :
  @tower_ring cfg p E V rep op e A -> ring_alg_spec cfg p rep op e A.
Proof.
elim=> {E V rep op e A}.
- by move=> E R rep AS A /tower_idom_contract/id_ring_ok.
- by move=> E R rep AS S A m modulo /tower_eucl_contract hA hm; exact: QuotientRing_ok hA m modulo hm.
- by move=> E F rep A n /tower_field_contract hA; exact: (MatrixRing_ok hA n hc).
- by move=> E V rep op e A n _ hA; exact: VectorRing_ok.
Qed.

(** The laws. *)
Lemma tower_field_laws (hc : Z.le (Zpos (xO xH)) (ptr_bits cfg)) E F rep A :
  @tower_field cfg p E F rep A -> field_alg_laws p (fun x => exists u, rep x u) cfg A.
Proof. by move=> /tower_field_contract hA; exact: (field_alg_laws_ok hc (fun x h => h) hA). Qed.
Lemma tower_eucl_laws (hc : Z.le (Zpos (xO xH)) (ptr_bits cfg)) E R rep AS S A :
  @tower_eucl cfg p E R rep AS S A -> eucl_alg_laws p (fun x => exists u, rep x u) cfg A.
Proof. by move=> /tower_eucl_contract hA; exact: (eucl_alg_laws_ok hc (fun x h => h) hA). Qed.
Lemma tower_idom_laws (hc : Z.le (Zpos (xO xH)) (ptr_bits cfg)) E R rep AS A :
  @tower_idom cfg p E R rep AS A -> idom_alg_laws p (fun x => exists u, rep x u) cfg A.
Proof. by move=> /tower_idom_contract hA; exact: (idom_alg_laws_ok hc (fun x h => h) hA). Qed.

(** The products of the rings are associative, unital and distributive. *)
Lemma tower_ring_facts E V rep op e A : @tower_ring cfg p E V rep op e A ->
  [/\ associative op, left_id e op, right_id e op, left_distributive op +%R &
      right_distributive op +%R].
Proof.
elim=> {E V rep op e A}.
- by move=> E R rep AS A _; split; [exact: mulrA|exact: mul1r|exact: mulr1|exact: mulrDl|exact: mulrDr].
- by move=> E R rep AS S A m modulo _ _; split; [exact: mulrA|exact: mul1r|exact: mulr1|exact: mulrDl|exact: mulrDr].
- move=> E F rep A n _; split.
  + by move=> a b c; exact: mulmxA.
  + by move=> a; exact: mul1mx.
  + by move=> a; exact: mulmx1.
  + by move=> a b c; exact: mulmxDl.
  + by move=> a b c; exact: mulmxDr.
- move=> E V rep op e A n _ [h1 h2 h3 h4 h5]; split.
  + by move=> f g h; apply/ffunP => i; rewrite !ffunE h1.
  + by move=> f; apply/ffunP => i; rewrite !ffunE h2.
  + by move=> f; apply/ffunP => i; rewrite !ffunE h3.
  + by move=> f g h; apply/ffunP => i; rewrite !ffunE h4.
  + by move=> f g h; apply/ffunP => i; rewrite !ffunE h5.
Qed.
Lemma tower_ring_laws (hc : Z.le (Zpos (xO xH)) (ptr_bits cfg)) E V rep op e A :
  @tower_ring cfg p E V rep op e A -> ring_alg_laws p (fun x => exists u, rep x u) cfg A.
Proof.
move=> hA; have [h1 h2 h3 h4 h5] := tower_ring_facts hA.
exact: (ring_alg_laws_ok hc (fun x h => h) h1 h2 h3 h5 h4 (tower_ring_contract hc hA)).
Qed.
End Contracts.

(** ** Finite fields *)

(** [rep] is a bijection between the members and [F], which has [k] elements. *)
Definition enumerated (E : Type) (F : fieldType) (rep : E -> F -> Prop) (k : nat) : Prop :=
  [/\ forall x y u, rep x u -> rep y u -> x = y,
      forall u, exists x, rep x u &
      exists s : seq F, [/\ uniq s, size s = k & forall u, u \in s]].

Lemma enumerated_members (E : Type) (F : fieldType) (rep : E -> F -> Prop) k : (forall x u v, rep x u -> rep x v -> u = v) ->
  @enumerated E F rep k -> has_members (fun x => exists u, rep x u) k.
Proof.
move=> rfun [inj surj [s [us ss hs]]].
have [xs h] : exists xs, Forall2 rep xs s.
  elim: {us ss hs} s => [|u s [xs h]]; first by exists [::].
  by have [x xu] := surj u; exists (x :: xs); constructor.
exists xs; split.
- elim: h us => {xs s ss hs} [|x u xs s xu h IH] /=; first by constructor.
  move=> /andP[us ss]; constructor; last exact: IH.
  move=> xin; case/negP: us.
  elim: h xin => [|y v ys t yv h IH2] //= [yx|yin]; last by rewrite inE IH2 ?orbT.
  by rewrite inE (rfun x u v) ?eqxx // -yx.
- by rewrite -ss; elim: h => //= x u xs' us' _ _ ->.
- move=> x; split=> [xin|[u xu]].
    by elim: h xin => [|y v ys t yv h IH] //= [<-|//]; exists v.
  have := hs u; elim: h => [|y v ys t yv h IH] //=; rewrite inE => /orP[/eqP uv|/IH]; last by right.
  by left; apply: inj yv _; rewrite -uv.
Qed.

Section Extension.
Variables (E : Type) (F : fieldType) (rep : E -> F -> Prop) (k : nat).
Hypothesis hF : enumerated rep k.

(** All sequences of a given length. *)
Fixpoint seqs (s : seq F) (d : nat) : seq (seq F) :=
  if d is d'.+1 then [seq x :: v | x <- s, v <- seqs s d'] else [:: [::]].
Lemma size_seqs s d : size (seqs s d) = (size s ^ d)%N.
Proof. by elim: d => [|d IH] //=; rewrite size_allpairs IH expnS. Qed.
Lemma uniq_seqs s d : uniq s -> uniq (seqs s d).
Proof.
move=> us; elim: d => [|d IH] //=; apply: allpairs_uniq => // -[x v] [y w] _ _ /=.
by case=> -> ->.
Qed.
Lemma mem_seqs s d v : (forall u, u \in s) -> (v \in seqs s d) = (size v == d).
Proof.
move=> hs; elim: d v => [|d IH] v /=; first by rewrite inE; case: v.
apply/allpairsP/idP => [[[x w] [_ /=]]|]; first by rewrite IH => /eqP <- ->.
by case: v => // x v sv; exists (x, v); split=> //=; rewrite IH.
Qed.

Variable m : irr_modulus (poly_idomainType F).
Local Notation mp := (mval m : {poly F}).
Local Notation Q := (@qfield (poly_idomainType F) (poly_estruct F) m).
Local Notation qrep := (@qf_rep (seq E) (poly_idomainType F) (poly_of rep) (poly_estruct F) m).

Lemma erem_small (P : {poly F}) :
  (erem (poly_estruct F) (P : poly_idomainType F) m == P) = (size P < size mp)%N.
Proof.
apply/eqP/idP => [<-|]; last exact: modp_small.
by rewrite /= ltn_modp; exact: m_neq0.
Qed.

Lemma poly_of_inj v w (P : {poly F}) : poly_of rep v P -> poly_of rep w P -> v = w.
Proof.
have [inj _ _] := hF; rewrite /poly_of; move: (polyseq P) => s h.
elim: h w => [|x u xs us xu h IH] w hw; first by inversion hw.
by inversion_clear hw; rewrite (inj _ _ _ xu H) (IH _ H0).
Qed.
Lemma poly_of_surj (P : {poly F}) : exists v, poly_of rep v P.
Proof.
have [_ surj _] := hF; rewrite /poly_of; elim: (polyseq P) => [|u s [v h]].
  by exists [::].
by have [x xu] := surj u; exists (x :: v); constructor.
Qed.

Lemma extension_enumerated :
  @enumerated (seq E) (qfield_fieldType (poly_estruct F) m) qrep (k ^ (size mp).-1).
Proof.
split.
- by move=> x y u; exact: poly_of_inj.
- by move=> u; exact: poly_of_surj.
have [_ _ [s [us ss hs]]] := hF; set d := (size mp).-1.
have dE : size mp = d.+1 by rewrite /d prednK // lt0n size_poly_eq0; exact: m_neq0.
pose f (t : seq F) : Q := qpi (poly_estruct F) m (Poly t : poly_idomainType F).
have fE t : size t = d -> qval (f t) = Poly t.
  move=> st; apply/eqP; rewrite /f /= erem_small dE ltnS -st; exact: size_Poly.
exists [seq f t | t <- seqs s d]; split.
- rewrite map_inj_in_uniq; first exact: uniq_seqs.
  move=> t1 t2; rewrite !mem_seqs // => /eqP s1 /eqP s2 ft.
  have : Poly t1 = Poly t2 by rewrite -!fE // ft.
  move=> h; apply: (@eq_from_nth _ 0); first by rewrite s1 s2.
  by move=> i _; rewrite -(coef_Poly t1) -(coef_Poly t2) h.
- by rewrite size_map size_seqs ss.
- move=> u; apply/mapP; exists (mkseq (fun i => (qval u : {poly F})`_i) d).
    by rewrite mem_seqs // size_mkseq.
  apply: val_inj => /=; rewrite -[RHS]/(qval (f _)) fE ?size_mkseq //.
  apply/polyP => i; rewrite coef_Poly; case: (ltnP i d) => di; first by rewrite nth_mkseq.
  rewrite [RHS]nth_default ?size_mkseq //; apply: nth_default.
  by apply: leq_trans di; rewrite -ltnS -dE -erem_small; exact: qvalP.
Qed.
End Extension.

(** The integers modulo a prime. *)
Lemma prime_enumerated (rep : Z -> Z -> Prop) (q : Z) (hq : Znumtheory.prime q) :
  (forall x u, rep x u -> x = u) -> (forall u, Z.le Z0 u -> Z.lt u q -> rep u u) ->
  @enumerated Z (qfield_fieldType Z_eucl (prime_field hq))
    (@qf_rep Z [idomainType of Z] rep Z_eucl (prime_field hq)) (Z.to_nat q).
Proof.
move=> rE rI; have q2 := prime_ge_2 _ hq.
have qrange (u : qfield Z_eucl (prime_field hq)) : Z.le Z0 (qval u) /\ Z.lt (qval u) q.
  have /eqP h := qvalP u; have [/(_ h) /= h2 _] := zrem_self (qval u) q ltac:(lia).
  lia.
split.
- by move=> x y u /rE -> /rE ->.
- by move=> u; exists (qval u); have [h1 h2] := qrange u; exact: rI.
pose f i : qfield Z_eucl (prime_field hq) :=
  qpi Z_eucl (prime_field hq) (Z.of_nat i : [idomainType of Z]).
have fE i : (i < Z.to_nat q)%N -> qval (f i) = Z.of_nat i.
  move=> iq; apply: (proj2 (zrem_self (Z.of_nat i) q _)); lia.
exists [seq f i | i <- iota 0 (Z.to_nat q)]; split.
- rewrite map_inj_in_uniq ?iota_uniq // => i j; rewrite !mem_iota !add0n /= => iq jq fij.
  have : Z.of_nat i = Z.of_nat j by rewrite -!fE // fij.
  lia.
- by rewrite size_map size_iota.
- move=> u; have [h1 h2] := qrange u; apply/mapP; exists (Z.to_nat (qval u)).
    by rewrite mem_iota add0n /=; move: h1 h2; set z : Z := qval u => h1 h2; apply/ltP; apply/Z2Nat.inj_lt; lia.
  apply: val_inj; rewrite -[RHS]/(qval (f _)) fE; last by lia.
  by rewrite Z2Nat.id.
Qed.

Lemma bb_enumerated : @enumerated bool [fieldType of F2] bb_rep 2.
Proof.
split.
- by move=> [] [] u -> h //; move: (congr1 val h).
- move=> u; exists (u == 1); rewrite /bb_rep; apply: val_inj.
  by case: u => -[|[|]].
exists (enum [finType of F2]); split; first exact: enum_uniq.
  by rewrite -cardE card_Fp.
by move=> u; rewrite mem_enum.
Qed.

Section Finite.
Variable cfg : Cfg.

Lemma finite_field_ok E F rep A k : @finite_field cfg E F rep A k ->
  [/\ field_alg_spec cfg False rep A & enumerated rep k].
Proof.
elim=> {E F rep A k}.
- by split; [exact: BB_ok|exact: bb_enumerated].
- move=> q hq; split.
    by apply: (@QuotientField_ok cfg False Z _ zz_rep _ _ _ (ZZ_ok cfg False) (prime_field hq) q).
  exact: prime_enumerated.
- move=> w q hq w4 qw qs; have q2 := prime_ge_2 _ hq; split.
    by apply: (@QuotientField_small cfg w w4 (prime_field hq)) => //=; rewrite Z.abs_eq //; lia.
  apply: prime_enumerated => [x u []|u u0 uq] //; split=> //.
  move/(in_iP w): qw => qw; apply/(in_iP w); have := @imin_imax w; lia.
- move=> E F rep A k m modulo _ [hA hk] hm; split.
    exact: (@QuotientField_ok cfg False _ _ _ _ _ _ (PolyEucl_ok hA) m modulo hm).
  exact: extension_enumerated.
Qed.
End Finite.

(** ** Fermat *)
Lemma enumerated_fermat (E : Type) (F : fieldType) (rep : E -> F -> Prop) k :
  enumerated rep k -> forall u : F, u ^+ k = u.
Proof.
move=> [_ _ [s [us ss hs]]] u.
have k0 : (0 < k)%N by rewrite -ss; case: (s) (hs 0).
have [->|u0] := eqVneq u 0; first by rewrite expr0n; case: (k) k0.
pose t := filter (predC1 0) s.
have st : size t = k.-1.
  have := count_predC (pred1 0) s; rewrite (count_uniq_mem _ us) hs ss => <-.
  by rewrite size_filter.
have mt a : (a \in t) = (a != 0) by rewrite mem_filter hs andbT.
have ut : uniq t by exact: filter_uniq.
have pt : perm_eq t [seq u * a | a <- t].
  apply: uniq_perm => //; first by rewrite map_inj_uniq //; exact: mulfI.
  move=> a; rewrite mt; apply/idP/mapP => [a0|[b]].
    by exists (u^-1 * a); rewrite ?mulVKf // mt mulf_neq0 ?invr_eq0.
  by rewrite mt => b0 ->; rewrite mulf_neq0.
have P0 : \prod_(a <- t) a != 0.
  by rewrite prodf_seq_neq0; apply/allP => a; rewrite mt /= => ->.
have : \prod_(a <- t) a = u ^+ k.-1 * \prod_(a <- t) a.
  rewrite {1}(perm_big _ pt) /= big_map big_split /= big_const_seq count_predT st.
  by congr (_ * _); elim: (k.-1) => //= j ->; rewrite exprS.
rewrite -{1}[\prod_(a <- t) a]mul1r => /(mulIf P0) h.
by rewrite -(prednK k0) exprS -h mulr1.
Qed.

Section FiniteApi.
Variables (cfg : Cfg) (E : Type) (F : fieldType) (rep : E -> F -> Prop) (A : FieldAlg E) (k : nat).
Hypothesis hA : finite_field cfg rep A k.

Lemma finite_field_contract : field_alg_spec cfg False rep A.
Proof. by case: (finite_field_ok hA). Qed.
Lemma finite_field_fun x u v : rep x u -> rep x v -> u = v.
Proof.
exact: (dom_fun (mo_dom_ok (ri_mon_ok (id_ring_ok (eu_idom_ok (fi_eucl_ok finite_field_contract)))))).
Qed.
Lemma finite_field_members :
  [/\ has_members (fun x => exists u, rep x u) k,
      forall u, exists x, rep x u &
      forall x y u, rep x u -> rep y u -> x = y].
Proof.
have [_ h] := finite_field_ok hA; have [inj surj _] := h; split=> //.
exact: enumerated_members finite_field_fun h.
Qed.
Lemma finite_field_fermat : good_isize cfg (Z.of_nat k) ->
  forall x, (exists u, rep x u) -> returns (fpower A (Z.of_nat k) x) x.
Proof.
move=> gk x [u xu]; have [hF h] := finite_field_ok hA; have [inj _ _] := h.
suff : gives False rep (fpower A (Z.of_nat k) x) u.
  by case=> [[y [ry yu]]|[[]]]; rewrite {2}(inj _ _ _ xu yu).
have [u0|u0] := eqVneq u 0.
  by rewrite u0; apply: (fpower_zero (fi_fi_ok hF)); rewrite -u0.
have := fpower_ok (fi_fi_ok hF) gk xu u0.
have -> // : zexp u (Z.of_nat k) = u.
rewrite /zexp -[RHS](enumerated_fermat h u).
by case: k => [|j] //=; rewrite SuccNat2Pos.id_succ.
Qed.
End FiniteApi.

(** ** Irreducible polynomials *)
Lemma irreducible_poly_elt (F : fieldType) (P : {poly F}) :
  irreducible_poly P -> @irreducible_elt (poly_idomainType F) P.
Proof.
move=> [sP hP]; have P0 : P != 0 by rewrite -size_poly_eq0; case: size sP.
split=> //.
  by apply/negP; rewrite poly_unitE => /andP[/eqP s1]; rewrite s1 in sP.
move=> a b PE; have [a0 b0] : a != 0 /\ b != 0.
  by split; apply: contraNneq P0 => h; rewrite PE h ?mul0r ?mulr0.
have unit1 (c : {poly F}) : size c = 1%N -> c \is a GRing.unit.
  move=> c1; rewrite poly_unitE c1 eqxx /= unitfE.
  have := lead_coef_eq0 c; rewrite /lead_coef c1 /= => ->.
  by rewrite -size_poly_eq0 c1.
have [sa|sa] := eqVneq (size a) 1%N; first by left; exact: unit1.
right; apply: unit1; have aP : a %| P by rewrite PE dvdp_mulr.
have /eqp_size := hP a sa aP; rewrite PE size_mul //.
have : (0 < size a)%N by rewrite lt0n size_poly_eq0.
by move: (size a) (size b) => i j; lia.
Qed.
