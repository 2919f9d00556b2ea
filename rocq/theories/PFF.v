(** * PFF.v -- the laws of finite fields. *)

From Coq Require Import ZArith Lia List.
From mathcomp Require Import all_ssreflect all_fingroup all_solvable all_algebra all_field ssrZ zify.
From Verif Require Import Rust Traits MInts MConstr Wp Spec PropSpec RingSpec PLaws Laws.
From Verif Require Import TowerSpec PTower PCount3 FFSpec.

Set Implicit Arguments.
Unset Strict Implicit.
Unset Printing Implicit Defensive.

Import GRing.Theory.
Local Open Scope ring_scope.

Lemma zexp_nat (F : fieldType) (u : F) n : zexp u (Z.of_nat n) = u ^+ n.
Proof. by case: n => //= n; rewrite SuccNat2Pos.id_succ. Qed.
Lemma zmul_nat (V : zmodType) (u : V) n : zmul u (Z.of_nat n) = u *+ n.
Proof. by case: n => //= n; rewrite SuccNat2Pos.id_succ. Qed.

Section Math.
Variables (F : fieldType) (s : seq F) (us : uniq s) (hs : forall u, u \in s).
Local Notation k := (size s).

Lemma char_card : exists r d, [/\ prime r, r \in [char F], (0 < d)%N & k = (r ^ d)%N].
Proof.
have [r pr rF] := finCharP (fin_field us hs); exists r, (logn r k).
have := card_pgroup (abelem_pgroup (fin_ring_char_abelem rF)).
rewrite cardsT fin_card => kE; split=> //.
rewrite lt0n; apply/negP => /eqP d0; move: kE; rewrite d0 expn0 => s1.
have := hs 0; have := hs 1; case: (s) s1 => [|a [|]] //= _; rewrite !inE => /eqP <-.
by rewrite eq_sym oner_eq0.
Qed.

Lemma card_gt1 : (1 < k)%N.
Proof.
have [r [d [pr _ d0 ->]]] := char_card.
by rewrite -(exp1n d) ltn_exp2r // prime_gt1.
Qed.

Lemma fermat (u : F) : u ^+ k = u.
Proof.
have h : enumerated (fun x y : F => x = y) k.
  by split=> [x y u0 -> ->|v|] //; [exists v|exists s].
exact: enumerated_fermat h u.
Qed.
Lemma fermat1 (u : F) : u != 0 -> u ^+ k.-1 = 1.
Proof.
move=> u0; apply: (mulfI u0); rewrite mulr1 -exprS prednK ?fermat //.
exact: ltn_trans card_gt1.
Qed.

Lemma primitive : exists g : F, k.-1.-primitive_root g.
Proof.
have k1 := card_gt1; pose t := filter (predC1 0) s.
have mt a : (a \in t) = (a != 0) by rewrite mem_filter hs andbT.
have st : size t = k.-1.
  have := count_predC (pred1 0) s; rewrite (count_uniq_mem _ us) hs => <-.
  by rewrite size_filter.
have /hasP[g _ hg] : has k.-1.-primitive_root t.
  apply: has_prim_root; first by rewrite -ltnS prednK // ltnW.
  - by apply/allP => u; rewrite mt => u0; rewrite unity_rootE fermat1.
  - exact: filter_uniq.
  - by rewrite st.
by exists g.
Qed.

Lemma odd_neq : odd k -> (1 : F) != -1.
Proof.
move=> ok; apply/negP; rewrite -subr_eq0 opprK -mulr2n => h2.
have [r [d [pr rF d0 kE]]] := char_card.
have c2 : 2%N \in [char F] by rewrite inE /= h2.
have r2 : r = 2%N by have := charf_eq c2 r; rewrite rF /= => /esym /eqP.
by move: ok; rewrite kE r2 oddX orbF; case: (d) d0.
Qed.

Lemma half_double : odd k -> (k.-1./2 * 2 = k.-1)%N.
Proof. by move=> ok; have := card_gt1; move: ok; case: k => // n /=; lia. Qed.

Lemma euler (u : F) : odd k -> u != 0 ->
  ((exists v, v * v = u) <-> u ^+ k.-1./2 = 1) /\
  (~ (exists v, v * v = u) <-> u ^+ k.-1./2 = -1).
Proof.
move=> ok u0; have h := half_double ok; have [g hg] := primitive.
have E : (exists v, v * v = u) <-> u ^+ k.-1./2 = 1.
  split=> [[v vu]|u1].
    have v0 : v != 0 by apply: contraNneq u0 => v0; rewrite -vu v0 mulr0.
    by rewrite -vu -expr2 -exprM mulnC h fermat1.
  have [i uE] := prim_rootP hg (fermat1 u0).
  move: u1; rewrite uE -exprM => /eqP; rewrite -(prim_order_dvd hg) -{1}h mulnC.
  have h0 : (0 < k.-1./2)%N by have := card_gt1; lia.
  rewrite dvdn_pmul2r // => /dvdnP[j ij]; exists (g ^+ j).
  by rewrite -exprD addnn -muln2 -ij.
split=> //; rewrite E.
have : (u ^+ k.-1./2) ^+ 2 = 1 by rewrite -exprM h fermat1.
have n1 := odd_neq ok.
move/eqP; rewrite sqrf_eq1 => /orP[] /eqP ->; split=> //.
- by move=> /eqP; rewrite (negbTE n1).
- by move=> _ /eqP; rewrite eq_sym (negbTE n1).
Qed.
End Math.

Section Code.
Variables (cfg : Cfg) (E : Type) (F : fieldType) (rep : E -> F -> Prop) (A : FieldAlg E) (k : nat).
Hypothesis hA : finite_field cfg rep A k.
Hypothesis gk : good_isize cfg (Z.of_nat k).
Let mem := fun x => exists u, rep x u.
Let hF := finite_field_contract hA.
Let hR := id_ring_ok (eu_idom_ok (fi_eucl_ok hF)).
Let hD := mo_dom_ok (ri_mon_ok hR).
Let hM := mo_mo_ok (ri_mon_ok hR).
Let hS := mo_sg_ok (ri_mon_ok hR).
Let hC := ri_cm_ok hR.
Let hN := ri_ab_ok hR.
Let hI := fi_fi_ok hF.

Let inj x y u : rep x u -> rep y u -> x = y.
Proof. by have [_ _ h] := finite_field_members hA; exact: h. Qed.
Let surj u : exists x, rep x u.
Proof. by have [_ h _] := finite_field_members hA; exact: h. Qed.
Let rfun x u v : rep x u -> rep x v -> u = v.
Proof. exact: finite_field_fun hA _ _ _. Qed.
Let enum : exists s : seq F, [/\ uniq s, size s = k & forall u, u \in s].
Proof. by have [_ [_ _ h]] := finite_field_ok hA. Qed.

Lemma call m x u : gives False rep m u -> rep x u -> returns m x.
Proof. by move=> [[y [ry yu]]|[[]]] xu; rewrite (inj xu yu). Qed.
Lemma called m x u : gives False rep m u -> returns m x -> rep x u.
Proof. by move=> h; exact: ensures_value h. Qed.
Lemma sure (m : M bool) b : answers False m b -> returns m b.
Proof. by case=> [[c [rc <-]]|[[]]]. Qed.
Lemma nz x u : rep x u -> returns (is_zero A x) false <-> u != 0.
Proof.
move=> xu; have := sure (is_zero_ok hC xu); split=> [h|u0].
  by rewrite -(returns_det h H).
by rewrite -(negbTE u0).
Qed.
Lemma good_le n : (n <= k)%N -> good_isize cfg (Z.of_nat n).
Proof.
move=> nk; have := gk; rewrite /good_isize /is_isize /in_i /imin /imax.
have : Z.le (Z.of_nat n) (Z.of_nat k) by apply: inj_le; exact/leP.
have : Z.le 0 (Z.of_nat n) by exact: Zle_0_nat.
move: (Z.pow _ _) (Z.of_nat n) (Z.of_nat k) => a b c; lia.
Qed.
Lemma pwE n x u : (n <= k)%N -> (0 < n)%N || (u != 0) -> rep x u ->
  gives False rep (fpower A (Z.of_nat n) x) (u ^+ n).
Proof.
move=> nk h xu; have gn := good_le nk; rewrite -zexp_nat.
have [u0|u0] := eqVneq u 0; last exact: fpower_ok hI _ _ _ gn xu u0.
rewrite u0 zexp_nat expr0n; case: n {gn nk} h => [|n] /=; first by rewrite u0 eqxx.
by move=> _; apply: fpower_zero hI _ _ _; rewrite -u0.
Qed.
Lemma sameE m1 m2 u v : gives False rep m1 u -> gives False rep m2 v ->
  returns (same A m1 m2) (u == v).
Proof.
move=> h1 h2; apply: sure; apply: ensures_bind h1 _ => x xu; apply: ensures_bind h2 _ => y yv.
exact: (equals_ok hD xu yv).
Qed.
Lemma square_iff x u : rep x u ->
  (exists2 y, mem y & returns (mul A y y) x) <-> exists v, v * v = u.
Proof.
move=> xu; split=> [[y [v yv] h]|[v vu]].
  by exists v; apply: rfun (called (mul_ok hS yv yv) h) xu.
have [y yv] := surj v; exists y; first by exists v.
by apply: call (mul_ok hS yv yv) _; rewrite vu.
Qed.

Lemma characteristic_ok : exists r d, [/\ prime r, (0 < d)%N, k = (r ^ d)%N &
  characteristic_laws mem A r].
Proof.
have [s [us sk hs]] := enum; have [r [d [pr rF d0]]] := char_card us hs.
rewrite sk => kE; exists r, d; split=> //.
have rk : (r <= k)%N by rewrite kE -{1}(expn1 r) leq_exp2l // prime_gt1.
have r0 := prime_gt0 pr.
pose fr := Frobenius_aut rF.
have frE u : u ^+ r = fr u by rewrite /fr Frobenius_autE.
split.
- move=> x [u xu]; apply: sure.
  apply: ensures_bind (ztimes_ok hN (good_le rk) xu) _ => z zE.
  by have := is_zero_ok hC zE; rewrite zmul_nat mulrn_char // eqxx.
- move=> x j [u xu] /(nz xu) u0 /andP[j0 jr]; apply: sure.
  have jk : (j <= k)%N by apply: leq_trans rk; exact: ltnW.
  apply: ensures_bind (ztimes_ok hN (good_le jk) xu) _ => z zE.
  have := is_zero_ok hC zE; rewrite zmul_nat -mulr_natr mulf_eq0 (negbTE u0) /=.
  by rewrite -(dvdn_charf rF) gtnNdvd.
- apply: sure; apply: ensures_bind (int_ok (ri_ur_ok hR) (good_le rk)) _ => z zE.
  by have := is_zero_ok hC zE; rewrite zmul_nat mulrn_char // eqxx.
- move=> x y [u xu] [v yv].
  have -> : true = ((u + v) ^+ r == u ^+ r + v ^+ r) by rewrite !frE /fr rmorphD eqxx.
  apply: sameE.
    by apply: ensures_bind (add_ok hC xu yv) _ => z zE; apply: pwE; rewrite ?r0.
  apply: ensures_bind (pwE rk _ xu) _ => [|a aE]; first by rewrite r0.
  by apply: ensures_bind (pwE rk _ yv) _ => [|b bE]; [rewrite r0|exact: (add_ok hC aE bE)].
- move=> x y [u xu] [v yv].
  have -> : true = ((u * v) ^+ r == u ^+ r * v ^+ r) by rewrite exprMn eqxx.
  apply: sameE.
    by apply: ensures_bind (mul_ok hS xu yv) _ => z zE; apply: pwE; rewrite ?r0.
  apply: ensures_bind (pwE rk _ xu) _ => [|a aE]; first by rewrite r0.
  by apply: ensures_bind (pwE rk _ yv) _ => [|b bE]; [rewrite r0|exact: (mul_ok hS aE bE)].
- move=> x y z [u xu] [v yv] h1 h2; apply: inj (xu) _.
  have z1 : rep z (u ^+ r) by apply: called h1; apply: pwE; rewrite ?r0.
  have z2 : rep z (v ^+ r) by apply: called h2; apply: pwE; rewrite ?r0.
  by have := rfun z1 z2; rewrite !frE => /(fmorph_inj [rmorphism of fr]) ->.
- move=> y [v yv]; have [x xu] := surj (v ^+ (r ^ d.-1)).
  exists x; first by exists (v ^+ (r ^ d.-1)).
  apply: call (pwE rk _ xu) _; first by rewrite r0.
  by rewrite -exprM -expnSr prednK // -kE -sk (fermat us hs).
Qed.

Lemma generator_ok : exists g, generates mem A k g.
Proof.
have [s [us sk hs]] := enum; have [g hg] := primitive us hs.
have k1 := card_gt1 us hs; rewrite sk in hg k1.
have k0 : (0 < k.-1)%N by rewrite -ltnS prednK // ltnW.
have g0 : g != 0.
  by apply/eqP => g0; have /eqP := prim_expr_order hg; rewrite g0 expr0n gtn_eqF //= eq_sym oner_eq0.
have [x xg] := surj g; exists x.
have jk j : (j < k.-1)%N -> (j <= k)%N by move=> h; apply: leq_trans (leq_pred k); exact: ltnW.
have pE j : (j < k.-1)%N -> gives False rep (fpower A (Z.of_nat j) x) (g ^+ j).
  by move=> /jk h; apply: pwE; rewrite ?g0 ?orbT.
split.
- by exists g.
- move=> j h; have [y yE] := surj (g ^+ j); exists y; first by exists (g ^+ j).
  by split; [exact: call (pE j h) yE|apply/(nz yE); exact: expf_neq0].
- move=> y [u yu] /(nz yu) u0.
  have [i uE] : {i : 'I_k.-1 | u = g ^+ i}.
    by apply: prim_rootP hg _ _; rewrite -sk (fermat1 us hs).
  by exists i; [exact: ltn_ord|apply: call (pE i (ltn_ord i)) _; rewrite -uE].
- move=> i j y hi hj /(called (pE i hi)) y1 /(called (pE j hj)) y2.
  have /eqP := rfun y1 y2; rewrite (eq_prim_root_expr hg).
  by rewrite !modn_small // => /eqP.
Qed.

Lemma squares_ok : square_laws mem A k.
Proof.
have [s [us sk hs]] := enum; have k1 := card_gt1 us hs; rewrite sk in k1.
have hk : (k.-1./2 <= k)%N by lia.
split.
- move=> ek x [u xu]; apply/(square_iff xu); exists (u ^+ k./2).
  have e2 : (k./2 + k./2 = k)%N by move: ek; lia.
  by rewrite -exprD e2 -sk (fermat us hs).
- move=> ok x [u xu] /(nz xu) u0; rewrite (square_iff xu).
  have ok' : odd (size s) by rewrite sk.
  have [-> _] := euler us hs ok' u0; rewrite sk.
  have := sameE (pwE hk _ xu) (one_ok hM); rewrite u0 orbT => /(_ isT) h.
  split=> [e|]; first by move: h; rewrite e eqxx.
  by move=> /(returns_det h)/eqP.
- move=> ok x [u xu] /(nz xu) u0; rewrite (square_iff xu).
  have ok' : odd (size s) by rewrite sk.
  have [_ ->] := euler us hs ok' u0; rewrite sk.
  have m1 : gives False rep (let! z := one A in neg A z) (-1).
    by apply: ensures_bind (one_ok hM) _ => z zE; exact: (neg_ok hN zE).
  have := sameE (pwE hk _ xu) m1; rewrite u0 orbT => /(_ isT) h.
  split=> [e|]; first by move: h; rewrite e eqxx.
  by move=> /(returns_det h)/eqP.
Qed.
End Code.
