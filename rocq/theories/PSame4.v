(** * PSame4.v -- the multiplicative group of a finite field is cyclic: exponents add. *)

From Coq Require Import ZArith Znumtheory Lia List.
From mathcomp Require Import all_ssreflect all_fingroup all_algebra.
From mathcomp Require Import ssrZ zify.
From Verif Require Import Rust RustFacts Traits MInts MConstr Spec Wp ModSpec NumSpec RingSpec PropSpec TowerSpec ParSpec SameSpec.
From Verif Require Import ZFacts RingTac PDefaults PIntsZ PInts POrders PGroups Quotient PQuot PModular PModProps PPoly PTower PCount PCount3 PFF.
From Verif Require Import PPar PPar2 PPar3 PPar4 PPar5 PSame PSame2.

Set Implicit Arguments.
Unset Strict Implicit.
Unset Printing Implicit Defensive.

Import GRing.Theory.
Local Open Scope ring_scope.

Lemma to_nat_zrem a i : (0 < i)%N -> Z.le 0 a ->
  Z.to_nat (zrem a (Z.of_nat i)) = (Z.to_nat a %% i)%N.
Proof.
move=> i0 a0; rewrite /zrem Z.abs_eq; last by lia.
have h := Z.div_mod a (Z.of_nat i) ltac:(lia).
have [h1 h2] := Z.mod_pos_bound a (Z.of_nat i) ltac:(lia).
have q0 : Z.le 0 (Z.div a (Z.of_nat i)) by apply: Z.div_pos; lia.
have -> : Z.to_nat a = (Z.to_nat (Z.div a (Z.of_nat i)) * i + Z.to_nat (Z.modulo a (Z.of_nat i)))%N by nia.
by rewrite modnMDl modn_small //; lia.
Qed.

Section Cyclic.
Variables (c : Cfg) (E : Type) (F : fieldType) (rep : E -> F -> Prop) (A : FieldAlg E) (k : nat).
Hypotheses (hA : finite_field c rep A k) (k3 : (2 < k)%N).
Local Notation ok := (ModSpec.usual_isize c).
Local Notation n := (Z.of_nat k.-1).
Lemma group_size : Z.le 2 (Z.abs n).
Proof. by lia. Qed.
Local Notation md := (z_modulus group_size).
Local Notation Q := (quot Z_eucl md).

Variable g : F.
Hypothesis hg : k.-1.-primitive_root g.

Definition expo (u : Q) : F := g ^+ Z.to_nat (qval u : Z).

Lemma expo_pi (a : Z) : Z.le 0 a -> expo (qpi Z_eucl md a) = g ^+ Z.to_nat a.
Proof.
move=> a0; rewrite /expo /=.
rewrite to_nat_zrem //; last by lia.
exact: prim_expr_mod.
Qed.
Lemma qval_bound (u : Q) : Z.le 0 (qval u) /\ Z.lt (qval u) n.
Proof.
have h := qvalE u; have n0 : n <> Z0 by lia.
have := proj1 (zrem_self (qval u) n n0) h; rewrite Z.abs_eq; last by lia.
by [].
Qed.
Lemma expo_unit u : expo u != 0.
Proof.
rewrite /expo expf_eq0 negb_and; apply/orP; right; apply/negP => /eqP g0.
have := prim_expr_order hg; rewrite g0 expr0n eqn0Ngt (prim_order_gt0 hg) /=.
by move=> /eqP; rewrite eq_sym oner_eq0.
Qed.
Lemma expo_embedding : monoid_embedding +%R 0 *%R 1 expo.
Proof.
split.
- move=> u v /eqP; rewrite /expo (eq_prim_root_expr hg) => /eqP.
  have [u0 un] := qval_bound u; have [v0 vn] := qval_bound v; rewrite !modn_small; try by lia.
  by move=> h; apply: val_inj => /=; apply: Z2Nat.inj.
- move=> u v; have [u0 un] := qval_bound u; have [v0 vn] := qval_bound v.
  rewrite -[u in LHS]qpiK -[v in LHS]qpiK -rmorphD /= expo_pi; last by apply: Z.add_nonneg_nonneg.
  by rewrite Z2Nat.inj_add // exprD.
- by rewrite /expo qval0 expr0.
- by move=> u v _; exists (- u); split; rewrite ?addrN ?addNr.
Qed.
Lemma expo_opp u : expo (- u) = (expo u)^-1.
Proof.
have [_ M O _] := expo_embedding; apply: (mulIf (expo_unit u)).
by rewrite mulVf ?expo_unit // -M addNr O.
Qed.

Local Notation R := (transported (@q_rep Z [idomainType of Z] Z_eucl md zz_rep)
  (unit_rep rep *%R 1) expo).

Lemma cyclic_par : group_alg_par ok R (AdditiveGroup c (ring_abelian (QuotientRing c ZZ n)))
  (MultiplicativeGroup c A).
Proof.
have hF := finite_field_contract hA; have hR := id_ring_ok (eu_idom_ok (fi_eucl_ok hF)).
have hQ := @QuotientRing_ok c False Z _ zz_rep _ _ ZZ (ZZ_ok c False) md n erefl.
have hB : abelian_alg_spec c False (@q_rep Z [idomainType of Z] Z_eucl md zz_rep)
    (ring_abelian (QuotientRing c ZZ n)).
  by split; [exact: mo_dom_ok (ri_mon_ok hQ)|exact: ri_cm_ok hQ|exact: ri_ab_ok hQ].
have sQ := par_quotient_ring c (zz_settled ok) (erefl n).
have sA : monoid_alg_par eq A A by exact: (tower_settled hA).
have invP (u : F) : (exists v, inverse_of *%R 1 u v) -> inverse_of *%R 1 u u^-1.
  move=> [v [uv _]]; have u0 : u != 0.
    by apply/negP => /eqP u0; move: uv; rewrite u0 mul0r => /eqP; rewrite eq_sym oner_eq0.
  by split; rewrite ?mulfV ?mulVf.
apply: (same_groups (em_inj expo_embedding) expo_embedding).
- exact: mulrA.
- exact: mul1r.
- exact: mulr1.
- by move=> x u _; exact: expo_opp.
- exact: additive_group_ok hB.
- exact: (multiplicative_group_ok c (@mulrA F) (@mul1r F) (@mulr1 F) (ri_mon_ok hR) invP).
- by apply: par_additive_group; case: sQ => [[d _ _] ? ? _]; split.
- exact: par_multiplicative.
Qed.

Lemma cyclic_pairs : pairs_off (residue_z n) (fun y => exists2 v, rep y v & v != 0) R /\
  exhausts (fun y => exists2 v, rep y v & v != 0) R.
Proof.
have [_ sur inj] := finite_field_members hA; have rf := finite_field_fun hA.
have n0 : n <> Z0 by lia.
have absn : Z.abs n = n by lia.
have unitE (v : F) : v != 0 -> exists w, inverse_of *%R 1 v w.
  by move=> v0; exists v^-1; split; rewrite ?mulfV ?mulVf.
have mk x : residue_z n x -> exists u : Q, qval u = x.
  move=> hx; have hc : erem Z_eucl (x : [idomainType of Z]) md == x.
    by apply/eqP; apply: (proj2 (zrem_self _ _ n0)); rewrite absn.
  by exists (Quot hc).
split; first split.
- move=> x y [u xu [yu _]]; split; last by exists (expo u) => //; exact: expo_unit.
  by rewrite xu; exact: qval_bound.
- move=> x /mk[u xu]; have [y yu] := sur (expo u); exists y, u; first by [].
  by split=> //; apply: unitE; exact: expo_unit.
- move=> x y y' [u xu [yu _]] [v xv [yv _]].
  have uv : u = v by apply: val_inj; rewrite /= -xu -xv.
  by apply: (inj _ _ (expo u)) => //; rewrite uv.
- move=> x x' y [u xu [yu _]] [v xv [yv _]].
  by rewrite xu xv (em_inj expo_embedding (rf _ _ _ yu yv)).
move=> y [v yv v0].
have [s [us ss hs]] : exists s : seq F, [/\ uniq s, size s = k & forall u, u \in s].
  by have [_ [_ _ h]] := finite_field_ok hA.
have v1 : v ^+ k.-1 = 1 by rewrite -ss; apply: fermat1.
have [i vE] := prim_rootP hg v1.
have [|u uE] := mk (Z.of_nat i); first by rewrite /residue_z; have := ltn_ord i; lia.
exists (Z.of_nat i), u; first by rewrite /q_rep uE.
have e : expo u = v by rewrite /expo uE Nat2Z.id vE.
by rewrite e; split=> //; apply: unitE.
Qed.
End Cyclic.

Lemma cyclic_group c E F rep (A : FieldAlg E) k : @finite_field c E F rep A k -> (2 < k)%N ->
  exists R : Z -> E -> Prop,
  [/\ pairs_off (residue_z (Z.of_nat k.-1)) (fun y => exists2 v, rep y v & v != 0) R,
      exhausts (fun y => exists2 v, rep y v & v != 0) R &
      group_alg_par (ModSpec.usual_isize c) R
        (AdditiveGroup c (ring_abelian (QuotientRing c ZZ (Z.of_nat k.-1)))) (MultiplicativeGroup c A)].
Proof.
move=> hA k3; have [s [us ss hs]] : exists s : seq F, [/\ uniq s, size s = k & forall u, u \in s].
  by have [_ [_ _ h]] := finite_field_ok hA.
have [g hg] := primitive us hs; rewrite ss in hg.
have [h1 h2] := cyclic_pairs hA k3 hg; have h3 := cyclic_par hA k3 hg.
by eexists; split; [exact: h1|exact: h2|exact: h3].
Qed.
