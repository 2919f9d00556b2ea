(** * PSame.v -- a contract determines what the calls do. *)

From Coq Require Import ZArith Lia.
From mathcomp Require Import all_ssreflect all_algebra.
From Verif Require Import Rust RustFacts Traits MInts MConstr Spec Wp ModSpec ParSpec PPar PPar2 PPar4 SameSpec.

Set Implicit Arguments.
Unset Strict Implicit.
Unset Printing Implicit Defensive.

Import GRing.Theory.
Local Open Scope ring_scope.

Local Notation par := alike.

Section Domain.
Variables (c : Cfg) (E1 E2 : Type) (V1 V2 : eqType).
Variables (rep1 : E1 -> V1 -> Prop) (rep2 : E2 -> V2 -> Prop) (phi : V1 -> V2).
Hypothesis inj : injective phi.
Local Notation R := (transported rep1 rep2 phi).
Local Notation ok := (ModSpec.usual_isize c).

(** Calls whose results the contract fixes. *)
Lemma par_gives m1 m2 u : par eq m1 m1 -> par eq m2 m2 ->
  gives False rep1 m1 u -> gives False rep2 m2 (phi u) -> par R m1 m2.
Proof. by move=> s1 s2 h1 h2; apply: (par_ensures s1 s2 h1 h2) => v w; exists u. Qed.
Lemma par_answers m1 m2 b : par eq m1 m1 -> par eq m2 m2 ->
  answers False m1 b -> answers False m2 b -> par eq m1 m2.
Proof. by move=> s1 s2 h1 h2; apply: (par_ensures s1 s2 h1 h2) => v w -> ->. Qed.
Lemma par_decides m1 m2 (P Q : Prop) : par eq m1 m1 -> par eq m2 m2 -> (P <-> Q) ->
  decides False m1 P -> decides False m2 Q -> par eq m1 m2.
Proof.
move=> s1 s2 PQ h1 h2; apply: (par_ensures s1 s2 h1 h2) => v w hv hw.
by apply/idP/idP => h; [apply/hw/PQ/hv|apply/hv/PQ/hw].
Qed.

Lemma same_domain (A1 : Domain E1) (A2 : Domain E2) :
  domain_spec False rep1 A1 -> domain_spec False rep2 A2 ->
  domain_par eq A1 A1 -> domain_par eq A2 A2 -> domain_par R A1 A2.
Proof.
move=> h1 h2 s1 s2; split.
  move=> x y [u xu yu]; apply: (par_answers (b := true)); first exact: contains_par s1 _ _ erefl.
  - exact: contains_par s2 _ _ erefl.
  - exact: contains_ok h1 _ _ xu.
  - exact: contains_ok h2 _ _ yu.
move=> x x' y y' [u xu yu] [v xv yv]; apply: (par_answers (b := u == v)).
- exact: equals_par s1 _ _ _ _ erefl erefl.
- exact: equals_par s2 _ _ _ _ erefl erefl.
- exact: equals_ok h1 _ _ _ _ xu xv.
- by rewrite -(inj_eq inj); exact: equals_ok h2 _ _ _ _ yu yv.
Qed.

Section Monoid.
Variables (op1 : V1 -> V1 -> V1) (e1 : V1) (op2 : V2 -> V2 -> V2) (e2 : V2).
Hypotheses (phiM : forall u v, phi (op1 u v) = op2 (phi u) (phi v)) (phi1 : phi e1 = e2).

Lemma phi_npow u n : phi (npow op1 e1 u n) = npow op2 e2 (phi u) n.
Proof. by elim: n => //= n IH; rewrite phiM IH. Qed.

Lemma same_semigroup (A1 : Semigroup E1) (A2 : Semigroup E2) :
  semigroup_spec False rep1 op1 A1 -> semigroup_spec False rep2 op2 A2 ->
  semigroup_par eq A1 A1 -> semigroup_par eq A2 A2 -> semigroup_par R A1 A2.
Proof.
move=> h1 h2 s1 s2; split.
- move=> x x' y y' [u xu yu] [v xv yv]; apply: (par_gives (u := op1 u v)).
  + exact: mul_par s1 _ _ _ _ erefl erefl.
  + exact: mul_par s2 _ _ _ _ erefl erefl.
  + exact: mul_ok h1 _ _ _ _ xu xv.
  + by rewrite phiM; exact: mul_ok h2 _ _ _ _ yu yv.
- move=> x x' y y' [u xu yu] [v xv yv]; apply: (par_gives (u := op1 u v)).
  + exact: mul_assign_par s1 _ _ _ _ erefl erefl.
  + exact: mul_assign_par s2 _ _ _ _ erefl erefl.
  + exact: mul_assign_ok h1 _ _ _ _ xu xv.
  + by rewrite phiM; exact: mul_assign_ok h2 _ _ _ _ yu yv.
- move=> x y [u xu yu]; apply: (par_gives (u := op1 u u)).
  + exact: square_par s1 _ _ erefl.
  + exact: square_par s2 _ _ erefl.
  + exact: square_ok h1 _ _ xu.
  + by rewrite phiM; exact: square_ok h2 _ _ yu.
Qed.

Lemma same_monoid (A1 : Monoid E1) (A2 : Monoid E2) :
  associative op2 -> left_id e2 op2 -> right_id e2 op2 ->
  (forall u v, inverse_of op2 e2 (phi u) v -> exists w, inverse_of op1 e1 u w) ->
  monoid_spec False rep1 op1 e1 A1 -> monoid_spec False rep2 op2 e2 A2 ->
  monoid_par eq A1 A1 -> monoid_par eq A2 A2 -> monoid_par R A1 A2.
Proof.
move=> opA op1x opx1 refl h1 h2 s1 s2.
have fwd u v : inverse_of op1 e1 u v -> inverse_of op2 e2 (phi u) (phi v).
  by move=> [uv vu]; split; rewrite -phiM ?uv ?vu.
split.
- apply: (par_gives (u := e1)).
  + exact: one_par s1.
  + exact: one_par s2.
  + exact: one_ok h1.
  + by rewrite phi1; exact: one_ok h2.
- move=> x y [u xu yu]; apply: (par_answers (b := u == e1)).
  + exact: is_one_par s1 _ _ erefl.
  + exact: is_one_par s2 _ _ erefl.
  + exact: is_one_ok h1 _ _ xu.
  + by rewrite -(inj_eq inj) phi1; exact: is_one_ok h2 _ _ yu.
- move=> x y [u xu yu]; apply: (par_ensures _ _ (try_inv_ok h1 xu) (try_inv_ok h2 yu)).
  + by apply: par_mono (try_inv_par s1 (erefl x)) _ => -[v|] [w|] //= ->.
  + by apply: par_mono (try_inv_par s2 (erefl y)) _ => -[v|] [w|] //= ->.
  move=> [z|] [z'|] //=.
  + move=> [v zv uv] [w zw uw]; exists v => //; rewrite (_ : phi v = w) //.
    have [_ vu] := fwd _ _ uv; have [uw' _] := uw.
    by rewrite -[phi v]opx1 -uw' opA vu op1x.
  + by move=> [v _ uv] /(_ _ (fwd _ _ uv)).
  + by move=> h [w _ /refl[v uv]]; case: (h v uv).
- move=> x y [u xu yu].
  apply: (par_decides _ _ _ (invertible_ok h1 xu) (invertible_ok h2 yu)).
  + exact: invertible_par s1 _ _ erefl.
  + exact: invertible_par s2 _ _ erefl.
  by split=> [[v /fwd ?]|[w /refl]] //; exists (phi v).
Qed.

Lemma same_group (inv1 : V1 -> V1) (inv2 : V2 -> V2) (A1 : Group E1) (A2 : Group E2) :
  (forall x u, rep1 x u -> phi (inv1 u) = inv2 (phi u)) ->
  group_spec c False rep1 op1 e1 inv1 A1 -> group_spec c False rep2 op2 e2 inv2 A2 ->
  group_par ok eq A1 A1 -> group_par ok eq A2 A2 -> group_par ok R A1 A2.
Proof.
move=> phiV h1 h2 s1 s2; split.
  move=> x y [u xu yu]; apply: (par_gives (u := inv1 u)).
  - exact: ginv_par s1 _ _ erefl.
  - exact: ginv_par s2 _ _ erefl.
  - exact: ginv_ok h1 _ _ xu.
  - by rewrite (phiV _ _ xu); exact: ginv_ok h2 _ _ yu.
move=> n okn x y [u xu yu]; apply: (par_gives (u := zpow op1 e1 inv1 u n)).
- exact: gpower_par s1 _ okn _ _ erefl.
- exact: gpower_par s2 _ okn _ _ erefl.
- exact: gpower_ok h1 _ _ _ okn xu.
- suff -> : phi (zpow op1 e1 inv1 u n) = zpow op2 e2 inv2 (phi u) n.
    exact: gpower_ok h2 _ _ _ okn yu.
  by case: (n) => [|k|k] //=; rewrite phi_npow ?(phiV _ _ xu).
Qed.

Lemma same_cmonoid (A1 : CommMonoid E1) (A2 : CommMonoid E2) :
  cmonoid_spec False rep1 op1 e1 A1 -> cmonoid_spec False rep2 op2 e2 A2 ->
  cmonoid_par eq A1 A1 -> cmonoid_par eq A2 A2 -> cmonoid_par R A1 A2.
Proof.
move=> h1 h2 s1 s2; split.
- apply: (par_gives (u := e1)).
  + exact: zero_par s1.
  + exact: zero_par s2.
  + exact: zero_ok h1.
  + by rewrite phi1; exact: zero_ok h2.
- move=> x y [u xu yu]; apply: (par_answers (b := u == e1)).
  + exact: is_zero_par s1 _ _ erefl.
  + exact: is_zero_par s2 _ _ erefl.
  + exact: is_zero_ok h1 _ _ xu.
  + by rewrite -(inj_eq inj) phi1; exact: is_zero_ok h2 _ _ yu.
- move=> x x' y y' [u xu yu] [v xv yv]; apply: (par_gives (u := op1 u v)).
  + exact: add_par s1 _ _ _ _ erefl erefl.
  + exact: add_par s2 _ _ _ _ erefl erefl.
  + exact: add_ok h1 _ _ _ _ xu xv.
  + by rewrite phiM; exact: add_ok h2 _ _ _ _ yu yv.
- move=> x x' y y' [u xu yu] [v xv yv]; apply: (par_gives (u := op1 u v)).
  + exact: add_assign_par s1 _ _ _ _ erefl erefl.
  + exact: add_assign_par s2 _ _ _ _ erefl erefl.
  + exact: add_assign_ok h1 _ _ _ _ xu xv.
  + by rewrite phiM; exact: add_assign_ok h2 _ _ _ _ yu yv.
- move=> x y [u xu yu]; apply: (par_gives (u := op1 u u)).
  + exact: double_par s1 _ _ erefl.
  + exact: double_par s2 _ _ erefl.
  + exact: double_ok h1 _ _ xu.
  + by rewrite phiM; exact: double_ok h2 _ _ yu.
- move=> n n0 x y [u xu yu]; apply: (par_gives (u := npow op1 e1 u (Z.to_nat n))).
  + exact: ntimes_par s1 _ n0 _ _ erefl.
  + exact: ntimes_par s2 _ n0 _ _ erefl.
  + exact: ntimes_ok h1 _ _ _ n0 xu.
  + by rewrite phi_npow; exact: ntimes_ok h2 _ _ _ n0 yu.
Qed.
End Monoid.

Lemma same_monoids op1 e1 op2 e2 (A1 : MonoidAlg E1) (A2 : MonoidAlg E2) :
  monoid_embedding op1 e1 op2 e2 phi ->
  associative op2 -> left_id e2 op2 -> right_id e2 op2 ->
  monoid_alg_spec False rep1 op1 e1 A1 -> monoid_alg_spec False rep2 op2 e2 A2 ->
  monoid_alg_par eq A1 A1 -> monoid_alg_par eq A2 A2 -> monoid_alg_par R A1 A2.
Proof.
move=> [_ phiM phi1 refl] opA op1x opx1 [d1 g1 m1] [d2 g2 m2] [sd1 sg1 sm1] [sd2 sg2 sm2].
split; [exact: same_domain|exact: (same_semigroup phiM)|].
exact: (same_monoid phiM phi1 opA op1x opx1 refl).
Qed.

Lemma same_groups op1 e1 inv1 op2 e2 inv2 (A1 : GroupAlg E1) (A2 : GroupAlg E2) :
  monoid_embedding op1 e1 op2 e2 phi ->
  associative op2 -> left_id e2 op2 -> right_id e2 op2 ->
  (forall x u, rep1 x u -> phi (inv1 u) = inv2 (phi u)) ->
  group_alg_spec c False rep1 op1 e1 inv1 A1 -> group_alg_spec c False rep2 op2 e2 inv2 A2 ->
  group_alg_par ok eq A1 A1 -> group_alg_par ok eq A2 A2 -> group_alg_par ok R A1 A2.
Proof.
move=> hE opA op1x opx1 phiV [m1 g1] [m2 g2] [sm1 sg1] [sm2 sg2].
split; first exact: same_monoids hE opA op1x opx1 m1 m2 sm1 sm2.
by have [_ phiM phi1 _] := hE; exact: (same_group phiM phi1 phiV g1 g2).
Qed.
End Domain.

Section Ring.
Variables (c : Cfg) (E1 E2 : Type).
Local Notation ok := (ModSpec.usual_isize c).

Section Abelian.
Variables (V1 V2 : zmodType) (rep1 : E1 -> V1 -> Prop) (rep2 : E2 -> V2 -> Prop).
Variable phi : {additive V1 -> V2}.
Local Notation R := (transported rep1 rep2 phi).

Lemma phi_zmul u n : phi (zmul u n) = zmul (phi u) n.
Proof. by case: n => [|k|k] /=; rewrite ?raddf0 ?raddfN ?raddfMn. Qed.

Lemma same_abelian (A1 : AbelianGroup E1) (A2 : AbelianGroup E2) :
  abelian_spec c False rep1 A1 -> abelian_spec c False rep2 A2 ->
  abelian_par ok eq A1 A1 -> abelian_par ok eq A2 A2 -> abelian_par ok R A1 A2.
Proof.
move=> h1 h2 s1 s2; split.
- move=> x y [u xu yu]; apply: (par_gives (u := - u)).
  + exact: neg_par s1 _ _ erefl.
  + exact: neg_par s2 _ _ erefl.
  + exact: neg_ok h1 _ _ xu.
  + by rewrite raddfN; exact: neg_ok h2 _ _ yu.
- move=> x y [u xu yu]; apply: (par_gives (u := - u)).
  + exact: neg_assign_par s1 _ _ erefl.
  + exact: neg_assign_par s2 _ _ erefl.
  + exact: neg_assign_ok h1 _ _ xu.
  + by rewrite raddfN; exact: neg_assign_ok h2 _ _ yu.
- move=> x x' y y' [u xu yu] [v xv yv]; apply: (par_gives (u := u - v)).
  + exact: sub_par s1 _ _ _ _ erefl erefl.
  + exact: sub_par s2 _ _ _ _ erefl erefl.
  + exact: sub_ok h1 _ _ _ _ xu xv.
  + by rewrite raddfB; exact: sub_ok h2 _ _ _ _ yu yv.
- move=> x x' y y' [u xu yu] [v xv yv]; apply: (par_gives (u := u - v)).
  + exact: sub_assign_par s1 _ _ _ _ erefl erefl.
  + exact: sub_assign_par s2 _ _ _ _ erefl erefl.
  + exact: sub_assign_ok h1 _ _ _ _ xu xv.
  + by rewrite raddfB; exact: sub_assign_ok h2 _ _ _ _ yu yv.
- move=> n okn x y [u xu yu]; apply: (par_gives (u := zmul u n)).
  + exact: ztimes_par s1 _ okn _ _ erefl.
  + exact: ztimes_par s2 _ okn _ _ erefl.
  + exact: ztimes_ok h1 _ _ _ okn xu.
  + by rewrite phi_zmul; exact: ztimes_ok h2 _ _ _ okn yu.
Qed.

Lemma same_abelians (A1 : AbelianAlg E1) (A2 : AbelianAlg E2) : injective phi ->
  abelian_alg_spec c False rep1 A1 -> abelian_alg_spec c False rep2 A2 ->
  abelian_alg_par ok eq A1 A1 -> abelian_alg_par ok eq A2 A2 -> abelian_alg_par ok R A1 A2.
Proof.
move=> inj [d1 c1 a1] [d2 c2 a2] [sd1 sc1 sa1] [sd2 sc2 sa2]; split.
- exact: same_domain inj _ _ d1 d2 sd1 sd2.
- exact: (same_cmonoid inj (raddfD phi) (raddf0 phi) c1 c2).
- exact: same_abelian.
Qed.
End Abelian.

Section Rings.
Variables (V1 V2 : ringType) (rep1 : E1 -> V1 -> Prop) (rep2 : E2 -> V2 -> Prop).
Variable phi : {rmorphism V1 -> V2}.
Local Notation R := (transported rep1 rep2 phi).

Lemma same_rings (A1 : RingAlg E1) (A2 : RingAlg E2) :
  monoid_embedding *%R 1 *%R 1 phi ->
  ring_alg_spec c False rep1 *%R 1 A1 -> ring_alg_spec c False rep2 *%R 1 A2 ->
  ring_alg_par ok eq A1 A1 -> ring_alg_par ok eq A2 A2 -> ring_alg_par ok R A1 A2.
Proof.
move=> hE [m1 c1 a1 u1] [m2 c2 a2 u2] [sm1 sc1 sa1 su1] [sm2 sc2 sa2 su2].
have inj := em_inj hE; split.
- by apply: (same_monoids inj hE _ _ _ m1 m2) => //; [exact: mulrA|exact: mul1r|exact: mulr1].
- exact: (same_cmonoid inj (raddfD phi) (raddf0 phi) c1 c2).
- exact: same_abelian.
- split=> n okn; apply: (par_gives (u := zmul 1 n)).
  + exact: int_par su1 _ okn.
  + exact: int_par su2 _ okn.
  + exact: int_ok u1 _ okn.
  + have -> : phi (zmul 1 n) = zmul 1 n by rewrite (phi_zmul phi) /= [phi 1]rmorph1.
    exact: int_ok u2 _ okn.
Qed.
End Rings.

Section Fields.
Variables (F1 F2 : fieldType) (rep1 : E1 -> F1 -> Prop) (rep2 : E2 -> F2 -> Prop).
Variable phi : {rmorphism F1 -> F2}.
Local Notation R := (transported rep1 rep2 phi).

Lemma field_embedding : monoid_embedding *%R 1 *%R 1 phi.
Proof.
split; [exact: fmorph_inj|exact: rmorphM|exact: rmorph1|] => u v [uv _].
have u0 : u != 0.
  by apply/negP => /eqP u0; move: uv; rewrite u0 rmorph0 mul0r => /eqP; rewrite eq_sym oner_eq0.
by exists u^-1; split; rewrite ?mulfV ?mulVf.
Qed.

Lemma phi_zexp u n : phi (zexp u n) = zexp (phi u) n.
Proof. by case: n => [|k|k] /=; rewrite ?rmorph1 ?fmorphV ?rmorphX. Qed.

Lemma same_field (A1 : Field E1) (A2 : Field E2) :
  field_spec c False rep1 A1 -> field_spec c False rep2 A2 ->
  field_par ok eq A1 A1 -> field_par ok eq A2 A2 -> field_par ok R A1 A2.
Proof.
move=> h1 h2 s1 s2; split.
- move=> x y [u xu yu]; have i1 := finv_par s1 (erefl x); have i2 := finv_par s2 (erefl y).
  have [u0|u0] := eqVneq u 0.
    by apply: par_panics => //; [apply: (finv_zero h1); rewrite -u0|apply: (finv_zero h2); rewrite -(rmorph0 phi) -u0].
  apply: (par_gives (u := u^-1)) => //; first exact: finv_ok h1 _ _ xu u0.
  by rewrite fmorphV; apply: finv_ok h2 _ _ yu _; rewrite fmorph_eq0.
- move=> x x' y y' [u xu yu] [v xv yv].
  have i1 := fdiv_par s1 (erefl x) (erefl x'); have i2 := fdiv_par s2 (erefl y) (erefl y').
  have [v0|v0] := eqVneq v 0.
    apply: par_panics => //; first by apply: (fdiv_zero h1 xu); rewrite -v0.
    by apply: (fdiv_zero h2 yu); rewrite -(rmorph0 phi) -v0.
  apply: (par_gives (u := u / v)) => //; first exact: fdiv_ok h1 _ _ _ _ xu xv v0.
  by rewrite rmorphM fmorphV; apply: fdiv_ok h2 _ _ _ _ yu yv _; rewrite fmorph_eq0.
- move=> n okn x y [u xu yu].
  have i1 := fpower_par s1 okn (erefl x); have i2 := fpower_par s2 okn (erefl y).
  have [u0|u0] := eqVneq u 0.
    apply: (par_gives (u := 0)) => //; first by apply: (fpower_zero h1); rewrite -u0.
    by rewrite rmorph0; apply: (fpower_zero h2); rewrite -(rmorph0 phi) -u0.
  apply: (par_gives (u := zexp u n)) => //; first exact: fpower_ok h1 _ _ _ okn xu u0.
  by rewrite phi_zexp; apply: fpower_ok h2 _ _ _ okn yu _; rewrite fmorph_eq0.
Qed.

Lemma same_fields (A1 : RingAlg E1) (I1 : Field E1) (A2 : RingAlg E2) (I2 : Field E2) :
  field_alg_spec c False rep1 (field_alg A1 I1) -> field_alg_spec c False rep2 (field_alg A2 I2) ->
  field_alg_par ok eq (field_alg A1 I1) (field_alg A1 I1) ->
  field_alg_par ok eq (field_alg A2 I2) (field_alg A2 I2) ->
  field_alg_par ok R (field_alg A1 I1) (field_alg A2 I2).
Proof.
move=> [h1 i1] [h2 i2] [s1 t1] [s2 t2]; apply: par_field_alg.
  have r1 := id_ring_ok (eu_idom_ok h1); have r2 := id_ring_ok (eu_idom_ok h2).
  by apply: (same_rings field_embedding r1 r2); [exact: s1|exact: s2].
exact: same_field i1 i2 t1 t2.
Qed.
End Fields.
End Ring.
