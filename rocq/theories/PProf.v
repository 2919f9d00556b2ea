(** * PProf.v -- the constructions preserve the relation between profiles. *)

From Coq Require Import ZArith.
From mathcomp Require Import all_ssreflect.
From Verif Require Import Rust Traits MInts MConstr Wp PSim PGSim CallSpec ProfSpec.

Set Implicit Arguments.
Unset Strict Implicit.
Unset Printing Implicit Defensive.

Section Prof.
Variables (st : Prop) (c1 c2 : Cfg) (ok : Z -> Prop).
Hypothesis okP : forall n, ok n -> Z.ltb n Z0 ->
  gsim st any (prim_i c1 (ptr_bits c1) (Z.opp n)) (prim_i c2 (ptr_bits c2) (Z.opp n)).
Local Notation r := (@gsim st).

(** ** Default methods *)
Section Defaults.
Variables (E : Type) (Q : E -> Prop).
Local Notation rel1 := (rel1 r Q).
Local Notation rel2 := (rel2 r Q).

Lemma prof_gpower o1 o2 m1 m2 s1 s2 i1 i2 n : r Q o1 o2 -> rel2 m1 m2 -> rel1 s1 s2 ->
  rel1 i1 i2 -> ok n -> rel1 (default_gpower c1 o1 m1 s1 i1 n) (default_gpower c2 o2 m2 s2 i2 n).
Proof.
move=> ho hm hs hi okn x Qx; rewrite /default_gpower.
apply: (gsim_bind (Q := fun p : Z * E => Q p.2)).
  apply: gsim_if => h; last exact: gsim_ret.
  apply: gsim_bind (okP okn h) _ => n' _.
  by apply: gsim_bind (hi x Qx) _ => y Qy; exact: gsim_ret.
move=> [n' y] /= Qy; apply: gsim_bind ho _ => o Qo.
by apply: gsim_bind (gsim_power_loop _ hm hs Qy Qo) _ => s [_ h]; exact: gsim_ret.
Qed.
Lemma prof_additive (D1 D2 : Domain E) (C1 C2 : CommMonoid E) n1 n2 :
  domain_rel r Q D1 D2 -> cmonoid_rel r Q C1 C2 -> rel1 n1 n2 ->
  group_alg_rel r ok Q (additive_group c1 D1 C1 n1) (additive_group c2 D2 C2 n2).
Proof.
move=> hD hC hn; split; last first.
  split=> // n okn; apply: prof_gpower => //.
  - exact: zero_rel hC.
  - exact: add_assign_rel hC.
  - exact: double_rel hC.
split.
- split; [exact: contains_rel hD|exact: equals_rel hD].
- split; [exact: add_rel hC|exact: add_assign_rel hC|exact: double_rel hC].
- split; [exact: zero_rel hC|exact: is_zero_rel hC| |].
    by move=> x Qx; apply: gsim_bind (hn x Qx) _ => y Qy; exact: gsim_ret.
  by move=> x _; exact: gsim_refl.
Qed.
Lemma prof_ztimes (D1 D2 : Domain E) (C1 C2 : CommMonoid E) n1 n2 n :
  domain_rel r Q D1 D2 -> cmonoid_rel r Q C1 C2 -> rel1 n1 n2 -> ok n ->
  rel1 (default_ztimes c1 D1 C1 n1 n) (default_ztimes c2 D2 C2 n2 n).
Proof. by move=> hD hC hn okn; exact: gpower_rel (prof_additive hD hC hn) _ okn. Qed.
Lemma prof_int t1 t2 o1 o2 n : rel1 (t1 n) (t2 n) -> r Q o1 o2 ->
  r Q (default_int t1 o1 n) (default_int t2 o2 n).
Proof. by move=> ht ho; apply: gsim_bind ho _ => o Qo; exact: ht. Qed.
Lemma prof_ginv (t1 t2 : E -> M (option E)) : rel1o r Q t1 t2 ->
  rel1 (default_ginv t1) (default_ginv t2).
Proof.
move=> h x Qx; apply: gsim_bind (h x Qx) _ => o Qo.
by apply: gsim_unwrap => v e; rewrite e in Qo.
Qed.
Lemma prof_multiplicative (A1 A2 : MonoidAlg E) : monoid_alg_rel r Q A1 A2 ->
  group_alg_rel r ok Q (MultiplicativeGroup c1 A1) (MultiplicativeGroup c2 A2).
Proof.
move=> [hD hS hO].
have hi : rel1 (multiplicative_inv A1) (multiplicative_inv A2).
  exact: (prof_ginv (try_inv_rel hO)).
split; last first.
  split=> // n okn; apply: prof_gpower => //.
  - exact: one_rel hO.
  - exact: mul_assign_rel hS.
  - exact: square_rel hS.
split.
- split; [exact: invertible_rel hO|exact: equals_rel hD].
- split; [exact: mul_rel hS|exact: mul_assign_rel hS|exact: square_rel hS].
- split; [exact: one_rel hO|exact: is_one_rel hO|exact: try_inv_rel hO|].
  by move=> x _; exact: gsim_refl.
Qed.
Lemma prof_fpower (A1 A2 : MonoidAlg E) z1 z2 i1 i2 n : monoid_alg_rel r Q A1 A2 ->
  rel1b r Q i1 i2 -> r Q z1 z2 -> ok n ->
  rel1 (default_fpower c1 A1 i1 z1 n) (default_fpower c2 A2 i2 z2 n).
Proof.
move=> hA hi hz okn x Qx; apply: gsim_bind (hi x Qx) _ => -[] _ //.
exact: gpower_rel (prof_multiplicative hA) _ okn _ Qx.
Qed.
Lemma prof_fdiv m1 m2 i1 i2 : rel2 m1 m2 -> rel1 i1 i2 ->
  rel2 (default_fdiv m1 i1) (default_fdiv m2 i2).
Proof. by move=> hm hi x y Qx Qy; apply: gsim_bind (hi y Qy) _ => z Qz; exact: hm. Qed.

Lemma prof_assert_nonzero (R1 R2 : RingAlg E) y : ring_alg_rel r ok Q R1 R2 -> Q y ->
  r any (assert_nonzero R1 y) (assert_nonzero R2 y).
Proof.
move=> hR Qy; apply: gsim_bind (is_zero_rel (ri_cmonoid_rel hR) Qy) _ => b _.
exact: gsim_refl.
Qed.
Lemma prof_field_alg (R1 R2 : RingAlg E) (F1 F2 : Field E) :
  ring_alg_rel r ok Q R1 R2 -> field_rel r ok Q F1 F2 ->
  field_alg_rel r ok Q (field_alg R1 F1) (field_alg R2 F2).
Proof.
move=> hR hF; have [[hD hS hO] hC hA hU] := hR.
have hz := is_zero_rel hC.
have htd : rel2o r Q (field_try_div (fdiv F1)) (field_try_div (fdiv F2)).
  by move=> x y Qx Qy; apply: gsim_bind (fdiv_rel hF Qx Qy) _ => z Qz; exact: gsim_ret.
have hdv := gsim_divisible hz htd.
have hq : rel2p r Q (field_quo_rem R1 F1) (field_quo_rem R2 F2).
  move=> x y Qx Qy; apply: gsim_bind (prof_assert_nonzero hR Qy) _ => _ _.
  apply: gsim_bind (fdiv_rel hF Qx Qy) _ => z Qz.
  by apply: gsim_bind (zero_rel hC) _ => o Qo; exact: gsim_ret.
have hg : rel2 (field_gcd R1) (field_gcd R2).
  move=> x y Qx Qy; apply: gsim_bind (gsim_andM (hz x Qx) (hz y Qy)) _ => -[] _.
    exact: zero_rel.
  exact: one_rel.
split=> //; split; last first.
  split.
  - exact: hq.
  - move=> x y Qx Qy; apply: gsim_bind (prof_assert_nonzero hR Qy) _ => _ _.
    exact: fdiv_rel hF _ _ Qx Qy.
  - move=> x y Qx Qy; apply: gsim_bind (prof_assert_nonzero hR Qy) _ => _ _.
    exact: zero_rel hC.
  - by move=> x y Qx Qy; apply: gsim_orM; exact: hz.
  - exact: hg.
  - move=> x y Qx Qy; apply: gsim_bind (gsim_orM (hz x Qx) (hz y Qy)) _ => -[] _.
      exact: zero_rel.
    exact: one_rel.
  - move=> x y Qx Qy; exact: (gsim_extended_gcd hz (one_rel hO) (zero_rel hC)
      (mul_rel hS) (sub_rel hA) hq Qx Qy).
  - exact: (gsim_relative_primes (invertible_rel hO) hg).
split=> //; split.
- exact: htd.
- exact: hdv.
- exact: (gsim_associates hdv).
- move=> x Qx; apply: gsim_bind (hz x Qx) _ => -[] _; first exact: zero_rel.
  exact: one_rel.
- exact: finv_rel hF.
Qed.
Lemma prof_abelian_alg (R1 R2 : RingAlg E) : ring_alg_rel r ok Q R1 R2 ->
  abelian_alg_rel r ok Q R1 R2.
Proof. by case=> [[hD _ _] hC hA _]; split. Qed.
End Defaults.

(** ** Quotients *)
Section Quotient.
Variables (E : Type) (Q : E -> Prop) (A1 A2 : EuclAlg E) (m : E).
Hypotheses (hA : eucl_alg_rel r ok Q A1 A2) (Qm : Q m).

Let hR : ring_alg_rel r ok Q A1 A2 := hA.
Let hRm : forall x, Q x -> r Q (rem A1 x m) (rem A2 x m).
Proof. by move=> x Qx; exact: rem_rel hA _ _ Qx Qm. Qed.

Lemma prof_quotient_domain : domain_rel r Q (quotient_domain A1 m) (quotient_domain A2 m).
Proof.
split; first by move=> x Qx; exact: reduced_rel hA _ _ Qx Qm.
exact: equals_rel (mo_domain_rel hR).
Qed.
Lemma prof_quotient_mul : rel2 r Q (quotient_mul A1 m) (quotient_mul A2 m).
Proof. by move=> x y Qx Qy; apply: gsim_bind (mul_rel hR Qx Qy) _ => z Qz; exact: hRm. Qed.
Lemma prof_quotient_semigroup :
  semigroup_rel r Q (quotient_semigroup A1 m) (quotient_semigroup A2 m).
Proof.
split; [exact: prof_quotient_mul|exact: prof_quotient_mul|].
by move=> x Qx; exact: prof_quotient_mul.
Qed.
Lemma prof_quotient_add : rel2 r Q (quotient_add A1 m) (quotient_add A2 m).
Proof. by move=> x y Qx Qy; apply: gsim_bind (add_rel hR Qx Qy) _ => z Qz; exact: hRm. Qed.
Lemma prof_quotient_cmonoid :
  cmonoid_rel r Q (quotient_cmonoid A1 m) (quotient_cmonoid A2 m).
Proof.
have ha := prof_quotient_add; have hz := zero_rel hR.
have hd : rel1 r Q (default_double (quotient_add A1 m)) (default_double (quotient_add A2 m)).
  by move=> x Qx; exact: ha.
split=> //; first exact: (gsim_is_zero (equals_rel prof_quotient_domain) hz).
by move=> n _ x Qx; exact: (gsim_ntimes _ hz ha hd Qx).
Qed.
Lemma prof_quotient_neg : rel1 r Q (quotient_neg A1 m) (quotient_neg A2 m).
Proof. by move=> x Qx; apply: gsim_bind (neg_rel hR Qx) _ => z Qz; exact: hRm. Qed.
Lemma prof_quotient_abelian :
  abelian_rel r ok Q (quotient_abelian c1 A1 m) (quotient_abelian c2 A2 m).
Proof.
have hn := prof_quotient_neg; have ha := prof_quotient_add.
split=> //; [exact: (gsim_sub hn ha)|exact: (gsim_sub_assign hn ha)|].
move=> n okn; exact: (prof_ztimes prof_quotient_domain prof_quotient_cmonoid hn okn).
Qed.
Lemma prof_quotient_ring :
  ring_alg_rel r ok Q (QuotientRing c1 A1 m) (QuotientRing c2 A2 m).
Proof.
have hO := ri_monoid_alg_rel hR.
have ht : rel1o r Q (quotient_ring_try_inv A1 m) (quotient_ring_try_inv A2 m).
  move=> x Qx; apply: gsim_bind (extended_gcd_rel hA Qm Qx) _ => -[[g s] t] [[/= Qg _] Qt].
  apply: gsim_bind (try_inv_rel hO Qg) _ => -[a|] Qa; last exact: gsim_ret.
  by apply: gsim_bind (prof_quotient_mul Qa Qt) _ => z Qz; exact: gsim_ret.
split.
- split; [exact: prof_quotient_domain|exact: prof_quotient_semigroup|].
  split; [exact: one_rel hO|exact: is_one_rel hO|exact: ht|exact: (gsim_invertible ht)].
- exact: prof_quotient_cmonoid.
- exact: prof_quotient_abelian.
- split=> n okn; apply: prof_int; last exact: one_rel hO.
  exact: ztimes_rel prof_quotient_abelian _ okn.
Qed.
Lemma prof_quotient_field_inv : rel1 r Q (quotient_field_inv A1 m) (quotient_field_inv A2 m).
Proof.
have hO := ri_monoid_alg_rel hR.
move=> x Qx; apply: gsim_bind (is_zero_rel prof_quotient_cmonoid Qx) _ => b _.
apply: gsim_bind (gsim_assert _ _) _ => _ _.
apply: gsim_bind (extended_gcd_rel hA Qm Qx) _ => -[[g s] t] [[/= Qg _] Qt].
apply: gsim_bind (try_inv_rel hO Qg) _ => o Qo.
apply: (gsim_bind (Q := Q)); first by apply: gsim_unwrap => v e; rewrite e in Qo.
by move=> a Qa; exact: prof_quotient_mul.
Qed.
Lemma prof_quotient_field_ring :
  ring_alg_rel r ok Q (quotient_field_ring c1 A1 m) (quotient_field_ring c2 A2 m).
Proof.
have hO := ri_monoid_alg_rel hR; have hz := is_zero_rel prof_quotient_cmonoid.
split.
- split; [exact: prof_quotient_domain|exact: prof_quotient_semigroup|].
  split; [exact: one_rel hO|exact: is_one_rel hO| |].
    move=> x Qx; apply: gsim_bind (hz x Qx) _ => -[] _; first exact: gsim_ret.
    by apply: gsim_bind (prof_quotient_field_inv Qx) _ => y Qy; exact: gsim_ret.
  by move=> x Qx; apply: gsim_notM; exact: hz.
- exact: prof_quotient_cmonoid.
- exact: prof_quotient_abelian.
- split=> n okn; apply: prof_int; last exact: one_rel hO.
  exact: ztimes_rel prof_quotient_abelian _ okn.
Qed.
Lemma prof_quotient_field :
  field_alg_rel r ok Q (QuotientField c1 A1 m) (QuotientField c2 A2 m).
Proof.
apply: prof_field_alg; first exact: prof_quotient_field_ring.
have hi := prof_quotient_field_inv.
split=> //; first exact: (prof_fdiv prof_quotient_mul hi).
move=> n okn; apply: prof_fpower okn; first exact: prof_quotient_field_ring.
  exact: is_zero_rel prof_quotient_cmonoid.
exact: zero_rel hR.
Qed.
End Quotient.

(** ** Fractions *)
Section Fractions.
Variables (E : Type) (Q : E -> Prop) (A1 A2 : EuclAlg E).
Hypothesis hA : eucl_alg_rel r ok Q A1 A2.
Local Notation Q2 := (in_pair Q).

Let hR : ring_alg_rel r ok Q A1 A2 := hA.
Let hO : monoid_alg_rel r Q A1 A2 := hR.
Let hC : cmonoid_rel r Q A1 A2 := hR.
Let hI : idom_rel r Q A1 A2 := hA.

Lemma prof_fractions_scale n d : Q n -> Q d ->
  r Q2
   (let! coef := associate_coef A1 d in let! c := is_one A1 coef in
    if ~~ c then let! n := mul A1 n coef in let! d := mul A1 d coef in ret (n, d)
    else ret (n, d))
   (let! coef := associate_coef A2 d in let! c := is_one A2 coef in
    if ~~ c then let! n := mul A2 n coef in let! d := mul A2 d coef in ret (n, d)
    else ret (n, d)).
Proof.
move=> Qn Qd; apply: gsim_bind (associate_coef_rel hI Qd) _ => c Qc.
apply: gsim_bind (is_one_rel hO Qc) _ => b _.
apply: gsim_if => _; last exact: gsim_ret.
apply: gsim_bind (mul_rel hO Qn Qc) _ => n' Qn'.
by apply: gsim_bind (mul_rel hO Qd Qc) _ => d' Qd'; exact: gsim_ret.
Qed.
Lemma prof_fractions_reduce : rel1 r Q2 (fractions_reduce A1) (fractions_reduce A2).
Proof.
move=> [n d] [/= Qn Qd]; apply: gsim_bind (is_zero_rel hC Qd) _ => b _.
apply: gsim_bind (gsim_assert _ _) _ => _ _.
apply: gsim_bind (gcd_rel hA Qn Qd) _ => g Qg.
apply: gsim_bind (quo_rel hA Qn Qg) _ => n' Qn'.
apply: gsim_bind (quo_rel hA Qd Qg) _ => d' Qd'.
exact: prof_fractions_scale.
Qed.
Lemma prof_fractions_domain : domain_rel r Q2 (fractions_domain A1) (fractions_domain A2).
Proof.
split.
  move=> [n d] [/= Qn Qd]; apply: gsim_andM; first exact: relative_primes_rel hA _ _ Qn Qd.
  by apply: gsim_bind (associate_coef_rel hI Qd) _ => c Qc; exact: is_one_rel hO _ Qc.
move=> [n d] [n' d'] [/= Qn Qd] [/= Qn' Qd'].
by apply: gsim_andM; apply: (equals_rel (mo_domain_rel hO)).
Qed.
Lemma prof_fractions_mul : rel2 r Q2 (fractions_mul A1) (fractions_mul A2).
Proof.
move=> [n d] [n' d'] [/= Qn Qd] [/= Qn' Qd'].
apply: gsim_bind (mul_rel hO Qn Qn') _ => a Qa.
by apply: gsim_bind (mul_rel hO Qd Qd') _ => b Qb; exact: prof_fractions_reduce.
Qed.
Lemma prof_fractions_one : r Q2 (fractions_one A1) (fractions_one A2).
Proof.
apply: gsim_bind (one_rel hO) _ => a Qa.
by apply: gsim_bind (one_rel hO) _ => b Qb; exact: gsim_ret.
Qed.
Lemma prof_fractions_zero : r Q2 (fractions_zero A1) (fractions_zero A2).
Proof.
apply: gsim_bind (zero_rel hC) _ => a Qa.
by apply: gsim_bind (one_rel hO) _ => b Qb; exact: gsim_ret.
Qed.
Lemma prof_fractions_monoid : monoid_alg_rel r Q2 (fractions_ring A1) (fractions_ring A2).
Proof.
have hv : rel1b r Q2 (fractions_invertible A1) (fractions_invertible A2).
  by move=> [n d] [/= Qn Qd]; apply: gsim_notM; exact: is_zero_rel hC _ Qn.
split; first exact: prof_fractions_domain.
  split; [exact: prof_fractions_mul|exact: prof_fractions_mul|].
  by move=> x Qx; exact: prof_fractions_mul.
split; [exact: prof_fractions_one| | |exact: hv].
  by move=> [n d] [/= Qn Qd]; apply: gsim_andM; apply: (is_one_rel hO).
move=> x Qx; apply: gsim_bind (hv x Qx) _ => -[] _; last exact: gsim_ret.
case: x Qx => [n d] [/= Qn Qd].
have Qdn : Q2 (d, n) by [].
by apply: gsim_bind (prof_fractions_reduce Qdn) _ => y Qy; exact: gsim_ret.
Qed.
Lemma prof_fractions_add : rel2 r Q2 (fractions_add A1) (fractions_add A2).
Proof.
move=> [n d] [n' d'] [/= Qn Qd] [/= Qn' Qd'].
apply: gsim_bind (equals_rel (mo_domain_rel hO) Qd Qd') _ => b _.
apply: (gsim_bind (Q := Q2)); last by move=> e Qe; exact: prof_fractions_reduce.
apply: gsim_if => _ /=.
  by apply: gsim_bind (add_rel hC Qn Qn') _ => a Qa; exact: gsim_ret.
apply: gsim_bind (mul_rel hO Qn Qd') _ => a Qa.
apply: gsim_bind (mul_rel hO Qd Qn') _ => e Qe.
apply: gsim_bind (add_rel hC Qa Qe) _ => f Qf.
by apply: gsim_bind (mul_rel hO Qd Qd') _ => g Qg; exact: gsim_ret.
Qed.
Lemma prof_fractions_cmonoid :
  cmonoid_rel r Q2 (fractions_cmonoid A1) (fractions_cmonoid A2).
Proof.
have ha := prof_fractions_add; have hz := prof_fractions_zero.
have hd : rel1 r Q2 (default_double (fractions_add A1)) (default_double (fractions_add A2)).
  by move=> x Qx; exact: ha.
split=> //; first exact: (gsim_is_zero (equals_rel prof_fractions_domain) hz).
by move=> n _ x Qx; exact: (gsim_ntimes _ hz ha hd Qx).
Qed.
Lemma prof_fractions_abelian :
  abelian_rel r ok Q2 (fractions_abelian A1) (fractions_abelian A2).
Proof.
have hn : rel1 r Q2 (fractions_neg A1) (fractions_neg A2).
  move=> [n d] [/= Qn Qd]; apply: gsim_bind (neg_rel hR Qn) _ => a Qa.
  exact: gsim_ret.
have ha := prof_fractions_add.
split=> //; [exact: (gsim_sub hn ha)|exact: (gsim_sub_assign hn ha)|].
move=> n okn [p q] [/= Qp Qq]; apply: gsim_bind (ztimes_rel hR okn Qp) _ => a Qa.
exact: prof_fractions_reduce.
Qed.
Lemma prof_fractions_ring : ring_alg_rel r ok Q2 (fractions_ring A1) (fractions_ring A2).
Proof.
split; [exact: prof_fractions_monoid|exact: prof_fractions_cmonoid|
        exact: prof_fractions_abelian|].
split=> n okn; apply: prof_int; last exact: prof_fractions_one.
exact: ztimes_rel prof_fractions_abelian _ okn.
Qed.
Lemma prof_fractions :
  field_alg_rel r ok Q2 (ReducedFractions c1 A1) (ReducedFractions c2 A2).
Proof.
have hi : rel1 r Q2 (fractions_inv A1) (fractions_inv A2).
  move=> [n d] [/= Qn Qd]; apply: gsim_bind (is_zero_rel hC Qn) _ => b _.
  by apply: gsim_bind (gsim_assert _ _) _ => _ _; exact: prof_fractions_scale.
apply: prof_field_alg; first exact: prof_fractions_ring.
split=> //; first exact: (prof_fdiv prof_fractions_mul hi).
move=> n okn; apply: prof_fpower okn; first exact: prof_fractions_monoid.
  exact: is_zero_rel prof_fractions_cmonoid.
exact: prof_fractions_zero.
Qed.
End Fractions.

(** ** Divisibility order *)
Section Divisibility.
Variables (E : Type) (Q : E -> Prop).
Lemma prof_less_than (e1 e2 l1 l2 : E -> E -> M bool) : rel2b r Q e1 e2 -> rel2b r Q l1 l2 ->
  rel2b r Q (default_less_than e1 l1) (default_less_than e2 l2).
Proof.
move=> he hl x y Qx Qy; apply: gsim_andM; last exact: hl.
by apply: gsim_notM; exact: he.
Qed.
Lemma prof_comparable (l1 l2 : E -> E -> M bool) : rel2b r Q l1 l2 ->
  rel2b r Q (default_comparable l1) (default_comparable l2).
Proof. by move=> hl x y Qx Qy; apply: gsim_orM; exact: hl. Qed.
Lemma prof_divorder (A1 A2 : IDomAlg E) : idom_alg_rel r ok Q A1 A2 ->
  bounded_alg_rel r Q (DivisibilityOrder A1) (DivisibilityOrder A2).
Proof.
move=> hA; have [hR hI] := hA; have [[hD hS hO] hC _ _] := hR.
have hd : domain_rel r Q (divorder_domain A1) (divorder_domain A2).
  split; last exact: equals_rel hD.
  move=> x Qx; apply: gsim_orM; first exact: is_zero_rel hC _ Qx.
  by apply: gsim_bind (associate_coef_rel hI Qx) _ => c Qc; exact: is_one_rel hO _ Qc.
have hl : rel2b r Q (divorder_leq A1) (divorder_leq A2).
  by move=> x y Qx Qy; exact: divisible_rel hI _ _ Qy Qx.
split; last by split; [exact: zero_rel hC|exact: one_rel hO].
split=> //; split=> //; last exact: prof_comparable.
exact: prof_less_than (equals_rel hd) hl.
Qed.
Lemma prof_divlattice (A1 A2 : EuclAlg E) : eucl_alg_rel r ok Q A1 A2 ->
  lattice_alg_rel r Q (DivisibilityLattice A1) (DivisibilityLattice A2).
Proof.
move=> hA; split; first by case: (prof_divorder hA).
have hI : idom_rel r Q A1 A2 := hA.
split=> x y Qx Qy.
  by apply: gsim_bind (gcd_rel hA Qx Qy) _ => g Qg; exact: associate_repr_rel hI _ Qg.
by apply: gsim_bind (lcm_rel hA Qx Qy) _ => g Qg; exact: associate_repr_rel hI _ Qg.
Qed.
End Divisibility.
End Prof.
