(** * PHalt.v -- the constructions preserve that calls come to an end. *)

From Coq Require Import ZArith.
From mathcomp Require Import all_ssreflect.
From Verif Require Import Rust Traits MInts MConstr Wp PSim CallSpec ProfSpec HaltSpec PHSim.

Set Implicit Arguments.
Unset Strict Implicit.
Unset Printing Implicit Defensive.

Section Prof.
Variables (c1 c2 : Cfg) (ok : Z -> Prop).
Local Notation r := halts.
Lemma halt_prim z : r any (prim_i c1 (ptr_bits c1) z) (prim_i c2 (ptr_bits c2) z).
Proof.
rewrite /prim_i; case: ifP => _; first exact: hsim_ret.
by case: (overflow_checks c1); [exact: hsim_panic|exact: hsim_ret].
Qed.

(** ** Default methods *)
Section Defaults.
Variables (E : Type) (Q : E -> Prop).
Local Notation rel1 := (rel1 r Q).
Local Notation rel2 := (rel2 r Q).

Lemma halt_gpower o1 o2 m1 m2 s1 s2 i1 i2 n : r Q o1 o2 -> rel2 m1 m2 -> rel1 s1 s2 ->
  rel1 i1 i2 -> ok n -> rel1 (default_gpower c1 o1 m1 s1 i1 n) (default_gpower c2 o2 m2 s2 i2 n).
Proof.
move=> ho hm hs hi okn x Qx; rewrite /default_gpower.
apply: (hsim_bind (Q := fun p : Z * E => Q p.2)).
  apply: hsim_if => h; last exact: hsim_ret.
  apply: hsim_bind (halt_prim _) _ => n' _.
  by apply: hsim_bind (hi x Qx) _ => y Qy; exact: hsim_ret.
move=> [n' y] /= Qy; apply: hsim_bind ho _ => o Qo.
by apply: hsim_bind (hsim_power_loop _ hm hs Qy Qo) _ => s [_ h]; exact: hsim_ret.
Qed.
Lemma halt_additive (D1 D2 : Domain E) (C1 C2 : CommMonoid E) n1 n2 :
  domain_rel r Q D1 D2 -> cmonoid_rel r Q C1 C2 -> rel1 n1 n2 ->
  group_alg_rel r ok Q (additive_group c1 D1 C1 n1) (additive_group c2 D2 C2 n2).
Proof.
move=> hD hC hn; split; last first.
  split=> // n okn; apply: halt_gpower => //.
  - exact: zero_rel hC.
  - exact: add_assign_rel hC.
  - exact: double_rel hC.
split.
- split; [exact: contains_rel hD|exact: equals_rel hD].
- split; [exact: add_rel hC|exact: add_assign_rel hC|exact: double_rel hC].
- split; [exact: zero_rel hC|exact: is_zero_rel hC| |].
    by move=> x Qx; apply: hsim_bind (hn x Qx) _ => y Qy; exact: hsim_ret.
  by move=> x _; exact: hsim_ret.
Qed.
Lemma halt_ztimes (D1 D2 : Domain E) (C1 C2 : CommMonoid E) n1 n2 n :
  domain_rel r Q D1 D2 -> cmonoid_rel r Q C1 C2 -> rel1 n1 n2 -> ok n ->
  rel1 (default_ztimes c1 D1 C1 n1 n) (default_ztimes c2 D2 C2 n2 n).
Proof. by move=> hD hC hn okn; exact: gpower_rel (halt_additive hD hC hn) _ okn. Qed.
Lemma halt_int t1 t2 o1 o2 n : rel1 (t1 n) (t2 n) -> r Q o1 o2 ->
  r Q (default_int t1 o1 n) (default_int t2 o2 n).
Proof. by move=> ht ho; apply: hsim_bind ho _ => o Qo; exact: ht. Qed.
Lemma halt_ginv (t1 t2 : E -> M (option E)) : rel1o r Q t1 t2 ->
  rel1 (default_ginv t1) (default_ginv t2).
Proof.
move=> h x Qx; apply: hsim_bind (h x Qx) _ => o Qo.
by apply: hsim_unwrap => v e; rewrite e in Qo.
Qed.
Lemma halt_multiplicative (A1 A2 : MonoidAlg E) : monoid_alg_rel r Q A1 A2 ->
  group_alg_rel r ok Q (MultiplicativeGroup c1 A1) (MultiplicativeGroup c2 A2).
Proof.
move=> [hD hS hO].
have hi : rel1 (multiplicative_inv A1) (multiplicative_inv A2).
  exact: (halt_ginv (try_inv_rel hO)).
split; last first.
  split=> // n okn; apply: halt_gpower => //.
  - exact: one_rel hO.
  - exact: mul_assign_rel hS.
  - exact: square_rel hS.
split.
- split; [exact: invertible_rel hO|exact: equals_rel hD].
- split; [exact: mul_rel hS|exact: mul_assign_rel hS|exact: square_rel hS].
- split; [exact: one_rel hO|exact: is_one_rel hO|exact: try_inv_rel hO|].
  by move=> x _; exact: hsim_ret.
Qed.
Lemma halt_fpower (A1 A2 : MonoidAlg E) z1 z2 i1 i2 n : monoid_alg_rel r Q A1 A2 ->
  rel1b r Q i1 i2 -> r Q z1 z2 -> ok n ->
  rel1 (default_fpower c1 A1 i1 z1 n) (default_fpower c2 A2 i2 z2 n).
Proof.
move=> hA hi hz okn x Qx; apply: hsim_bind (hi x Qx) _ => -[] _ //.
exact: gpower_rel (halt_multiplicative hA) _ okn _ Qx.
Qed.
Lemma halt_fdiv m1 m2 i1 i2 : rel2 m1 m2 -> rel1 i1 i2 ->
  rel2 (default_fdiv m1 i1) (default_fdiv m2 i2).
Proof. by move=> hm hi x y Qx Qy; apply: hsim_bind (hi y Qy) _ => z Qz; exact: hm. Qed.

Lemma halt_assert_nonzero (R1 R2 : RingAlg E) y : ring_alg_rel r ok Q R1 R2 -> Q y ->
  r any (assert_nonzero R1 y) (assert_nonzero R2 y).
Proof.
move=> hR Qy; apply: hsim_bind (is_zero_rel (ri_cmonoid_rel hR) Qy) _ => b _.
by apply: hsim_mono (hsim_assert _) _.
Qed.
Lemma halt_field_alg (R1 R2 : RingAlg E) (F1 F2 : Field E) :
  ring_alg_rel r ok Q R1 R2 -> field_rel r ok Q F1 F2 ->
  (forall z, returns (zero R1) z -> returns (is_zero R1 z) true) ->
  field_alg_rel r ok Q (field_alg R1 F1) (field_alg R2 F2).
Proof.
move=> hR hF hzz; have [[hD hS hO] hC hA hU] := hR.
have hz := is_zero_rel hC.
have htd : rel2o r Q (field_try_div (fdiv F1)) (field_try_div (fdiv F2)).
  by move=> x y Qx Qy; apply: hsim_bind (fdiv_rel hF Qx Qy) _ => z Qz; exact: hsim_ret.
have hdv := hsim_divisible hz htd.
have hq : rel2p r Q (field_quo_rem R1 F1) (field_quo_rem R2 F2).
  move=> x y Qx Qy; apply: hsim_bind (halt_assert_nonzero hR Qy) _ => _ _.
  apply: hsim_bind (fdiv_rel hF Qx Qy) _ => z Qz.
  by apply: hsim_bind (zero_rel hC) _ => o Qo; exact: hsim_ret.
have hds : descends Q (is_zero R1) (field_quo_rem R1 F1) (fun _ => 0).
  move=> x y Qx Qy; have /haltsE ha := halt_assert_nonzero hR Qy.
  apply: ensures_bind ha _ => _ _; have /haltsE hd := fdiv_rel hF Qx Qy.
  apply: ensures_bind hd _ => z Qz; have /haltsE h0 := zero_rel hC.
  case: h0 => [[o [ho Qo]]|[_ ho]]; last by right; split=> //; exact: panics_bind.
  apply: (@ensures_returns _ _ _ _ (z, o)); first by apply: returns_bind ho _; exact: returns_ret.
  by split=> //; left; exact: hzz.
have hg : rel2 (field_gcd R1) (field_gcd R2).
  move=> x y Qx Qy; apply: hsim_bind (hsim_andM (hz x Qx) (hz y Qy)) _ => -[] _.
    exact: zero_rel.
  exact: one_rel.
split=> //; split; last first.
  split.
  - exact: hq.
  - move=> x y Qx Qy; apply: hsim_bind (halt_assert_nonzero hR Qy) _ => _ _.
    exact: fdiv_rel hF _ _ Qx Qy.
  - move=> x y Qx Qy; apply: hsim_bind (halt_assert_nonzero hR Qy) _ => _ _.
    exact: zero_rel hC.
  - by move=> x y Qx Qy; apply: hsim_orM; exact: hz.
  - exact: hg.
  - move=> x y Qx Qy; apply: hsim_bind (hsim_orM (hz x Qx) (hz y Qy)) _ => -[] _.
      exact: zero_rel.
    exact: one_rel.
  - move=> x y Qx Qy; exact: (hsim_extended_gcd _ hz (one_rel hO) (zero_rel hC)
      (mul_rel hS) (sub_rel hA) hds Qx Qy).
  - exact: (hsim_relative_primes (invertible_rel hO) hg).
split=> //; split.
- exact: htd.
- exact: hdv.
- exact: (hsim_associates hdv).
- move=> x Qx; apply: hsim_bind (hz x Qx) _ => -[] _; first exact: zero_rel.
  exact: one_rel.
- exact: finv_rel hF.
Qed.
Lemma halt_abelian_alg (R1 R2 : RingAlg E) : ring_alg_rel r ok Q R1 R2 ->
  abelian_alg_rel r ok Q R1 R2.
Proof. by case=> [[hD _ _] hC hA _]; split. Qed.
End Defaults.

(** ** Quotients *)
Section Quotient.
Variables (E : Type) (Q : E -> Prop) (A1 A2 : EuclAlg E) (m : E).
Hypotheses (hA : eucl_alg_rel r ok Q A1 A2) (Qm : Q m).

Let hR : ring_alg_rel r ok Q A1 A2 := hA.
Let hRm : forall x, Q x -> r Q (rem A1 x m) (rem A2 x m).
Proof. by move=> x Qx; exact: rem_rel hA _ _ Qx Qm. Qed.

Lemma halt_quotient_domain : domain_rel r Q (quotient_domain A1 m) (quotient_domain A2 m).
Proof.
split; first by move=> x Qx; exact: reduced_rel hA _ _ Qx Qm.
exact: equals_rel (mo_domain_rel hR).
Qed.
Lemma halt_quotient_mul : rel2 r Q (quotient_mul A1 m) (quotient_mul A2 m).
Proof. by move=> x y Qx Qy; apply: hsim_bind (mul_rel hR Qx Qy) _ => z Qz; exact: hRm. Qed.
Lemma halt_quotient_semigroup :
  semigroup_rel r Q (quotient_semigroup A1 m) (quotient_semigroup A2 m).
Proof.
split; [exact: halt_quotient_mul|exact: halt_quotient_mul|].
by move=> x Qx; exact: halt_quotient_mul.
Qed.
Lemma halt_quotient_add : rel2 r Q (quotient_add A1 m) (quotient_add A2 m).
Proof. by move=> x y Qx Qy; apply: hsim_bind (add_rel hR Qx Qy) _ => z Qz; exact: hRm. Qed.
Lemma halt_quotient_cmonoid :
  cmonoid_rel r Q (quotient_cmonoid A1 m) (quotient_cmonoid A2 m).
Proof.
have ha := halt_quotient_add; have hz := zero_rel hR.
have hd : rel1 r Q (default_double (quotient_add A1 m)) (default_double (quotient_add A2 m)).
  by move=> x Qx; exact: ha.
split=> //; first exact: (hsim_is_zero (equals_rel halt_quotient_domain) hz).
by move=> n _ x Qx; exact: (hsim_ntimes _ hz ha hd Qx).
Qed.
Lemma halt_quotient_neg : rel1 r Q (quotient_neg A1 m) (quotient_neg A2 m).
Proof. by move=> x Qx; apply: hsim_bind (neg_rel hR Qx) _ => z Qz; exact: hRm. Qed.
Lemma halt_quotient_abelian :
  abelian_rel r ok Q (quotient_abelian c1 A1 m) (quotient_abelian c2 A2 m).
Proof.
have hn := halt_quotient_neg; have ha := halt_quotient_add.
split=> //; [exact: (hsim_sub hn ha)|exact: (hsim_sub_assign hn ha)|].
move=> n okn; exact: (halt_ztimes halt_quotient_domain halt_quotient_cmonoid hn okn).
Qed.
Lemma halt_quotient_ring :
  ring_alg_rel r ok Q (QuotientRing c1 A1 m) (QuotientRing c2 A2 m).
Proof.
have hO := ri_monoid_alg_rel hR.
have ht : rel1o r Q (quotient_ring_try_inv A1 m) (quotient_ring_try_inv A2 m).
  move=> x Qx; apply: hsim_bind (extended_gcd_rel hA Qm Qx) _ => -[[g s] t] [[/= Qg _] Qt].
  apply: hsim_bind (try_inv_rel hO Qg) _ => -[a|] Qa; last exact: hsim_ret.
  by apply: hsim_bind (halt_quotient_mul Qa Qt) _ => z Qz; exact: hsim_ret.
split.
- split; [exact: halt_quotient_domain|exact: halt_quotient_semigroup|].
  split; [exact: one_rel hO|exact: is_one_rel hO|exact: ht|exact: (hsim_invertible ht)].
- exact: halt_quotient_cmonoid.
- exact: halt_quotient_abelian.
- split=> n okn; apply: halt_int; last exact: one_rel hO.
  exact: ztimes_rel halt_quotient_abelian _ okn.
Qed.
Lemma halt_quotient_field_inv : rel1 r Q (quotient_field_inv A1 m) (quotient_field_inv A2 m).
Proof.
have hO := ri_monoid_alg_rel hR.
move=> x Qx; apply: hsim_bind (is_zero_rel halt_quotient_cmonoid Qx) _ => b _.
apply: hsim_bind (hsim_assert _) _ => _ _.
apply: hsim_bind (extended_gcd_rel hA Qm Qx) _ => -[[g s] t] [[/= Qg _] Qt].
apply: hsim_bind (try_inv_rel hO Qg) _ => o Qo.
apply: (hsim_bind (Q := Q)); first by apply: hsim_unwrap => v e; rewrite e in Qo.
by move=> a Qa; exact: halt_quotient_mul.
Qed.
Lemma halt_quotient_field_ring :
  ring_alg_rel r ok Q (quotient_field_ring c1 A1 m) (quotient_field_ring c2 A2 m).
Proof.
have hO := ri_monoid_alg_rel hR; have hz := is_zero_rel halt_quotient_cmonoid.
split.
- split; [exact: halt_quotient_domain|exact: halt_quotient_semigroup|].
  split; [exact: one_rel hO|exact: is_one_rel hO| |].
    move=> x Qx; apply: hsim_bind (hz x Qx) _ => -[] _; first exact: hsim_ret.
    by apply: hsim_bind (halt_quotient_field_inv Qx) _ => y Qy; exact: hsim_ret.
  by move=> x Qx; apply: hsim_notM; exact: hz.
- exact: halt_quotient_cmonoid.
- exact: halt_quotient_abelian.
- split=> n okn; apply: halt_int; last exact: one_rel hO.
  exact: ztimes_rel halt_quotient_abelian _ okn.
Qed.
Lemma sane_quotient_zero z : sane_constants A1 -> returns (zero A1) z ->
  returns (default_is_zero (equals A1) (zero A1) z) true.
Proof. by move=> [_ h _] hz; apply: returns_bind (hz) _; exact: h. Qed.
Lemma sane_quotient : sane_constants A1 -> sane_constants (QuotientField c1 A1 m).
Proof.
move=> hs; split=> z hz; first exact: sane_quotient_zero.
  by case: hs => _ h _; exact: h.
by case: hs => _ _ h; exact: h.
Qed.
Lemma halt_quotient_field : sane_constants A1 ->
  field_alg_rel r ok Q (QuotientField c1 A1 m) (QuotientField c2 A2 m).
Proof.
move=> hs; apply: halt_field_alg; first exact: halt_quotient_field_ring; last first.
  by move=> z hz; exact: (sane_quotient_zero hs hz).
have hi := halt_quotient_field_inv.
split=> //; first exact: (halt_fdiv halt_quotient_mul hi).
move=> n okn; apply: halt_fpower okn; first exact: halt_quotient_field_ring.
  exact: is_zero_rel halt_quotient_cmonoid.
exact: zero_rel hR.
Qed.
End Quotient.

(** ** Fractions *)
Section Fractions.
Variables (E : Type) (Q : E -> Prop) (A1 A2 : EuclAlg E).
Hypothesis hA : eucl_alg_rel r ok Q A1 A2.
Local Notation Q2 := (in_pair Q).

Let hR : ring_alg_rel r ok Q A1 A2 := hA.
Let hO : monoid_alg_rel r Q A1 A2 := hR.
Let hC : cmonoid_rel r Q A1 A2 := hR.
Let hI : idom_rel r Q A1 A2 := hA.

Lemma halt_fractions_scale n d : Q n -> Q d ->
  r Q2
   (let! coef := associate_coef A1 d in let! c := is_one A1 coef in
    if ~~ c then let! n := mul A1 n coef in let! d := mul A1 d coef in ret (n, d)
    else ret (n, d))
   (let! coef := associate_coef A2 d in let! c := is_one A2 coef in
    if ~~ c then let! n := mul A2 n coef in let! d := mul A2 d coef in ret (n, d)
    else ret (n, d)).
Proof.
move=> Qn Qd; apply: hsim_bind (associate_coef_rel hI Qd) _ => c Qc.
apply: hsim_bind (is_one_rel hO Qc) _ => b _.
apply: hsim_if => _; last exact: hsim_ret.
apply: hsim_bind (mul_rel hO Qn Qc) _ => n' Qn'.
by apply: hsim_bind (mul_rel hO Qd Qc) _ => d' Qd'; exact: hsim_ret.
Qed.
Lemma halt_fractions_reduce : rel1 r Q2 (fractions_reduce A1) (fractions_reduce A2).
Proof.
move=> [n d] [/= Qn Qd]; apply: hsim_bind (is_zero_rel hC Qd) _ => b _.
apply: hsim_bind (hsim_assert _) _ => _ _.
apply: hsim_bind (gcd_rel hA Qn Qd) _ => g Qg.
apply: hsim_bind (quo_rel hA Qn Qg) _ => n' Qn'.
apply: hsim_bind (quo_rel hA Qd Qg) _ => d' Qd'.
exact: halt_fractions_scale.
Qed.
Lemma halt_fractions_domain : domain_rel r Q2 (fractions_domain A1) (fractions_domain A2).
Proof.
split.
  move=> [n d] [/= Qn Qd]; apply: hsim_andM; first exact: relative_primes_rel hA _ _ Qn Qd.
  by apply: hsim_bind (associate_coef_rel hI Qd) _ => c Qc; exact: is_one_rel hO _ Qc.
move=> [n d] [n' d'] [/= Qn Qd] [/= Qn' Qd'].
by apply: hsim_andM; apply: (equals_rel (mo_domain_rel hO)).
Qed.
Lemma halt_fractions_mul : rel2 r Q2 (fractions_mul A1) (fractions_mul A2).
Proof.
move=> [n d] [n' d'] [/= Qn Qd] [/= Qn' Qd'].
apply: hsim_bind (mul_rel hO Qn Qn') _ => a Qa.
by apply: hsim_bind (mul_rel hO Qd Qd') _ => b Qb; exact: halt_fractions_reduce.
Qed.
Lemma halt_fractions_one : r Q2 (fractions_one A1) (fractions_one A2).
Proof.
apply: hsim_bind (one_rel hO) _ => a Qa.
by apply: hsim_bind (one_rel hO) _ => b Qb; exact: hsim_ret.
Qed.
Lemma halt_fractions_zero : r Q2 (fractions_zero A1) (fractions_zero A2).
Proof.
apply: hsim_bind (zero_rel hC) _ => a Qa.
by apply: hsim_bind (one_rel hO) _ => b Qb; exact: hsim_ret.
Qed.
Lemma halt_fractions_monoid : monoid_alg_rel r Q2 (fractions_ring A1) (fractions_ring A2).
Proof.
have hv : rel1b r Q2 (fractions_invertible A1) (fractions_invertible A2).
  by move=> [n d] [/= Qn Qd]; apply: hsim_notM; exact: is_zero_rel hC _ Qn.
split; first exact: halt_fractions_domain.
  split; [exact: halt_fractions_mul|exact: halt_fractions_mul|].
  by move=> x Qx; exact: halt_fractions_mul.
split; [exact: halt_fractions_one| | |exact: hv].
  by move=> [n d] [/= Qn Qd]; apply: hsim_andM; apply: (is_one_rel hO).
move=> x Qx; apply: hsim_bind (hv x Qx) _ => -[] _; last exact: hsim_ret.
case: x Qx => [n d] [/= Qn Qd].
have Qdn : Q2 (d, n) by [].
by apply: hsim_bind (halt_fractions_reduce Qdn) _ => y Qy; exact: hsim_ret.
Qed.
Lemma halt_fractions_add : rel2 r Q2 (fractions_add A1) (fractions_add A2).
Proof.
move=> [n d] [n' d'] [/= Qn Qd] [/= Qn' Qd'].
apply: hsim_bind (equals_rel (mo_domain_rel hO) Qd Qd') _ => b _.
apply: (hsim_bind (Q := Q2)); last by move=> e Qe; exact: halt_fractions_reduce.
apply: hsim_if => _ /=.
  by apply: hsim_bind (add_rel hC Qn Qn') _ => a Qa; exact: hsim_ret.
apply: hsim_bind (mul_rel hO Qn Qd') _ => a Qa.
apply: hsim_bind (mul_rel hO Qd Qn') _ => e Qe.
apply: hsim_bind (add_rel hC Qa Qe) _ => f Qf.
by apply: hsim_bind (mul_rel hO Qd Qd') _ => g Qg; exact: hsim_ret.
Qed.
Lemma halt_fractions_cmonoid :
  cmonoid_rel r Q2 (fractions_cmonoid A1) (fractions_cmonoid A2).
Proof.
have ha := halt_fractions_add; have hz := halt_fractions_zero.
have hd : rel1 r Q2 (default_double (fractions_add A1)) (default_double (fractions_add A2)).
  by move=> x Qx; exact: ha.
split=> //; first exact: (hsim_is_zero (equals_rel halt_fractions_domain) hz).
by move=> n _ x Qx; exact: (hsim_ntimes _ hz ha hd Qx).
Qed.
Lemma halt_fractions_abelian :
  abelian_rel r ok Q2 (fractions_abelian A1) (fractions_abelian A2).
Proof.
have hn : rel1 r Q2 (fractions_neg A1) (fractions_neg A2).
  move=> [n d] [/= Qn Qd]; apply: hsim_bind (neg_rel hR Qn) _ => a Qa.
  exact: hsim_ret.
have ha := halt_fractions_add.
split=> //; [exact: (hsim_sub hn ha)|exact: (hsim_sub_assign hn ha)|].
move=> n okn [p q] [/= Qp Qq]; apply: hsim_bind (ztimes_rel hR okn Qp) _ => a Qa.
exact: halt_fractions_reduce.
Qed.
Lemma halt_fractions_ring : ring_alg_rel r ok Q2 (fractions_ring A1) (fractions_ring A2).
Proof.
split; [exact: halt_fractions_monoid|exact: halt_fractions_cmonoid|
        exact: halt_fractions_abelian|].
split=> n okn; apply: halt_int; last exact: halt_fractions_one.
exact: ztimes_rel halt_fractions_abelian _ okn.
Qed.
Lemma returns_inv T U (m : M T) (f : T -> M U) w : returns (bind m f) w -> halts any m m ->
  exists2 v, returns m v & returns (f v) w.
Proof.
move=> [n h] [[v [[n1 h1] _]]|[n1 h1]]; last first.
  have := h (maxn n n1) (leq_maxl _ _); rewrite /bind h1 ?leq_maxr //.
exists v; first by exists n1.
exists (maxn n n1) => k; rewrite geq_max => /andP[k1 k2].
by have := h k k1; rewrite /bind h1.
Qed.
Lemma sane_fractions_zero z : sane_constants A1 -> returns (fractions_zero A1) z ->
  returns (equals (fractions_domain A1) z z) true.
Proof.
case=> _ h0 h1 hz; have [|a ha {}hz] := returns_inv hz.
  by case: (zero_rel hC) => [[a [ha _]]|ha]; [left; exists a|right].
have [|b hb h] := returns_inv hz.
  by case: (one_rel hO) => [[b [hb _]]|hb]; [left; exists b|right].
have <- := returns_det (returns_ret _) h.
by apply: returns_bind (h0 _ ha) _; exact: h1.
Qed.
Lemma sane_fractions_one z : sane_constants A1 -> returns (fractions_one A1) z ->
  returns (equals (fractions_domain A1) z z) true.
Proof.
case=> _ h0 h1 hz; have [|a ha {}hz] := returns_inv hz.
  by case: (one_rel hO) => [[b [hb _]]|hb]; [left; exists b|right].
have [|b hb h] := returns_inv hz.
  by case: (one_rel hO) => [[b' [hb _]]|hb]; [left; exists b'|right].
have <- := returns_det (returns_ret _) h.
by apply: returns_bind (h1 _ ha) _; exact: h1.
Qed.
Lemma sane_fractions_is_zero z : sane_constants A1 -> returns (fractions_zero A1) z ->
  returns (is_zero (fractions_cmonoid A1) z) true.
Proof. by move=> hs hz; apply: returns_bind (hz) _; exact: sane_fractions_zero. Qed.
Lemma sane_fractions : sane_constants A1 -> sane_constants (ReducedFractions c1 A1).
Proof.
move=> hs; split=> z hz; first exact: sane_fractions_is_zero.
  exact: sane_fractions_zero.
exact: sane_fractions_one.
Qed.
Lemma halt_fractions : sane_constants A1 ->
  field_alg_rel r ok Q2 (ReducedFractions c1 A1) (ReducedFractions c2 A2).
Proof.
move=> hs; have hi : rel1 r Q2 (fractions_inv A1) (fractions_inv A2).
  move=> [n d] [/= Qn Qd]; apply: hsim_bind (is_zero_rel hC Qn) _ => b _.
  by apply: hsim_bind (hsim_assert _) _ => _ _; exact: halt_fractions_scale.
apply: halt_field_alg; first exact: halt_fractions_ring; last first.
  by move=> z hz; exact: sane_fractions_is_zero.
split=> //; first exact: (halt_fdiv halt_fractions_mul hi).
move=> n okn; apply: halt_fpower okn; first exact: halt_fractions_monoid.
  exact: is_zero_rel halt_fractions_cmonoid.
exact: halt_fractions_zero.
Qed.
End Fractions.

(** ** Divisibility order *)
Section Divisibility.
Variables (E : Type) (Q : E -> Prop).
Lemma halt_less_than (e1 e2 l1 l2 : E -> E -> M bool) : rel2b r Q e1 e2 -> rel2b r Q l1 l2 ->
  rel2b r Q (default_less_than e1 l1) (default_less_than e2 l2).
Proof.
move=> he hl x y Qx Qy; apply: hsim_andM; last exact: hl.
by apply: hsim_notM; exact: he.
Qed.
Lemma halt_comparable (l1 l2 : E -> E -> M bool) : rel2b r Q l1 l2 ->
  rel2b r Q (default_comparable l1) (default_comparable l2).
Proof. by move=> hl x y Qx Qy; apply: hsim_orM; exact: hl. Qed.
Lemma halt_divorder (A1 A2 : IDomAlg E) : idom_alg_rel r ok Q A1 A2 ->
  bounded_alg_rel r Q (DivisibilityOrder A1) (DivisibilityOrder A2).
Proof.
move=> hA; have [hR hI] := hA; have [[hD hS hO] hC _ _] := hR.
have hd : domain_rel r Q (divorder_domain A1) (divorder_domain A2).
  split; last exact: equals_rel hD.
  move=> x Qx; apply: hsim_orM; first exact: is_zero_rel hC _ Qx.
  by apply: hsim_bind (associate_coef_rel hI Qx) _ => c Qc; exact: is_one_rel hO _ Qc.
have hl : rel2b r Q (divorder_leq A1) (divorder_leq A2).
  by move=> x y Qx Qy; exact: divisible_rel hI _ _ Qy Qx.
split; last by split; [exact: zero_rel hC|exact: one_rel hO].
split=> //; split=> //; last exact: halt_comparable.
exact: halt_less_than (equals_rel hd) hl.
Qed.
Lemma halt_divlattice (A1 A2 : EuclAlg E) : eucl_alg_rel r ok Q A1 A2 ->
  lattice_alg_rel r Q (DivisibilityLattice A1) (DivisibilityLattice A2).
Proof.
move=> hA; split; first by case: (halt_divorder hA).
have hI : idom_rel r Q A1 A2 := hA.
split=> x y Qx Qy.
  by apply: hsim_bind (gcd_rel hA Qx Qy) _ => g Qg; exact: associate_repr_rel hI _ Qg.
by apply: hsim_bind (lcm_rel hA Qx Qy) _ => g Qg; exact: associate_repr_rel hI _ Qg.
Qed.
End Divisibility.
End Prof.
