(** * PPar2.v -- related structures have related quotients, fractions and orders. *)

From Coq Require Import ZArith.
From mathcomp Require Import all_ssreflect.
From Verif Require Import Rust Traits MInts MConstr Wp ParSpec PPar.

Set Implicit Arguments.
Unset Strict Implicit.
Unset Printing Implicit Defensive.

Section Par.
Variables (c : Cfg) (ok : Z -> Prop).
Local Notation par := (@alike _ _).

(** ** Default methods *)
Section Defaults.
Variables (E1 E2 : Type) (R : E1 -> E2 -> Prop).
Local Notation par1 := (par1 R).
Local Notation par2 := (par2 R).
Local Notation par1b := (par1b R).
Local Notation par1o := (par1o R).

Lemma par_gpower o1 o2 m1 m2 s1 s2 i1 i2 n : par R o1 o2 -> par2 m1 m2 -> par1 s1 s2 ->
  par1 i1 i2 -> par1 (default_gpower c o1 m1 s1 i1 n) (default_gpower c o2 m2 s2 i2 n).
Proof.
move=> ho hm hs hi x x' hx; rewrite /default_gpower.
apply: (par_bind (R := fun (p : Z * E1) (q : Z * E2) => p.1 = q.1 /\ R p.2 q.2)).
  apply: par_if => _; last exact: par_ret.
  apply: par_bind (par_prim _ _ _) _ => n1 _ <-.
  by apply: par_bind (hi _ _ hx) _ => y y' hy; exact: par_ret.
move=> [n1 y] [n2 y'] [/= <- hy]; apply: par_bind ho _ => o o' oo.
by apply: par_bind (par_power_loop _ hm hs hy oo) _ => s t [_ _ h]; exact: par_ret.
Qed.
Lemma par_additive (D1 : Domain E1) (D2 : Domain E2) (C1 : CommMonoid E1) (C2 : CommMonoid E2)
    n1 n2 : domain_par R D1 D2 -> cmonoid_par R C1 C2 -> par1 n1 n2 ->
  group_alg_par ok R (additive_group c D1 C1 n1) (additive_group c D2 C2 n2).
Proof.
move=> hD hC hn; split; last first.
  split=> // n _; apply: par_gpower => //.
  - exact: zero_par hC.
  - exact: add_assign_par hC.
  - exact: double_par hC.
split.
- split; [exact: contains_par hD|exact: equals_par hD].
- split; [exact: add_par hC|exact: add_assign_par hC|exact: double_par hC].
- split; [exact: zero_par hC|exact: is_zero_par hC| |].
    by move=> x x' hx; apply: par_bind (hn _ _ hx) _ => y y' hy; exact: par_ret.
  by move=> x x' _; exact: par_ret.
Qed.
Lemma par_ztimes (D1 : Domain E1) (D2 : Domain E2) (C1 : CommMonoid E1) (C2 : CommMonoid E2)
    n1 n2 n : domain_par R D1 D2 -> cmonoid_par R C1 C2 -> par1 n1 n2 -> ok n ->
  par1 (default_ztimes c D1 C1 n1 n) (default_ztimes c D2 C2 n2 n).
Proof. by move=> hD hC hn okn; exact: gpower_par (par_additive hD hC hn) _ okn. Qed.
Lemma par_int t1 t2 o1 o2 n : par1 (t1 n) (t2 n) -> par R o1 o2 ->
  par R (default_int t1 o1 n) (default_int t2 o2 n).
Proof. by move=> ht ho; apply: par_bind ho _ => o o' oo; exact: ht. Qed.
Lemma par_ginv t1 t2 : par1o t1 t2 -> par1 (default_ginv t1) (default_ginv t2).
Proof. by move=> h x x' hx; apply: par_bind (h _ _ hx) _ => o o' oo; exact: par_unwrap. Qed.
Lemma par_multiplicative (A1 : MonoidAlg E1) (A2 : MonoidAlg E2) : monoid_alg_par R A1 A2 ->
  group_alg_par ok R (MultiplicativeGroup c A1) (MultiplicativeGroup c A2).
Proof.
move=> [hD hS hO].
have hi : par1 (multiplicative_inv A1) (multiplicative_inv A2).
  exact: (par_ginv (try_inv_par hO)).
split; last first.
  split=> // n _; apply: par_gpower => //.
  - exact: one_par hO.
  - exact: mul_assign_par hS.
  - exact: square_par hS.
split.
- split; [exact: invertible_par hO|exact: equals_par hD].
- split; [exact: mul_par hS|exact: mul_assign_par hS|exact: square_par hS].
- split; [exact: one_par hO|exact: is_one_par hO|exact: try_inv_par hO|].
  by move=> x x' _; exact: par_ret.
Qed.
Lemma par_fpower (A1 : MonoidAlg E1) (A2 : MonoidAlg E2) z1 z2 i1 i2 n :
  monoid_alg_par R A1 A2 -> par1b i1 i2 -> par R z1 z2 -> ok n ->
  par1 (default_fpower c A1 i1 z1 n) (default_fpower c A2 i2 z2 n).
Proof.
move=> hA hi hz okn x x' hx; apply: par_bind (hi _ _ hx) _ => b _ <-; case: b => //.
exact: gpower_par (par_multiplicative hA) _ okn _ _ hx.
Qed.
Lemma par_fdiv m1 m2 i1 i2 : par2 m1 m2 -> par1 i1 i2 ->
  par2 (default_fdiv m1 i1) (default_fdiv m2 i2).
Proof.
by move=> hm hi x y x' y' hx hy; apply: par_bind (hi _ _ hy) _ => z z' zz; exact: hm.
Qed.
Lemma par_assert_nonzero (A1 : RingAlg E1) (A2 : RingAlg E2) y y' :
  ring_alg_par ok R A1 A2 -> R y y' -> par eq (assert_nonzero A1 y) (assert_nonzero A2 y').
Proof.
move=> hR hy; apply: par_bind (is_zero_par (ri_cmonoid_par hR) hy) _ => b _ <-.
exact: par_assert.
Qed.
Lemma par_field_alg (A1 : RingAlg E1) (A2 : RingAlg E2) (F1 : Field E1) (F2 : Field E2) :
  ring_alg_par ok R A1 A2 -> field_par ok R F1 F2 ->
  field_alg_par ok R (field_alg A1 F1) (field_alg A2 F2).
Proof.
move=> hR hF; have [[hD hS hO] hC hA hU] := hR.
have hz := is_zero_par hC.
have htd : par2o R (field_try_div (fdiv F1)) (field_try_div (fdiv F2)).
  move=> x y x' y' hx hy; apply: par_bind (fdiv_par hF hx hy) _ => z z' zz; exact: par_ret.
have hdv := par_divisible hz htd.
have hq : par2p R (field_quo_rem A1 F1) (field_quo_rem A2 F2).
  move=> x y x' y' hx hy; apply: par_bind (par_assert_nonzero hR hy) _ => _ _ _.
  apply: par_bind (fdiv_par hF hx hy) _ => z z' zz.
  by apply: par_bind (zero_par hC) _ => o o' oo; exact: par_ret.
have hg : par2 (field_gcd A1) (field_gcd A2).
  move=> x y x' y' hx hy.
  apply: par_bind (par_andM (hz _ _ hx) (hz _ _ hy)) _ => b _ <-; case: b.
    exact: zero_par.
  exact: one_par.
split=> //; split; last first.
  split.
  - exact: hq.
  - move=> x y x' y' hx hy; apply: par_bind (par_assert_nonzero hR hy) _ => _ _ _.
    exact: fdiv_par hF _ _ _ _ hx hy.
  - move=> x y x' y' hx hy; apply: par_bind (par_assert_nonzero hR hy) _ => _ _ _.
    exact: zero_par hC.
  - by move=> x y x' y' hx hy; apply: par_orM; exact: hz.
  - exact: hg.
  - move=> x y x' y' hx hy.
    apply: par_bind (par_orM (hz _ _ hx) (hz _ _ hy)) _ => b _ <-; case: b.
      exact: zero_par.
    exact: one_par.
  - exact: (par_extended_gcd hz (one_par hO) (zero_par hC) (mul_par hS) (sub_par hA) hq).
  - exact: (par_relative_primes (invertible_par hO) hg).
split=> //; split.
- exact: htd.
- exact: hdv.
- exact: (par_associates hdv).
- move=> x x' hx; apply: par_bind (hz _ _ hx) _ => b _ <-; case: b; first exact: zero_par.
  exact: one_par.
- exact: finv_par hF.
Qed.
Lemma par_abelian_alg (A1 : RingAlg E1) (A2 : RingAlg E2) : ring_alg_par ok R A1 A2 ->
  abelian_alg_par ok R A1 A2.
Proof. by case=> [[hD _ _] hC hA _]; split. Qed.
End Defaults.

(** ** Quotients *)
Section Quotient.
Variables (E1 E2 : Type) (R : E1 -> E2 -> Prop) (A1 : EuclAlg E1) (A2 : EuclAlg E2).
Variables (m1 : E1) (m2 : E2).
Hypotheses (hA : eucl_alg_par ok R A1 A2) (hm : R m1 m2).

Let hR : ring_alg_par ok R A1 A2 := hA.
Let hRm : forall x x', R x x' -> par R (rem A1 x m1) (rem A2 x' m2).
Proof. by move=> x x' hx; exact: rem_par hA _ _ _ _ hx hm. Qed.

Lemma par_quotient_domain : domain_par R (quotient_domain A1 m1) (quotient_domain A2 m2).
Proof.
split; first by move=> x x' hx; exact: reduced_par hA _ _ _ _ hx hm.
exact: equals_par (mo_domain_par hR).
Qed.
Lemma par_quotient_mul : par2 R (quotient_mul A1 m1) (quotient_mul A2 m2).
Proof.
by move=> x y x' y' hx hy; apply: par_bind (mul_par hR hx hy) _ => z z' zz; exact: hRm.
Qed.
Lemma par_quotient_semigroup :
  semigroup_par R (quotient_semigroup A1 m1) (quotient_semigroup A2 m2).
Proof.
split; [exact: par_quotient_mul|exact: par_quotient_mul|].
by move=> x x' hx; exact: par_quotient_mul.
Qed.
Lemma par_quotient_add : par2 R (quotient_add A1 m1) (quotient_add A2 m2).
Proof.
by move=> x y x' y' hx hy; apply: par_bind (add_par hR hx hy) _ => z z' zz; exact: hRm.
Qed.
Lemma par_quotient_cmonoid :
  cmonoid_par R (quotient_cmonoid A1 m1) (quotient_cmonoid A2 m2).
Proof.
have ha := par_quotient_add; have hz := zero_par hR.
have hd := par_double ha.
split=> //; first exact: (par_is_zero (equals_par par_quotient_domain) hz).
by move=> n _; exact: (par_ntimes _ hz ha hd).
Qed.
Lemma par_quotient_neg : par1 R (quotient_neg A1 m1) (quotient_neg A2 m2).
Proof. by move=> x x' hx; apply: par_bind (neg_par hR hx) _ => z z' zz; exact: hRm. Qed.
Lemma par_quotient_abelian :
  abelian_par ok R (quotient_abelian c A1 m1) (quotient_abelian c A2 m2).
Proof.
have hn := par_quotient_neg; have ha := par_quotient_add.
split=> //; [exact: (par_sub hn ha)|exact: (par_sub_assign hn ha)|].
move=> n okn; exact: (par_ztimes par_quotient_domain par_quotient_cmonoid hn okn).
Qed.
Lemma par_quotient_ring :
  ring_alg_par ok R (QuotientRing c A1 m1) (QuotientRing c A2 m2).
Proof.
have hO := ri_monoid_alg_par hR.
have ht : par1o R (quotient_ring_try_inv A1 m1) (quotient_ring_try_inv A2 m2).
  move=> x x' hx; apply: par_bind (extended_gcd_par hA hm hx) _.
  move=> [[g s] t] [[g' s'] t'] [[/= hg _] ht].
  apply: par_bind (try_inv_par hO hg) _ => -[a|] [a'|] //= haa; last exact: par_ret.
  by apply: par_bind (par_quotient_mul haa ht) _ => z z' zz; exact: par_ret.
split.
- split; [exact: par_quotient_domain|exact: par_quotient_semigroup|].
  split; [exact: one_par hO|exact: is_one_par hO|exact: ht|exact: (par_invertible ht)].
- exact: par_quotient_cmonoid.
- exact: par_quotient_abelian.
- split=> n okn; apply: par_int; last exact: one_par hO.
  exact: ztimes_par par_quotient_abelian _ okn.
Qed.
Lemma par_quotient_field_inv : par1 R (quotient_field_inv A1 m1) (quotient_field_inv A2 m2).
Proof.
have hO := ri_monoid_alg_par hR.
move=> x x' hx; apply: par_bind (is_zero_par par_quotient_cmonoid hx) _ => b _ <-.
apply: par_bind (par_assert _) _ => _ _ _.
apply: par_bind (extended_gcd_par hA hm hx) _.
move=> [[g s] t] [[g' s'] t'] [[/= hg _] ht].
apply: par_bind (try_inv_par hO hg) _ => o o' oo.
by apply: par_bind (par_unwrap oo) _ => a a' aa; exact: par_quotient_mul.
Qed.
Lemma par_quotient_field_ring :
  ring_alg_par ok R (quotient_field_ring c A1 m1) (quotient_field_ring c A2 m2).
Proof.
have hO := ri_monoid_alg_par hR; have hz := is_zero_par par_quotient_cmonoid.
split.
- split; [exact: par_quotient_domain|exact: par_quotient_semigroup|].
  split; [exact: one_par hO|exact: is_one_par hO| |].
    move=> x x' hx; apply: par_bind (hz _ _ hx) _ => b _ <-; case: b; first exact: par_ret.
    by apply: par_bind (par_quotient_field_inv hx) _ => y y' hy; exact: par_ret.
  by move=> x x' hx; apply: par_notM; exact: hz.
- exact: par_quotient_cmonoid.
- exact: par_quotient_abelian.
- split=> n okn; apply: par_int; last exact: one_par hO.
  exact: ztimes_par par_quotient_abelian _ okn.
Qed.
Lemma par_quotient_field :
  field_alg_par ok R (QuotientField c A1 m1) (QuotientField c A2 m2).
Proof.
apply: par_field_alg; first exact: par_quotient_field_ring.
have hi := par_quotient_field_inv.
split=> //; first exact: (par_fdiv par_quotient_mul hi).
move=> n okn; apply: par_fpower okn; first exact: par_quotient_field_ring.
  exact: is_zero_par par_quotient_cmonoid.
exact: zero_par hR.
Qed.
End Quotient.

(** ** Fractions *)
Section Fractions.
Variables (E1 E2 : Type) (R : E1 -> E2 -> Prop) (A1 : EuclAlg E1) (A2 : EuclAlg E2).
Hypothesis hA : eucl_alg_par ok R A1 A2.
Local Notation R2 := (pair_par R).

Let hR : ring_alg_par ok R A1 A2 := hA.
Let hO : monoid_alg_par R A1 A2 := hR.
Let hC : cmonoid_par R A1 A2 := hR.
Let hI : idom_par R A1 A2 := hA.

Lemma par_fractions_scale n d n' d' : R n n' -> R d d' ->
  par R2
   (let! coef := associate_coef A1 d in let! c := is_one A1 coef in
    if ~~ c then let! n := mul A1 n coef in let! d := mul A1 d coef in ret (n, d)
    else ret (n, d))
   (let! coef := associate_coef A2 d' in let! c := is_one A2 coef in
    if ~~ c then let! n := mul A2 n' coef in let! d := mul A2 d' coef in ret (n, d)
    else ret (n', d')).
Proof.
move=> hn hd; apply: par_bind (associate_coef_par hI hd) _ => x x' hx.
apply: par_bind (is_one_par hO hx) _ => b _ <-.
apply: par_if => _; last exact: par_ret.
apply: par_bind (mul_par hO hn hx) _ => y y' hy.
by apply: par_bind (mul_par hO hd hx) _ => z z' hz; exact: par_ret.
Qed.
Lemma par_fractions_reduce : par1 R2 (fractions_reduce A1) (fractions_reduce A2).
Proof.
move=> [n d] [n' d'] [/= hn hd]; apply: par_bind (is_zero_par hC hd) _ => b _ <-.
apply: par_bind (par_assert _) _ => _ _ _.
apply: par_bind (gcd_par hA hn hd) _ => g g' gg.
apply: par_bind (quo_par hA hn gg) _ => x x' hx.
apply: par_bind (quo_par hA hd gg) _ => y y' hy.
exact: par_fractions_scale.
Qed.
Lemma par_fractions_domain : domain_par R2 (fractions_domain A1) (fractions_domain A2).
Proof.
split.
  move=> [n d] [n' d'] [/= hn hd].
  apply: par_andM; first exact: relative_primes_par hA _ _ _ _ hn hd.
  by apply: par_bind (associate_coef_par hI hd) _ => x x' hx; exact: is_one_par hO _ _ hx.
move=> [a b] [e f] [a' b'] [e' f'] [/= ha hb] [/= he hf].
by apply: par_andM; apply: (equals_par (mo_domain_par hO)).
Qed.
Lemma par_fractions_mul : par2 R2 (fractions_mul A1) (fractions_mul A2).
Proof.
move=> [a b] [e f] [a' b'] [e' f'] [/= ha hb] [/= he hf].
apply: par_bind (mul_par hO ha he) _ => x x' hx.
by apply: par_bind (mul_par hO hb hf) _ => y y' hy; exact: par_fractions_reduce.
Qed.
Lemma par_fractions_one : par R2 (fractions_one A1) (fractions_one A2).
Proof.
apply: par_bind (one_par hO) _ => a a' aa.
by apply: par_bind (one_par hO) _ => b b' bb; exact: par_ret.
Qed.
Lemma par_fractions_zero : par R2 (fractions_zero A1) (fractions_zero A2).
Proof.
apply: par_bind (zero_par hC) _ => a a' aa.
by apply: par_bind (one_par hO) _ => b b' bb; exact: par_ret.
Qed.
Lemma par_fractions_monoid : monoid_alg_par R2 (fractions_ring A1) (fractions_ring A2).
Proof.
have hv : par1b R2 (fractions_invertible A1) (fractions_invertible A2).
  by move=> [n d] [n' d'] [/= hn hd]; apply: par_notM; exact: is_zero_par hC _ _ hn.
split; first exact: par_fractions_domain.
  split; [exact: par_fractions_mul|exact: par_fractions_mul|].
  by move=> x x' hx; exact: par_fractions_mul.
split; [exact: par_fractions_one| | |exact: hv].
  by move=> [n d] [n' d'] [/= hn hd]; apply: par_andM; apply: (is_one_par hO).
move=> x x' hx; apply: par_bind (hv _ _ hx) _ => b _ <-; case: b; last exact: par_ret.
case: x x' hx => [n d] [n' d'] [/= hn hd].
have hdn : R2 (d, n) (d', n') by [].
by apply: par_bind (par_fractions_reduce hdn) _ => y y' hy; exact: par_ret.
Qed.
Lemma par_fractions_add : par2 R2 (fractions_add A1) (fractions_add A2).
Proof.
move=> [a b] [e f] [a' b'] [e' f'] [/= ha hb] [/= he hf].
apply: par_bind (equals_par (mo_domain_par hO) hb hf) _ => t _ <-.
apply: (par_bind (R := R2)); last by move=> x x' hx; exact: par_fractions_reduce.
apply: par_if => _ /=.
  by apply: par_bind (add_par hC ha he) _ => x x' hx; exact: par_ret.
apply: par_bind (mul_par hO ha hf) _ => x x' hx.
apply: par_bind (mul_par hO hb he) _ => y y' hy.
apply: par_bind (add_par hC hx hy) _ => z z' hz.
by apply: par_bind (mul_par hO hb hf) _ => w w' hw; exact: par_ret.
Qed.
Lemma par_fractions_cmonoid :
  cmonoid_par R2 (fractions_cmonoid A1) (fractions_cmonoid A2).
Proof.
have ha := par_fractions_add; have hz := par_fractions_zero.
have hd := par_double ha.
split=> //; first exact: (par_is_zero (equals_par par_fractions_domain) hz).
by move=> n _; exact: (par_ntimes _ hz ha hd).
Qed.
Lemma par_fractions_abelian :
  abelian_par ok R2 (fractions_abelian A1) (fractions_abelian A2).
Proof.
have hn : par1 R2 (fractions_neg A1) (fractions_neg A2).
  move=> [n d] [n' d'] [/= hn hd]; apply: par_bind (neg_par hR hn) _ => a a' aa.
  exact: par_ret.
have ha := par_fractions_add.
split=> //; [exact: (par_sub hn ha)|exact: (par_sub_assign hn ha)|].
move=> n okn [p q] [p' q'] [/= hp hq]; apply: par_bind (ztimes_par hR okn hp) _ => a a' aa.
exact: par_fractions_reduce.
Qed.
Lemma par_fractions_ring : ring_alg_par ok R2 (fractions_ring A1) (fractions_ring A2).
Proof.
split; [exact: par_fractions_monoid|exact: par_fractions_cmonoid|
        exact: par_fractions_abelian|].
split=> n okn; apply: par_int; last exact: par_fractions_one.
exact: ztimes_par par_fractions_abelian _ okn.
Qed.
Lemma par_fractions :
  field_alg_par ok R2 (ReducedFractions c A1) (ReducedFractions c A2).
Proof.
have hi : par1 R2 (fractions_inv A1) (fractions_inv A2).
  move=> [n d] [n' d'] [/= hn hd]; apply: par_bind (is_zero_par hC hn) _ => b _ <-.
  by apply: par_bind (par_assert _) _ => _ _ _; exact: par_fractions_scale.
apply: par_field_alg; first exact: par_fractions_ring.
split=> //; first exact: (par_fdiv par_fractions_mul hi).
move=> n okn; apply: par_fpower okn; first exact: par_fractions_monoid.
  exact: is_zero_par par_fractions_cmonoid.
exact: par_fractions_zero.
Qed.
End Fractions.

(** ** Divisibility order *)
Section Divisibility.
Variables (E1 E2 : Type) (R : E1 -> E2 -> Prop).
Lemma par_divorder (A1 : IDomAlg E1) (A2 : IDomAlg E2) : idom_alg_par ok R A1 A2 ->
  bounded_alg_par R (DivisibilityOrder A1) (DivisibilityOrder A2).
Proof.
move=> hA; have [hR hI] := hA; have [[hD hS hO] hC _ _] := hR.
have hd : domain_par R (divorder_domain A1) (divorder_domain A2).
  split; last exact: equals_par hD.
  move=> x x' hx; apply: par_orM; first exact: is_zero_par hC _ _ hx.
  by apply: par_bind (associate_coef_par hI hx) _ => a a' aa; exact: is_one_par hO _ _ aa.
have hl : par2b R (divorder_leq A1) (divorder_leq A2).
  by move=> x y x' y' hx hy; exact: divisible_par hI _ _ _ _ hy hx.
split; last by split; [exact: zero_par hC|exact: one_par hO].
split=> //; split=> //; last exact: par_comparable.
exact: par_less_than (equals_par hd) hl.
Qed.
Lemma par_divlattice (A1 : EuclAlg E1) (A2 : EuclAlg E2) : eucl_alg_par ok R A1 A2 ->
  lattice_alg_par R (DivisibilityLattice A1) (DivisibilityLattice A2).
Proof.
move=> hA; split; first by case: (par_divorder hA).
have hI : idom_par R A1 A2 := hA.
split=> x y x' y' hx hy.
  by apply: par_bind (gcd_par hA hx hy) _ => g g' gg; exact: associate_repr_par hI _ _ gg.
by apply: par_bind (lcm_par hA hx hy) _ => g g' gg; exact: associate_repr_par hI _ _ gg.
Qed.
End Divisibility.
End Par.
