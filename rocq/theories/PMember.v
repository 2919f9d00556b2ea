(** * PMember.v -- what [contains] accepts. *)

From mathcomp Require Import all_ssreflect all_algebra ssrZ zify.
From Coq Require Import ZArith Lia.
From Verif Require Import Rust Traits MInts MConstr Wp Spec PropSpec RingSpec MemberSpec.
From Verif Require Import PEucl PIntsZ PInts PChecked POrders PFrac PDiv PVec PPolyA PFracProps.
From Verif Require Import PQuotProps FracSpec PRational Refuted.

Set Implicit Arguments.
Unset Strict Implicit.
Unset Printing Implicit Defensive.

Import GRing.Theory.
Local Open Scope ring_scope.

Lemma entries_nil E (P : E -> Prop) : entries P [::].
Proof. by []. Qed.
Lemma entries_cons E (P : E -> Prop) x v : entries P (x :: v) <-> P x /\ entries P v.
Proof.
split=> [h|[px h] [|i] y //=]; last exact: h.
by split=> [|i y iv]; [exact: (h 0%nat x)|exact: (h i.+1 y)].
Qed.

Section Vectors.
Variables (p : Prop) (E : Type) (ty mem : E -> Prop).

Lemma all_contains (A : Domain E) v : contains_decides p ty mem A -> entries ty v ->
  ensures p (allM (contains A) v) (fun b => b = true <-> entries mem v).
Proof.
move=> hA; elim: v => [|x v IH] /=; first by move=> _; apply: ensures_ret.
move=> /entries_cons[tx tv]; apply: ensures_bind (hA x tx) _ => -[] hx; last first.
  by apply: ensures_ret; split=> // /entries_cons[mx _]; apply/hx.
apply: ensures_mono (IH tv) _ => b hb; split=> [/hb mv|/entries_cons[_ /hb]] //.
by apply/entries_cons; split=> //; apply/hx.
Qed.

Lemma vector_decides (A : Domain E) n : contains_decides p ty mem A ->
  contains_decides p (entries ty) (fun v => size v = n /\ entries mem v) (vector_domain n A).
Proof.
move=> hA v tv /=; case: eqP => /= sv; last by apply: ensures_ret; split=> // -[].
by apply: ensures_mono (all_contains hA tv) _ => b hb; split=> [/hb|[_ /hb]].
Qed.

Lemma matrix_decides (A : FieldAlg E) n : contains_decides p ty mem A ->
  contains_decides p (entries ty) (fun v => size v = (n * n)%nat /\ entries mem v)
    (matrix_domain A n).
Proof. exact: vector_decides. Qed.

Lemma poly_decides (A : AbelianAlg E) (is0 : E -> Prop) : contains_decides p ty mem A ->
  (forall x, mem x -> ensures p (is_zero A x) (fun b => b = true <-> is0 x)) ->
  contains_decides p (entries ty)
    (fun v => entries mem v /\ forall x, (0 < size v)%nat -> ~ is0 (nth x v (size v).-1))
    (poly_domain A).
Proof.
move=> hA h0 v tv /=; rewrite /poly_contains.
case: (eqVneq (size v) 0%nat) => [/size0nil ->|sv]; first by apply: ensures_ret.
apply: ensures_bind (all_contains hA tv) _ => -[] hb /=; last first.
  by apply: ensures_ret; split=> // -[/hb].
have mv := hb.1 erefl; have v0 : (0 < size v)%nat by rewrite lt0n.
have l : ((size v).-1 < size v)%nat by rewrite ltn_predL.
case: v sv tv hb mv v0 l => // x0 v _ _ _ mv v0 l.
rewrite subn1 (vgetE x0 l).
apply: ensures_bind (ensures_ret _ (erefl _)) _ => _ <-.
apply: ensures_bind (h0 _ (mv _ x0 l)) _ => b hb; apply: ensures_ret.
case: b hb => hb; split=> //.
- by case=> _ /(_ x0 v0); case; apply/hb.
- move=> _; split=> // x _ h; suff: false = true by [].
  by apply/hb; rewrite (set_nth_default x).
Qed.
End Vectors.

Lemma numbers_decide cfg p w :
  [/\ contains_decides p (fun _ => True) (fun _ => True) ZZ,
      contains_decides p (fun _ => True) (fun _ => True) NN,
      contains_decides p (fun _ => True) (fun _ => True) BB,
      contains_decides p (in_i w) (in_i w) (CheckedInts cfg w) &
      contains_decides p (in_u w) (in_u w) (CheckedUints w)].
Proof. by split=> x tx; apply: ensures_ret. Qed.

(** Quotients of the integers. *)
Lemma modular_decides cfg p w m : m <> 0%Z -> (2 <= w)%Z ->
  [/\ contains_decides p (fun _ => True) (fun x => 0 <= x < Z.abs m)%Z (QuotientRing cfg ZZ m),
      contains_decides p (fun _ => True) (fun x => 0 <= x < Z.abs m)%Z (QuotientField cfg ZZ m),
      contains_decides p (in_i w) (fun x => 0 <= x < Z.abs m)%Z
        (QuotientRing cfg (CheckedInts cfg w) m) &
      contains_decides p (in_i w) (fun x => 0 <= x < Z.abs m)%Z
        (QuotientField cfg (CheckedInts cfg w) m)].
Proof.
move=> m0 w2.
have h1 x : ensures p (reduced ZZ x m) (fun b => b = true <-> (0 <= x < Z.abs m)%Z).
  rewrite /= /integers_reduced (proj2 (Z.eqb_neq m 0) m0); apply: ensures_ret.
  by case: Z.ltb_spec => ?; case: Z.ltb_spec => ? /=; lia.
have h2 x : in_i w x ->
    ensures p (reduced (CheckedInts cfg w) x m) (fun b => b = true <-> (0 <= x < Z.abs m)%Z).
  move=> xw; left; eexists; split; first exact: (ci_reduced_exact cfg w2).
  have := h1 x; rewrite /= integers_reducedE => -[[b [rb hb]]|[_ pb]]; last first.
    by case: (returns_panics (returns_ret _) pb).
  by rewrite -(returns_det rb (returns_ret _)).
by split=> x tx; [exact: h1|exact: h1|exact: h2|exact: h2].
Qed.

(** Quotients and fractions over a base whose members are all the values. *)
Section Base.
Variables (cfg : Cfg) (p : Prop) (E : Type) (R : idomainType) (rep : E -> R -> Prop).
Variables (AS : assoc_struct R) (S : eucl_struct R) (A : EuclAlg E).
Hypothesis hA : eucl_alg_spec cfg p rep AS S A.

Lemma quotient_decides (m : R) modulo : m <> 0 -> rep modulo m ->
  contains_decides p (fun x => exists a, rep x a) (fun x => exists a, rep x a /\ erem S a m = a)
    (QuotientRing cfg A modulo) /\
  contains_decides p (fun x => exists a, rep x a) (fun x => exists a, rep x a /\ erem S a m = a)
    (QuotientField cfg A modulo).
Proof.
move=> /eqP m0 rm; split=> x [a xa];
  have [h1 h2] := quotient_contains_plain hA m0 rm xa;
  [apply: ensures_mono h1 _|apply: ensures_mono h2 _] => b ->;
  (split=> [/eqP ?|[c [xc /eqP]]]; [by exists a|]);
  by rewrite (dom_fun (mo_dom_ok (ri_mon_ok (id_ring_ok (eu_idom_ok hA)))) xa xc).
Qed.

Lemma fractions_decide :
  contains_decides p (fun x => (exists a, rep x.1 a) /\ exists2 b, rep x.2 b & b <> 0)
    (fun x => exists a b, fraction_of AS rep x a b)
    (ReducedFractions cfg A).
Proof.
move=> x [[a xa] [b xb b0]]; apply: ensures_mono (fraction_contains hA xa xb b0) _ => r hr.
have hf := dom_fun (mo_dom_ok (ri_mon_ok (id_ring_ok (eu_idom_ok hA)))).
split=> [/hr[h1 h2]|[c [d [xc xd _ h1 h2]]]]; first by exists a, b.
by apply/hr; rewrite (hf _ _ _ xa xc) (hf _ _ _ xb xd).
Qed.
End Base.

(** ** Closure *)
Section Closure.
Variables (cfg : Cfg) (p : Prop) (E : Type).

Section Generic.
Variables (V : eqType) (rep : E -> V -> Prop) (D : Domain E).
Hypothesis hD : domain_spec p rep D.
Let mem x := exists u, rep x u.

Lemma lands_ok m : ensures p m mem -> lands p mem D m.
Proof.
case=> [[y [ry [u yu]]]|[_ pm]] z rz; last by case: (returns_panics rz pm).
rewrite (returns_det rz ry); split; first by exists u.
by apply: ensures_mono (contains_ok hD yu) _ => b ->.
Qed.
Lemma lands_gives m u : gives p rep m u -> lands p mem D m.
Proof. by move=> h; apply: lands_ok; apply: ensures_mono h _ => z zu; exists u. Qed.
Lemma lands_panics m : panics m -> lands p mem D m.
Proof. by move=> pm z rz; case: (returns_panics rz pm). Qed.
Lemma lands_opt_ok m : ensures p m (fun o => if o is Some z then mem z else True) ->
  lands_opt p mem D m.
Proof.
case=> [[o [ro ho]]|[_ pm]] z rz; last by case: (returns_panics rz pm).
have oz := returns_det ro rz; subst o; case: ho => u zu; split; first by exists u.
by apply: ensures_mono (contains_ok hD zu) _ => b ->.
Qed.

Lemma closed_mul_ok op e S A : semigroup_spec p rep op S -> monoid_spec p rep op e A ->
  closed_mul p mem D S A.
Proof.
move=> hS hA; split.
- exact: lands_gives (one_ok hA).
- by move=> x y [u xu] [v yv]; exact: lands_gives (mul_ok hS xu yv).
- by move=> x y [u xu] [v yv]; exact: lands_gives (mul_assign_ok hS xu yv).
- by move=> x [u xu]; exact: lands_gives (square_ok hS xu).
- move=> x [u xu]; apply: lands_opt_ok; apply: ensures_mono (try_inv_ok hA xu) _.
  by case=> // y [v yv _]; exists v.
Qed.
Lemma closed_group_ok op e inv A : group_spec cfg p rep op e inv A -> closed_group cfg p mem D A.
Proof.
move=> hA; split.
- by move=> x [u xu]; exact: lands_gives (ginv_ok hA xu).
- by move=> n x h1 h2 [u xu]; exact: lands_gives (gpower_ok hA (conj h1 h2) xu).
Qed.
Lemma closed_add_ok op e A : cmonoid_spec p rep op e A -> closed_add p mem D A.
Proof.
move=> hA; split.
- exact: lands_gives (zero_ok hA).
- by move=> x y [u xu] [v yv]; exact: lands_gives (add_ok hA xu yv).
- by move=> x y [u xu] [v yv]; exact: lands_gives (add_assign_ok hA xu yv).
- by move=> x [u xu]; exact: lands_gives (double_ok hA xu).
- by move=> n x h [u xu]; exact: lands_gives (ntimes_ok hA h xu).
Qed.
Lemma closed_lattice_ok le A : lattice_spec p rep le A -> closed_lattice p mem D A.
Proof.
move=> hA; split=> x y [u xu] [v yv]; apply: lands_ok.
- by apply: ensures_mono (meet_ok hA xu yv) _ => z [w zw _]; exists w.
- by apply: ensures_mono (join_ok hA xu yv) _ => z [w zw _]; exists w.
Qed.
Lemma closed_bounded_ok le t b A : bounded_spec p rep le t b A -> closed_bounded p mem D A.
Proof.
by move=> hA; split; [exact: lands_gives (omax_ok hA)|exact: lands_gives (omin_ok hA)].
Qed.
Lemma closed_boolean_ok le t b A : boolean_spec p rep le t b A -> closed_boolean p mem D A.
Proof.
move=> hA; split=> x [u xu]; apply: lands_ok.
by apply: ensures_mono (bnot_ok hA xu) _ => z [w zw _]; exists w.
Qed.
End Generic.

Section Abelian.
Variables (V : zmodType) (rep : E -> V -> Prop) (D : Domain E).
Hypothesis hD : domain_spec p rep D.
Let mem x := exists u, rep x u.
Lemma closed_abelian_ok A : abelian_spec cfg p rep A -> closed_abelian cfg p mem D A.
Proof.
move=> hA; split.
- by move=> x [u xu]; exact: (lands_gives hD (neg_ok hA xu)).
- by move=> x [u xu]; exact: (lands_gives hD (neg_assign_ok hA xu)).
- by move=> x y [u xu] [v yv]; exact: (lands_gives hD (sub_ok hA xu yv)).
- by move=> x y [u xu] [v yv]; exact: (lands_gives hD (sub_assign_ok hA xu yv)).
- by move=> n x h1 h2 [u xu]; exact: (lands_gives hD (ztimes_ok hA (conj h1 h2) xu)).
Qed.
Lemma closed_unitary_ok e A : unitary_spec cfg p rep e A -> closed_unitary cfg p mem D A.
Proof. by move=> hA; split=> n h1 h2; exact: (lands_gives hD (int_ok hA (conj h1 h2))). Qed.
End Abelian.

Section Idom.
Variables (R : idomainType) (rep : E -> R -> Prop) (D : Domain E).
Hypothesis hD : domain_spec p rep D.
Let mem x := exists u, rep x u.
Lemma closed_idom_ok S A : idom_spec p rep S A -> closed_idom p mem D A.
Proof.
move=> hA; split.
- move=> x y [a xa] [b yb]; have [b0|b0] := eqVneq b 0.
    by subst b => z rz; case: (returns_panics rz (try_div_zero hA xa yb)).
  apply: (lands_opt_ok hD); apply: ensures_mono (try_div_ok hA xa yb b0) _.
  by case=> // z [c zc _]; exists c.
- by move=> x [a xa]; exact: (lands_gives hD (associate_repr_ok hA xa)).
- move=> x [a xa]; have [a0|a0] := eqVneq a 0.
    by subst a; exact: lands_panics (associate_coef_zero hA xa).
  exact: (lands_gives hD (associate_coef_ok hA xa a0)).
Qed.
Lemma closed_eucl_ok S A : eucl_spec p rep S A -> closed_eucl p mem D A.
Proof.
move=> hA; split=> x y [a xa] [b yb].
- have [b0|b0] := eqVneq b 0.
    by subst b; split; apply: lands_panics; apply: panics_bind; exact: (quo_rem_zero hA xa yb).
  by split; apply: (lands_ok hD); apply: ensures_bind (quo_rem_ok hA xa yb b0) _ => z [z1 z2];
    apply: ensures_ret; eexists; eassumption.
- have [b0|b0] := eqVneq b 0; last exact: (lands_gives hD (quo_ok hA xa yb b0)).
  by subst b; exact: lands_panics (quo_zero hA xa yb).
- have [b0|b0] := eqVneq b 0; last exact: (lands_gives hD (rem_ok hA xa yb b0)).
  by subst b; exact: lands_panics (rem_zero hA xa yb).
- by apply: (lands_ok hD); apply: ensures_mono (gcd_ok hA xa yb) _ => z [d zd _]; exists d.
- by apply: (lands_ok hD); apply: ensures_mono (lcm_ok hA xa yb) _ => z [d zd _]; exists d.
- by split; apply: (lands_ok hD); apply: ensures_bind (extended_gcd_ok hA xa yb) _ =>
    z [d [s [t [[z1 z2 z3] _]]]]; apply: ensures_ret; eexists; eassumption.
Qed.
End Idom.

Lemma closed_field_ok (F : fieldType) (rep : E -> F -> Prop) D A : domain_spec p rep D ->
  field_spec cfg p rep A -> closed_field cfg p (fun x => exists u, rep x u) D A.
Proof.
move=> hD hA; split.
- move=> x [a xa]; have [a0|a0] := eqVneq a 0; last exact: (lands_gives hD (finv_ok hA xa a0)).
  by subst a; exact: lands_panics (finv_zero hA xa).
- move=> x y [a xa] [b yb]; have [b0|b0] := eqVneq b 0; last exact: (lands_gives hD (fdiv_ok hA xa yb b0)).
  by subst b; exact: lands_panics (fdiv_zero hA xa yb).
- move=> n x h1 h2 [a xa]; have [a0|a0] := eqVneq a 0.
    by subst a; exact: (lands_gives hD (fpower_zero hA n xa)).
  exact: (lands_gives hD (fpower_ok hA (conj h1 h2) xa a0)).
Qed.

Lemma closed_group_alg_ok (V : eqType) (rep : E -> V -> Prop) op e inv A :
  group_alg_spec cfg p rep op e inv A -> closed_group_alg cfg p (fun x => exists u, rep x u) A.
Proof.
by case=> [[hD hS hM] hG]; split; [exact: closed_mul_ok hD _ _ _ _ hS hM|exact: closed_group_ok hD _ _ _ _ hG].
Qed.
Lemma closed_abelian_alg_ok (V : zmodType) (rep : E -> V -> Prop) A :
  abelian_alg_spec cfg p rep A -> closed_abelian_alg cfg p (fun x => exists u, rep x u) A.
Proof.
by case=> hD hC hA; split; [exact: closed_add_ok hD _ _ _ hC|exact: closed_abelian_ok hD _ hA].
Qed.
Lemma closed_ring_alg_ok (V : zmodType) (rep : E -> V -> Prop) op e A :
  ring_alg_spec cfg p rep op e A -> closed_ring_alg cfg p (fun x => exists u, rep x u) A.
Proof.
case=> [[hD hS hM] hC hA hU]; split; [exact: closed_mul_ok hD _ _ _ _ hS hM|
  exact: closed_add_ok hD _ _ _ hC|exact: closed_abelian_ok hD _ hA|
  exact: closed_unitary_ok hD _ _ hU].
Qed.
Section Domains.
Variables (R : idomainType) (rep : E -> R -> Prop) (AS : assoc_struct R).
Lemma closed_idom_alg_ok A :
  idom_alg_spec cfg p rep AS A -> closed_idom_alg cfg p (fun x => exists u, rep x u) A.
Proof.
case=> hr hi; split; first exact: closed_ring_alg_ok hr.
exact: closed_idom_ok (mo_dom_ok (ri_mon_ok hr)) _ _ hi.
Qed.
Lemma closed_eucl_alg_ok S A :
  eucl_alg_spec cfg p rep AS S A -> closed_eucl_alg cfg p (fun x => exists u, rep x u) A.
Proof.
case=> hi he; split; first exact: closed_idom_alg_ok hi.
exact: closed_eucl_ok (mo_dom_ok (ri_mon_ok (id_ring_ok hi))) _ _ he.
Qed.
End Domains.
Lemma closed_field_alg_ok (F : fieldType) (rep : E -> F -> Prop) A :
  field_alg_spec cfg p rep A -> closed_field_alg cfg p (fun x => exists u, rep x u) A.
Proof.
case=> he hf; split; first exact: closed_eucl_alg_ok he.
exact: closed_field_ok (mo_dom_ok (ri_mon_ok (id_ring_ok (eu_idom_ok he)))) hf.
Qed.
Lemma closed_lattices_ok (V : eqType) (rep : E -> V -> Prop) le :
  (forall A, lattice_alg_spec p rep le A -> closed_lattice_alg p (fun x => exists u, rep x u) A) /\
  (forall t b A, bounded_alg_spec p rep le t b A ->
     closed_bounded_alg p (fun x => exists u, rep x u) A) /\
  (forall t b A, boolean_alg_spec p rep le t b A ->
     closed_boolean_alg p (fun x => exists u, rep x u) A).
Proof.
split=> [A [[hD _ _] hL]|]; first exact: closed_lattice_ok hD _ _ hL.
split=> t b A; first by case=> [[hD _ _] hB]; exact: closed_bounded_ok hD _ _ _ _ hB.
case=> [[[hD _ _] hL] hB hN]; split; [exact: closed_lattice_ok hD _ _ hL|
  exact: closed_bounded_ok hD _ _ _ _ hB|exact: closed_boolean_ok hD _ _ _ _ hN].
Qed.
End Closure.

(** ** The rational numbers *)
Lemma QQ_contains_exactly cfg (n d : Z) :
  [/\ d <> 0%Z -> returns (contains (QQ cfg) (n, d)) ((0 <? d) && (Z.gcd n d =? 1))%Z,
      d = 0%Z -> Z.abs n <> 1%Z -> returns (contains (QQ cfg) (n, d)) false &
      d = 0%Z -> Z.abs n = 1%Z -> panics (contains (QQ cfg) (n, d))].
Proof.
have hA := ZZ_ok cfg False; have hE := eu_eu_ok hA.
have er (x : Z) : zz_rep x x by [].
have rp : returns (relative_primes ZZ n d) (Z.gcd n d =? 1)%Z.
  case: (relative_primes_ok hE (er n) (er d)) => [[b [rb hb]]|[[]]] //.
  suff -> : (Z.gcd n d =? 1)%Z = b by [].
  case: Z.eqb_spec => h; first by apply/esym/hb/Z_coprime.
  by apply/esym/negbTE/negP => /hb/Z_coprime.
split=> [d0|d0 n1|d0 n1].
- case: (fraction_contains hA (er n : zz_rep (n, d).1 n) (er d : zz_rep (n, d).2 d) d0) => [[b [rb hb]]|[[]]] //.
  suff -> : ((0 <? d) && (Z.gcd n d =? 1))%Z = b by [].
  apply/idP/idP => [/andP[/Z.ltb_lt h1 /Z.eqb_eq h2]|/hb[/(Z_arep d0) h1 /Z_coprime h2]].
    by apply/hb; split; [exact/(Z_arep d0)|exact/Z_coprime].
  by apply/andP; split; [exact/Z.ltb_lt|exact/Z.eqb_eq].
- apply: (returns_bind rp); rewrite d0 Z.gcd_0_r.
  by case: Z.eqb_spec => // _; exact: returns_ret.
- apply: (panics_bind2 rp); rewrite d0 Z.gcd_0_r n1 /=.
  by apply: panics_bind; exact: panics_panic.
Qed.

(** Over polynomials, every vector shorter than the modulus is accepted, whatever its
    entries are. *)
Lemma poly_quotient_accepts cfg E (A : FieldAlg E) (modulo v : seq E) :
  (size v < size modulo)%nat ->
  returns (contains (QuotientRing cfg (PolyEucl A) modulo) v) true /\
  returns (contains (QuotientField cfg (PolyEucl A) modulo) v) true.
Proof.
move=> h; suff r : returns (reduced (PolyEucl A) v modulo) true by [].
have m0 : (size modulo == 0)%nat = false by case: modulo h.
exists 0%nat => k _.
by rewrite /= /default_reduced /default_quo /= /poly_quo_rem /orM /bind /= m0 /= h.
Qed.
