(** * PWide.v -- what is computed on top of small integers is computed on top of wider ones. *)

From Coq Require Import ZArith Lia.
From mathcomp Require Import all_ssreflect all_algebra zify ssrZ.
From Verif Require Import Rust Traits MInts MConstr Wp ZFacts PIntsZ PInts PSim PGSim CallSpec
  ProfSpec PProf PProf2 PProf3 PCISim WideSpec.

Set Implicit Arguments.
Unset Strict Implicit.
Unset Printing Implicit Defensive.

Local Notation r := (@gsim False).

Lemma simple T (Q : T -> Prop) m1 m2 : sim Q m1 m2 -> r Q m1 m2.
Proof. by split. Qed.

Section Wide.
Variables (c1 c2 : Cfg) (w w' : Z) (ok : Z -> Prop).
Hypotheses (w2 : Z.le (Zpos (xO xH)) w) (ww' : Z.le w w').
Local Notation Q := (fun x : Z => is_true (in_i w x)).

Lemma in_wider x : in_i w x -> in_i w' x.
Proof.
rewrite /in_i /imin /imax; have := Z.pow_le_mono_r 2 (w - 1) (w' - 1); lia.
Qed.
Lemma bad_wider x y : in_i w x -> bad_div w' x y -> bad_div w x y.
Proof.
rewrite /bad_div /in_i /imin /imax; have := Z.pow_le_mono_r 2 (w - 1) (w' - 1); lia.
Qed.
Lemma wide_checked z : r Q (unwrap (checked_i w z)) (unwrap (checked_i w' z)).
Proof.
apply: simple; rewrite /checked_i; case: ifP => //= h; rewrite (in_wider h).
exact: sim_ret.
Qed.
Lemma wide_checked_ints : eucl_alg_rel r ok Q (CheckedInts c1 w) (CheckedInts c2 w').
Proof.
have w2' : Z.le 2 w' by lia.
have h0 : r Q (ret Z0) (ret Z0) by apply: gsim_ret; exact: in_i0.
have h1 : r Q (ret (Zpos xH)) (ret (Zpos xH)) by apply: gsim_ret; exact: in_i1.
have ha : rel2 r Q (checked_ints_add w) (checked_ints_add w').
  by move=> x y _ _; exact: wide_checked.
have hm : rel2 r Q (checked_ints_mul w) (checked_ints_mul w').
  by move=> x y _ _; exact: wide_checked.
have hd : rel1 r Q (default_double (checked_ints_add w)) (default_double (checked_ints_add w')).
  by move=> x Qx; exact: ha.
have hn : rel1 r Q (checked_ints_neg w) (checked_ints_neg w').
  by move=> x _; exact: wide_checked.
have hv : rel1b r Q checked_ints_invertible checked_ints_invertible.
  by move=> x _; exact: gsim_refl.
have hz : rel1b r Q (fun x => ret (Z.eqb x Z0)) (fun x => ret (Z.eqb x Z0)).
  by move=> x _; exact: gsim_refl.
have ht n : rel1 r Q (checked_ints_ztimes w n) (checked_ints_ztimes w' n).
  by move=> x _; apply: gsim_bind (wide_checked _) _ => k _; exact: wide_checked.
have hs : rel2 r Q (fun x y => unwrap (checked_i w (Z.sub x y)))
    (fun x y => unwrap (checked_i w' (Z.sub x y))).
  by move=> x y _ _; exact: wide_checked.
have htd : rel2o r Q (checked_ints_try_div c1 w) (checked_ints_try_div c2 w').
  move=> x y Qx Qy; have [->|y0] := Z.eq_dec y Z0; first exact: gsim_panic.
  rewrite !checked_ints_try_divE ?in_wider //; case: ifP => [_|/negbT nb]; first exact: simple.
  have -> : bad_div w' x y = false by apply: contraNF nb; exact: bad_wider.
  by apply: gsim_ret; case: ifP => //= _; exact: in_zquo.
have hdv := gsim_divisible hz htd.
have hq : rel2p r Q (checked_ints_quo_rem c1 w) (checked_ints_quo_rem c2 w').
  move=> x y Qx Qy; have [->|y0] := Z.eq_dec y Z0; first exact: gsim_panic.
  rewrite !checked_ints_quo_remE ?in_wider //; case: ifP => [_|/negbT nb]; first exact: simple.
  have -> : bad_div w' x y = false by apply: contraNF nb; exact: bad_wider.
  by apply: gsim_ret; split=> /=; [exact: in_zquo|exact: in_zrem].
have hQ := gsim_quo hq; have hr := gsim_rem hq; have hg := gsim_gcd hz hr.
split; last first.
  split; [exact: hq|exact: hQ|exact: hr| |exact: hg|exact: (gsim_lcm hz hm hQ hg)| |].
  - by move=> x y Qx Qy; rewrite /= !checked_ints_reducedE ?in_wider //; exact: gsim_refl.
  - by move=> x y Qx Qy; exact: (gsim_extended_gcd hz h1 h0 hm hs hq Qx Qy).
  - exact: (gsim_relative_primes hv hg).
split; last first.
  split; [exact: htd|exact: hdv|exact: (gsim_associates hdv)| |].
    by move=> x Qx; apply: gsim_if => _; [exact: hn|exact: gsim_ret].
  move=> x Qx; apply: gsim_bind (gsim_assert _ _) _ => _ _; apply: gsim_if => _ //.
  by apply: gsim_ret; exact: in_iN1.
split.
- split; first by split=> [x _|x y _ _]; exact: gsim_refl.
    by split=> //; move=> x Qx; exact: hm.
  split; [exact: h1|by move=> x _; exact: gsim_refl| |exact: hv].
  by move=> x Qx; apply: gsim_bind (hv x Qx) _ => -[] _; exact: gsim_ret.
- by split=> // n _ x Qx; exact: (gsim_ntimes _ h0 ha hd Qx).
- by split; [exact: hn|exact: hn|exact: hs|exact: (gsim_sub_assign hn ha)|move=> n _; exact: ht].
- by split=> n _; exact: (prof_int (ht n) h1).
Qed.

(** ** The unbounded integers *)
Lemma wide_power_loop f k num x z s : in_i w x -> in_i w z ->
  while_fuel f (fun s : Z * Z * Z => let '(num, elem, res) := s in ret (Z.gtb num 0))
    (fun s => let '(num, elem, res) := s in
       let! res := (if Z.eqb (Z.rem num 2) 0 then ret res else checked_ints_add w res elem) in
       let num := Z.quot num 2 in
       let! elem := default_double (checked_ints_add w) elem in
       ret (num, elem, res)) (num, x, z) k = Done s ->
  in_i w s.2 /\ (Z.le Z0 num -> s.2 = Z.add z (Z.mul num x)).
Proof.
elim: f num x z => [|f IH] num x z Qx Qz //=; rewrite {1}/bind /=.
case: Z.gtb_spec => hn; last first.
  move=> [<-]; split=> //= h.
  have -> : num = Z0 by lia.
  by rewrite Z.mul_0_l Z.add_0_r.
rewrite /bind /=; case E1: ((if _ then _ else _) k) => [z'||] //=.
case E2: (default_double _ x k) => [x'||] //= /IH h.
have [e2 Qx'] : x' = Z.add x x /\ in_i w x'.
  by move: E2; rewrite /default_double /checked_ints_add /checked_i; case: ifP => //= q [<-].
have [e1 Qz'] : z' = Z.add z (Z.mul (Z.rem num 2) x) /\ in_i w z'.
  move: E1; case: Z.eqb_spec => hr.
    by move=> [<-]; rewrite hr; split=> //; lia.
  have -> : Z.rem num 2 = Zpos xH by have := Z.rem_bound_pos num 2; lia.
  by rewrite Z.mul_1_l /checked_ints_add /checked_i; case: ifP => //= q [<-].
have [hs e] := h Qx' Qz'; split=> // n0; rewrite e; last by apply: Z.quot_pos; lia.
by rewrite e1 e2; have := Z.quot_rem' num 2; nia.
Qed.
Lemma wide_ntimes n : Z.le Z0 n -> rel1 r Q (ntimes (CheckedInts c1 w) n) (ntimes ZZ n).
Proof.
move=> n0 x Qx; apply: simple => k v; rewrite /= /default_ntimes bind_ret /power_loop /while_loop.
rewrite {1}/bind; case E: (while_fuel _ _ _ _ _) => [s||] //= [<-].
have [h1 h2] := wide_power_loop Qx (in_i0 w2) E.
by split=> //; rewrite h2.
Qed.
Lemma wide_integers : eucl_alg_rel r ok Q (CheckedInts c1 w) ZZ.
Proof.
have hm : rel2 r Q (mul (CheckedInts c1 w)) (mul ZZ).
  by move=> x y Qx Qy; apply: simple; exact: ci_sim_mul.
have ha : rel2 r Q (add (CheckedInts c1 w)) (add ZZ).
  by move=> x y Qx Qy; apply: simple; exact: ci_sim_add.
have hn : rel1 r Q (neg (CheckedInts c1 w)) (neg ZZ).
  by move=> x Qx; apply: simple; exact: ci_sim_neg.
have hdv : rel2b r Q (divisible (CheckedInts c1 w)) (divisible ZZ).
  by move=> x y Qx Qy; apply: simple; exact: ci_sim_divisible.
have h1 : r Q (one (CheckedInts c1 w)) (one ZZ) by apply: simple; exact: ci_sim_one.
have ht n : rel1 r Q (ztimes (CheckedInts c1 w) n) (ztimes ZZ n).
  by move=> x Qx; apply: simple; exact: ci_sim_ztimes.
split; [split; [split; [split| | |]|]|].
- by split; repeat intro; exact: gsim_refl.
- by split=> // x Qx; exact: hm.
- split; [exact: h1|by move=> x _; exact: gsim_refl| |].
    by move=> x Qx; apply: simple; exact: ci_sim_try_inv.
  by move=> x Qx; apply: simple; exact: ci_sim_invertible.
- split; [by apply: simple; exact: ci_sim_zero|by move=> x _; exact: gsim_refl|exact: ha|exact: ha|
    |exact: wide_ntimes].
  by move=> x Qx; apply: simple; exact: ci_sim_double.
- split; [exact: hn|exact: hn| | |by move=> n _; exact: ht].
    by move=> x y Qx Qy; apply: simple; exact: ci_sim_sub.
  by move=> x y Qx Qy; apply: simple; exact: ci_sim_sub_assign.
- by split=> n _; exact: (prof_int (ht n) h1).
- split.
  + by move=> x y Qx Qy; apply: simple; exact: ci_sim_try_div.
  + exact: hdv.
  + exact: (gsim_associates hdv).
  + by move=> x Qx; apply: gsim_if => _; [exact: hn|exact: gsim_ret].
  + move=> x Qx; apply: gsim_bind (gsim_assert _ _) _ => _ _; apply: gsim_if => _; last exact: h1.
    by apply: gsim_ret; exact: in_iN1.
- split.
  + by move=> x y Qx Qy; apply: simple; exact: ci_sim_quo_rem.
  + by move=> x y Qx Qy; apply: simple; exact: ci_sim_quo.
  + by move=> x y Qx Qy; apply: simple; exact: ci_sim_rem.
  + by move=> x y Qx Qy; rewrite /= checked_ints_reducedE // integers_reducedE; exact: gsim_refl.
  + by move=> x y Qx Qy; apply: simple; exact: ci_sim_gcd.
  + by move=> x y Qx Qy; apply: simple; exact: ci_sim_lcm.
  + by move=> x y Qx Qy; apply: simple; exact: ci_sim_extended_gcd.
  + by move=> x y Qx Qy; apply: simple; exact: ci_sim_relative_primes.
Qed.
End Wide.

(** ** All structures *)
Section All.
Variables (c1 c2 : Cfg) (ok : Z -> Prop) (int : Z -> Prop) (I1 I2 : EuclAlg Z).
Hypothesis okP : forall n, ok n -> Z.ltb n Z0 ->
  r any (prim_i c1 (ptr_bits c1) (Z.opp n)) (prim_i c2 (ptr_bits c2) (Z.opp n)).
Hypothesis ok1 : ok (Zpos xH).
Hypothesis hdbg : debug_follows False c1 c2.
Hypothesis hI : eucl_alg_rel r ok int I1 I2.

Fixpoint over_eucl_all E (ty : E -> Prop) A (h : over_eucl int ty A) {struct h} :
  eucl_alg_rel r ok ty (A I1 c1) (A I2 c2)
with over_field_all E (ty : E -> Prop) A (h : over_field int ty A) {struct h} :
  field_alg_rel r ok ty (A I1 c1) (A I2 c2).
Proof.
- case: E ty A / h => [|E ty A hA|E ty A hA].
  + exact: hI.
  + exact: fi_eucl_alg_rel (over_field_all _ _ _ hA).
  + exact: prof_poly_eucl (over_field_all _ _ _ hA).
- case: E ty A / h => [E ty A m hA hm|E ty A hA].
  + exact: (prof_quotient_field okP (over_eucl_all _ _ _ hA) hm).
  + exact: (prof_fractions okP (over_eucl_all _ _ _ hA)).
Qed.
Lemma over_idom_all E (ty : E -> Prop) A : over_idom int ty A ->
  idom_alg_rel r ok ty (A I1 c1) (A I2 c2).
Proof.
elim=> {E ty A} [E ty A hA|E ty A _ IH].
  exact: eu_idom_alg_rel (over_eucl_all hA).
exact: prof_poly_idom IH.
Qed.
Lemma over_ring_all E (ty : E -> Prop) A : over_ring int ty A ->
  ring_alg_rel r ok ty (A I1 c1) (A I2 c2).
Proof.
elim=> {E ty A} [E ty A hA|E ty A m hA hm|E ty n A _ IH|E ty A _ IH|E ty n A hA].
- exact: id_ring_alg_rel (over_idom_all hA).
- exact: (prof_quotient_ring okP (over_eucl_all hA) hm).
- exact: (prof_vector_ring okP n IH).
- exact: prof_poly_ring IH.
- apply: (prof_matrix_ring okP (n := n) (over_field_all hA) ok1) => v Qv.
  by apply: hdbg; exact: (prof_matrix_is_one n (over_field_all hA) ok1 Qv).
Qed.
Lemma over_group_all E (ty : E -> Prop) A : over_group int ty A ->
  group_alg_rel r ok ty (A I1 c1) (A I2 c2).
Proof.
elim=> {E ty A} [E ty A hA|E ty A hA|E ty n A _ IH].
- have [[hD _ _] hC hG _] := over_ring_all hA.
  exact: (prof_additive okP hD hC (neg_rel hG)).
- exact: (prof_multiplicative okP (ri_monoid_alg_rel (over_ring_all hA))).
- exact: (prof_vector_group okP n IH).
Qed.
Lemma over_determinant E (ty : E -> Prop) n A v : over_field int ty A -> in_vec ty v ->
  r ty (determinant (A I1 c1) n v) (determinant (A I2 c2) n v).
Proof. by move=> hA Qv; exact: (prof_determinant n (over_field_all hA) Qv). Qed.
End All.

(** ** The statements *)
Section Statements.
Variables (c1 c2 : Cfg) (w : Z) (J : EuclAlg Z).
Local Notation ok := (fun _ : Z => True).
Local Notation Q := (fun x : Z => is_true (in_i w x)).
Hypotheses (hc : stricter c1 c2) (w2 : Z.le (Zpos (xO xH)) w).
Hypothesis hJ : (exists2 w', Z.le w w' & J = CheckedInts c2 w') \/ J = ZZ.

Lemma wide_base : eucl_alg_rel r ok Q (CheckedInts c1 w) J.
Proof.
by case: hJ => [[w' h ->]|->]; [exact: wide_checked_ints|exact: wide_integers].
Qed.
Let okP n : ok n -> Z.ltb n Z0 ->
  r any (prim_i c1 (ptr_bits c1) (Z.opp n)) (prim_i c2 (ptr_bits c2) (Z.opp n)).
Proof. by move=> _ _; exact: stricterP. Qed.

Lemma wide_eucl E (ty : E -> Prop) A : over_eucl Q ty A ->
  eucl_alg_rel follows ok ty (A (CheckedInts c1 w) c1) (A J c2) /\
  lattice_alg_rel follows ty (DivisibilityLattice (A (CheckedInts c1 w) c1))
    (DivisibilityLattice (A J c2)).
Proof.
move=> hA; have h := over_eucl_all okP wide_base hA.
split; first exact: (map_eucl_alg (@gsim_follows) h).
exact: (map_lattice_alg (@gsim_follows) (prof_divlattice h)).
Qed.
Lemma wide_field E (ty : E -> Prop) A : over_field Q ty A ->
  field_alg_rel follows ok ty (A (CheckedInts c1 w) c1) (A J c2) /\
  forall n v, in_vec ty v ->
  follows ty (determinant (A (CheckedInts c1 w) c1) n v) (determinant (A J c2) n v).
Proof.
move=> hA; have h := over_field_all okP wide_base hA.
split=> [|n v Qv]; first exact: (map_field_alg (@gsim_follows) h).
exact: gsim_follows (prof_determinant n h Qv).
Qed.
Lemma wide_idom E (ty : E -> Prop) A : over_idom Q ty A ->
  idom_alg_rel follows ok ty (A (CheckedInts c1 w) c1) (A J c2) /\
  bounded_alg_rel follows ty (DivisibilityOrder (A (CheckedInts c1 w) c1))
    (DivisibilityOrder (A J c2)).
Proof.
move=> hA; have h := over_idom_all okP wide_base hA.
split; first exact: (map_idom_alg (@gsim_follows) h).
exact: (map_bounded_alg (@gsim_follows) (prof_divorder h)).
Qed.
Lemma wide_ring E (ty : E -> Prop) A : over_ring Q ty A ->
  ring_alg_rel follows ok ty (A (CheckedInts c1 w) c1) (A J c2).
Proof.
move=> hA; have h := over_ring_all okP I (stricter_debug hc) wide_base hA.
exact: (map_ring_alg (@gsim_follows) h).
Qed.
Lemma wide_group E (ty : E -> Prop) A : over_group Q ty A ->
  group_alg_rel follows ok ty (A (CheckedInts c1 w) c1) (A J c2).
Proof.
move=> hA; have h := over_group_all okP I (stricter_debug hc) wide_base hA.
exact: (map_group_alg (@gsim_follows) h).
Qed.
End Statements.

Lemma wide_uints (w w' : Z) : Z.le (Zpos xH) w -> Z.le w w' ->
  semiring_alg_rel follows (fun x => is_true (in_u w x)) (CheckedUints w) (CheckedUints w').
Proof.
move=> w1 ww'; set Q := fun x => is_true (in_u w x).
have wider x : in_u w x -> in_u w' x.
  by rewrite /in_u /umax; have := Z.pow_le_mono_r 2 w w'; lia.
have hu z : r Q (unwrap (checked_u w z)) (unwrap (checked_u w' z)).
  apply: simple; rewrite /checked_u; case: ifP => //= h; rewrite (wider _ h); exact: sim_ret.
have u1 : in_u w 1 by rewrite /in_u /umax; have := Z.pow_le_mono_r 2 1 w; lia.
have u0 : in_u w 0 by rewrite /in_u /umax; have := Z.pow_pos_nonneg 2 w; lia.
have ha : rel2 r Q (checked_uints_add w) (checked_uints_add w') by move=> x y _ _; exact: hu.
have hm : rel2 r Q (checked_uints_mul w) (checked_uints_mul w') by move=> x y _ _; exact: hu.
have hd : rel1 r Q (default_double (checked_uints_add w)) (default_double (checked_uints_add w')).
  by move=> x Qx; exact: ha.
have h0 : r Q (ret Z0) (ret Z0) by apply: gsim_ret.
have h1 : r Q (ret (Zpos xH)) (ret (Zpos xH)) by apply: gsim_ret.
suff [hM hC] : semiring_alg_rel r Q (CheckedUints w) (CheckedUints w').
  by split; [exact: (map_monoid_alg (@gsim_follows) hM)|exact: (map_cmonoid (@gsim_follows) hC)].
split; [split|].
- by split=> [x _|x y _ _]; exact: gsim_refl.
- by split; [exact: hm|exact: hm|move=> x Qx; exact: hm].
- split; [exact: h1|by move=> x _; exact: gsim_refl| |by move=> x _; exact: gsim_refl].
  by move=> x Qx; apply: gsim_if => _; exact: gsim_ret.
- split; [exact: h0|by move=> x _; exact: gsim_refl|exact: ha|exact: ha|exact: hd|].
  by move=> n _ x Qx; exact: (gsim_ntimes _ h0 ha hd Qx).
Qed.
