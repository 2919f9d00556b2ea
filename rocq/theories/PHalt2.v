(** * PHalt2.v -- vectors, polynomials, matrices and permutations preserve that calls come to an end. *)

From Coq Require Import ZArith Lia.
From mathcomp Require Import all_ssreflect zify ssrZ.
From Verif Require Import Rust Traits MInts MConstr Wp PSim CallSpec ProfSpec HaltSpec PHSim PHalt.

Set Implicit Arguments.
Unset Strict Implicit.
Unset Printing Implicit Defensive.

Section Prof.
Variables (c1 c2 : Cfg) (ok : Z -> Prop).
Local Notation r := halts.

(** ** Vectors *)
Section Vector.
Variables (E : Type) (Q : E -> Prop) (n : nat).
Local Notation V := (every Q).

Lemma halt_len1 v : r any (assert_len1 n (v : seq E)) (assert_len1 n v).
Proof. exact: hsim_mono (hsim_assert _) _. Qed.
Lemma halt_len2 v u : r any (assert_len2 n (v : seq E) u) (assert_len2 n v u).
Proof. exact: hsim_mono (hsim_assert _) _. Qed.
Lemma halt_vec1 f1 f2 : rel1 r Q f1 f2 ->
  rel1 r V (fun v => do! assert_len1 n v in mapM f1 v) (fun v => do! assert_len1 n v in mapM f2 v).
Proof.
by move=> h v Qv; apply: hsim_bind (halt_len1 v) _ => _ _; exact: hsim_mapM h Qv.
Qed.
Lemma halt_vec2 f1 f2 : rel2 r Q f1 f2 ->
  rel2 r V (fun v u => do! assert_len2 n v u in map2M f1 v u)
    (fun v u => do! assert_len2 n v u in map2M f2 v u).
Proof.
by move=> h v u Qv Qu; apply: hsim_bind (halt_len2 v u) _ => _ _; exact: hsim_map2M h Qv Qu.
Qed.
Lemma halt_vec1b f1 f2 : rel1b r Q f1 f2 ->
  rel1b r V (fun v => do! assert_len1 n v in allM f1 v) (fun v => do! assert_len1 n v in allM f2 v).
Proof.
by move=> h v Qv; apply: hsim_bind (halt_len1 v) _ => _ _; exact: hsim_allM h Qv.
Qed.
Lemma halt_vec2b f1 f2 : rel2b r Q f1 f2 ->
  rel2b r V (fun v u => do! assert_len2 n v u in all2M f1 v u)
    (fun v u => do! assert_len2 n v u in all2M f2 v u).
Proof.
by move=> h v u Qv Qu; apply: hsim_bind (halt_len2 v u) _ => _ _; exact: hsim_all2M h Qv Qu.
Qed.
Lemma halt_diag (m1 m2 : M E) : r Q m1 m2 ->
  r V (let! x := m1 in ret (vector_diagonal n x)) (let! x := m2 in ret (vector_diagonal n x)).
Proof. by move=> h; apply: hsim_bind h _ => x Qx; apply: hsim_ret; exact: every_nseq. Qed.

Lemma halt_vector_domain (A1 A2 : Domain E) : domain_rel r Q A1 A2 ->
  domain_rel r V (vector_domain n A1) (vector_domain n A2).
Proof.
move=> h; split; last exact: halt_vec2b (equals_rel h).
move=> v Qv; apply: hsim_if => _; first exact: hsim_ret.
exact: hsim_allM (contains_rel h) Qv.
Qed.
Lemma halt_vector_semigroup (A1 A2 : Semigroup E) : semigroup_rel r Q A1 A2 ->
  semigroup_rel r V (vector_semigroup n A1) (vector_semigroup n A2).
Proof.
move=> h; split; [exact: halt_vec2 (mul_rel h)|exact: halt_vec2 (mul_assign_rel h)|].
exact: halt_vec1 (square_rel h).
Qed.
Lemma halt_vector_try_inv_loop (A1 A2 : Monoid E) xs v : monoid_rel r Q A1 A2 ->
  V xs -> V v -> r (oQ V) (vector_try_inv_loop A1 xs v) (vector_try_inv_loop A2 xs v).
Proof.
move=> h; elim: xs v => [|x xs IH] v /=; first by move=> _ Qv; exact: hsim_ret.
move=> [Qx Qxs] Qv; apply: hsim_bind (try_inv_rel h Qx) _ => -[y|] Qy; last exact: hsim_ret.
by apply: IH => //; rewrite -cats1; apply/every_cat.
Qed.
Lemma halt_vector_monoid (A1 A2 : Monoid E) : monoid_rel r Q A1 A2 ->
  monoid_rel r V (vector_monoid n A1) (vector_monoid n A2).
Proof.
move=> h; split; [exact: halt_diag (one_rel h)|exact: halt_vec1b (is_one_rel h)| |].
  move=> v Qv; apply: hsim_bind (halt_len1 v) _ => _ _.
  exact: halt_vector_try_inv_loop.
exact: halt_vec1b (invertible_rel h).
Qed.
Lemma halt_vector_monoid_alg (A1 A2 : MonoidAlg E) : monoid_alg_rel r Q A1 A2 ->
  monoid_alg_rel r V (vector_monoid_alg n A1) (vector_monoid_alg n A2).
Proof.
case=> hD hS hO; split; [exact: halt_vector_domain|exact: halt_vector_semigroup|].
exact: halt_vector_monoid.
Qed.
Lemma halt_vector_group (A1 A2 : GroupAlg E) : group_alg_rel r ok Q A1 A2 ->
  group_alg_rel r ok V (vector_group c1 n A1) (vector_group c2 n A2).
Proof.
move=> hA; have [[hD hS hO] hG] := hA.
split; first exact: halt_vector_monoid_alg.
have hi := halt_vec1 (ginv_rel hG).
split=> // k okk; apply: halt_gpower => //.
- exact: one_rel (halt_vector_monoid hO).
- exact: mul_assign_rel (halt_vector_semigroup hS).
- exact: square_rel (halt_vector_semigroup hS).
Qed.
Lemma halt_vector_cmonoid (A1 A2 : CommMonoid E) : cmonoid_rel r Q A1 A2 ->
  cmonoid_rel r V (vector_cmonoid n A1) (vector_cmonoid n A2).
Proof.
move=> h; have hz := halt_diag (zero_rel h).
have ha := halt_vec2 (add_assign_rel h); have hd := halt_vec1 (double_rel h).
split=> //; [exact: halt_vec1b (is_zero_rel h)|exact: halt_vec2 (add_rel h)|].
by move=> k _ v Qv; exact: (hsim_ntimes _ hz ha hd Qv).
Qed.
Lemma halt_vector_abelian (A1 A2 : AbelianAlg E) : abelian_alg_rel r ok Q A1 A2 ->
  abelian_rel r ok V (vector_abelian c1 n A1) (vector_abelian c2 n A2).
Proof.
move=> [hD hC hA]; have hn := halt_vec1 (neg_rel hA).
split=> //; [exact: halt_vec1 (neg_assign_rel hA)|exact: halt_vec2 (sub_rel hA)|
  exact: halt_vec2 (sub_assign_rel hA)|].
move=> k okk; apply: halt_ztimes okk => //; first exact: halt_vector_domain.
exact: halt_vector_cmonoid.
Qed.
Lemma halt_vector_ring (A1 A2 : RingAlg E) : ring_alg_rel r ok Q A1 A2 ->
  ring_alg_rel r ok V (VectorRing c1 n A1) (VectorRing c2 n A2).
Proof.
move=> hA; have [hM hC _ hU] := hA; split.
- exact: halt_vector_monoid_alg.
- exact: halt_vector_cmonoid.
- exact: halt_vector_abelian (halt_abelian_alg hA).
- by split=> k okk; exact: halt_diag (int_rel hU okk).
Qed.
Lemma halt_vector_order (A1 A2 : OrderAlg E) : order_alg_rel r Q A1 A2 ->
  order_alg_rel r V (vector_order n A1) (vector_order n A2).
Proof.
move=> [hD hO]; have hl := halt_vec2b (leq_rel hO).
have hd := halt_vector_domain hD.
split=> //; split=> //; [exact: halt_less_than (equals_rel hd) hl|exact: halt_comparable hl].
Qed.
Lemma halt_vector_lattice (A1 A2 : LatticeAlg E) : lattice_alg_rel r Q A1 A2 ->
  lattice_alg_rel r V (VectorLattice n A1) (VectorLattice n A2).
Proof.
move=> [hO hL]; split; first exact: halt_vector_order.
by split; [exact: halt_vec2 (meet_rel hL)|exact: halt_vec2 (join_rel hL)].
Qed.
Lemma halt_vector_boolean (A1 A2 : BooleanAlg E) : boolean_alg_rel r Q A1 A2 ->
  boolean_alg_rel r V (VectorBoolean n A1) (VectorBoolean n A2).
Proof.
move=> [hL hB hN]; split; first exact: halt_vector_lattice.
  by split; [exact: halt_diag (omax_rel hB)|exact: halt_diag (omin_rel hB)].
by split; exact: halt_vec1 (bnot_rel hN).
Qed.
End Vector.

(** ** Polynomials *)
Section PolyAbelian.
Variables (E : Type) (Q : E -> Prop) (A1 A2 : AbelianAlg E).
Local Notation V := (every Q).
Hypothesis hA : abelian_alg_rel r ok Q A1 A2.
Let hD : domain_rel r Q A1 A2 := hA.
Let hC : cmonoid_rel r Q A1 A2 := hA.
Let hG : abelian_rel r ok Q A1 A2 := hA.

Lemma halt_poly_domain : domain_rel r V (poly_domain A1) (poly_domain A2).
Proof.
split.
  move=> v Qv; apply: hsim_if => _; first exact: hsim_ret.
  apply: hsim_bind (hsim_allM (contains_rel hD) Qv) _ => b _.
  apply: hsim_if => _; first exact: hsim_ret.
  apply: hsim_bind (hsim_vget _ Qv) _ => x Qx.
  by apply: hsim_notM; exact: is_zero_rel hC _ Qx.
move=> v u Qv Qu; apply: hsim_if => _; first exact: hsim_ret.
exact: hsim_all2M (equals_rel hD) Qv Qu.
Qed.
Lemma halt_poly_mul (S1 S2 : Semigroup E) : semigroup_rel r Q S1 S2 ->
  rel2 r V (poly_mul A1 S1) (poly_mul A2 S2).
Proof.
move=> hS v u Qv Qu; apply: hsim_if => _; first exact: hsim_ret.
apply: hsim_bind (zero_rel hC) _ => z Qz.
apply: (hsim_for (J := fun _ => V)) => [i acc _ Qacc|]; last exact: every_vresize.
apply: (hsim_for (J := fun _ => V)) Qacc => j acc' _ Qacc.
apply: hsim_bind (hsim_vget _ Qv) _ => x Qx.
apply: hsim_bind (hsim_vget _ Qu) _ => y Qy.
apply: hsim_bind (mul_rel hS Qx Qy) _ => a Qa.
apply: hsim_bind (hsim_vget _ Qacc) _ => c Qc.
by apply: hsim_bind (add_rel hC Qc Qa) _ => d Qd; exact: hsim_vset.
Qed.
Lemma halt_poly_semigroup (S1 S2 : Semigroup E) : semigroup_rel r Q S1 S2 ->
  semigroup_rel r V (poly_semigroup A1 S1) (poly_semigroup A2 S2).
Proof.
move=> hS; have hm := halt_poly_mul hS; split=> //.
by move=> v Qv; exact: hm.
Qed.
Lemma halt_poly_one (O1 O2 : Monoid E) : monoid_rel r Q O1 O2 ->
  r V (poly_one A1 O1) (poly_one A2 O2).
Proof.
move=> hO; apply: hsim_bind (one_rel hO) _ => o Qo.
apply: hsim_bind (is_zero_rel hC Qo) _ => b _.
apply: hsim_bind (hsim_assert _) _ => _ _.
by apply: hsim_bind (one_rel hO) _ => o' Qo'; exact: hsim_ret.
Qed.
Lemma halt_poly_monoid (O1 O2 : Monoid E) : monoid_rel r Q O1 O2 ->
  monoid_rel r V (poly_monoid A1 O1) (poly_monoid A2 O2).
Proof.
move=> hO; have ht : rel1o r V (poly_try_inv O1) (poly_try_inv O2).
  move=> v Qv; apply: hsim_if => _; last exact: hsim_ret.
  apply: hsim_bind (hsim_vget _ Qv) _ => x Qx.
  by apply: hsim_bind (try_inv_rel hO Qx) _ => -[y|] Qy; exact: hsim_ret.
split; [exact: halt_poly_one| |exact: ht|exact: (hsim_invertible ht)].
move=> v Qv; apply: hsim_if => _; last exact: hsim_ret.
by apply: hsim_bind (hsim_vget _ Qv) _ => x Qx; exact: is_one_rel hO _ Qx.
Qed.
Lemma halt_poly_add : rel2 r V (poly_add A1) (poly_add A2).
Proof.
move=> v u Qv Qu; apply: hsim_if => _.
  have h v0 u0 : V v0 -> V u0 -> r V
    (for_loop 0 (size u0) (fun i acc => let! x := vget acc i in let! y := vget u0 i in
       let! a := add A1 x y in vset acc i a) v0)
    (for_loop 0 (size u0) (fun i acc => let! x := vget acc i in let! y := vget u0 i in
       let! a := add A2 x y in vset acc i a) v0).
    move=> Qv0 Qu0; apply: (hsim_for (J := fun _ => V)) Qv0 => i acc _ Qacc.
    apply: hsim_bind (hsim_vget _ Qacc) _ => x Qx.
    apply: hsim_bind (hsim_vget _ Qu0) _ => y Qy.
    by apply: hsim_bind (add_rel hC Qx Qy) _ => a Qa; exact: hsim_vset.
  by case: ifP => _; exact: h.
apply: (hsim_for (J := fun _ => V)) => // i acc _ Qacc.
apply: hsim_bind (hsim_vget _ Qv) _ => x Qx.
apply: hsim_bind (hsim_vget _ Qu) _ => y Qy.
apply: hsim_bind (add_rel hC Qx Qy) _ => a Qa.
apply: hsim_bind (is_zero_rel hC Qa) _ => b _.
apply: hsim_if => _; last exact: hsim_ret.
apply: hsim_bind (zero_rel hC) _ => z Qz.
by apply: hsim_vset => //; exact: every_vresize.
Qed.
Lemma halt_poly_cmonoid : cmonoid_rel r V (poly_cmonoid A1) (poly_cmonoid A2).
Proof.
have ha := halt_poly_add.
have hd : rel1 r V (default_double (poly_add A1)) (default_double (poly_add A2)).
  by move=> x Qx; exact: ha.
have hz : r V (ret [::]) (ret [::]) by exact: hsim_ret.
split; [exact: hz|by move=> v _; exact: hsim_ret|exact: ha|exact: ha|exact: hd|].
by move=> k _ v Qv; exact: (hsim_ntimes _ hz ha hd Qv).
Qed.
Lemma halt_poly_ztimes k : ok k -> rel1 r V (poly_ztimes A1 k) (poly_ztimes A2 k).
Proof.
move=> okk v Qv; apply: hsim_bind (hsim_mapM (ztimes_rel hG okk) Qv) _ => e Qe.
apply: (hsim_bind (Q := fun x : unit + seq E => match x with inl _ => True | inr u => V u end)).
  apply: (hsim_rev_ret (J := fun _ _ => True)) => // i _ _ _.
  apply: hsim_bind (hsim_vget _ Qe) _ => x Qx.
  apply: hsim_bind (is_zero_rel hC Qx) _ => b _.
  apply: hsim_if => _; last exact: hsim_ret.
  apply: hsim_bind (zero_rel hC) _ => z Qz.
  by apply: hsim_ret; exact: every_vresize.
by move=> [_|u] h; exact: hsim_ret.
Qed.
Lemma halt_poly_abelian : abelian_rel r ok V (poly_abelian A1) (poly_abelian A2).
Proof.
have hn : rel1 r V (poly_neg A1) (poly_neg A2).
  by move=> v Qv; exact: hsim_mapM (neg_rel hG) Qv.
have ha := halt_poly_add.
split=> //; [exact: (hsim_sub hn ha)|exact: (hsim_sub_assign hn ha)|].
exact: halt_poly_ztimes.
Qed.
End PolyAbelian.

Lemma halt_poly_ring E (Q : E -> Prop) (A1 A2 : RingAlg E) : ring_alg_rel r ok Q A1 A2 ->
  ring_alg_rel r ok (every Q) (PolyRing A1) (PolyRing A2).
Proof.
move=> hA; have hB := halt_abelian_alg hA; have [[hD hS hO] hC hG hU] := hA.
split.
- split; [exact: halt_poly_domain hB|exact: halt_poly_semigroup hB _ _ hS|].
  exact: halt_poly_monoid hB _ _ hO.
- exact: halt_poly_cmonoid hB.
- exact: halt_poly_abelian hB.
- split=> k okk; apply: halt_int; last exact: (halt_poly_one hB hO).
  exact: (halt_poly_ztimes hB okk).
Qed.

Lemma halt_poly_idom E (Q : E -> Prop) (A1 A2 : IDomAlg E) : idom_alg_rel r ok Q A1 A2 ->
  idom_alg_rel r ok (every Q) (PolyIDom A1) (PolyIDom A2).
Proof.
move=> hA; have [hR hI] := hA; have [[hD hS hO] hC hG hU] := hR.
have ht : rel2o r (every Q) (poly_try_div A1) (poly_try_div A2).
  move=> v u Qv Qu; apply: hsim_bind (hsim_assert _) _ => _ _.
  apply: hsim_if => _; first by apply: hsim_if => _; exact: hsim_ret.
  apply: hsim_bind (zero_rel hC) _ => z Qz.
  apply: hsim_bind (hsim_vget _ Qu) _ => a Qa.
  apply: hsim_bind (is_zero_rel hC Qa) _ => b _.
  apply: hsim_bind (hsim_assert _) _ => _ _.
  set quo := vresize _ _ _; have Qq : every Q quo by exact: every_vresize.
  apply: (hsim_bind (Q := fun x : seq E * seq E + option (seq E) => match x with
    | inl p => every Q p.1 /\ every Q p.2 | inr o => oQ (every Q) o end)).
    apply: (hsim_rev_ret (J := fun _ (p : seq E * seq E) => every Q p.1 /\ every Q p.2)) => //.
    move=> i [qu re] _ [/= Qqu Qre].
    apply: hsim_bind (hsim_vget _ Qre) _ => x Qx.
    apply: hsim_bind (try_div_rel hI Qx Qa) _ => -[q|] Qo; last exact: hsim_ret.
    apply: hsim_bind (hsim_vset _ Qqu Qo) _ => qu' Qqu'.
    apply: hsim_bind (neg_rel hG Qo) _ => c Qc.
    apply: (hsim_bind (Q := every Q)); last by move=> re' Qre'; exact: hsim_ret.
    apply: (hsim_for (J := fun _ => every Q)) Qre => j re' _ Qre.
    apply: hsim_bind (hsim_vget _ Qu) _ => y Qy.
    apply: hsim_bind (mul_rel hS Qy Qc) _ => e Qe.
    apply: hsim_bind (hsim_vget _ Qre) _ => d Qd.
    by apply: hsim_bind (add_assign_rel hC Qd Qe) _ => d' Qd'; exact: hsim_vset.
  move=> [[qu re] [/= Qqu Qre]|o Qo]; last exact: hsim_ret.
  apply: hsim_bind (hsim_allM (is_zero_rel hC) (every_take _ Qre)) _ => -[] _; exact: hsim_ret.
have hz : rel1b r (every Q) (is_zero (poly_cmonoid A1)) (is_zero (poly_cmonoid A2)).
  by move=> v _; exact: hsim_ret.
have hd := hsim_divisible hz ht.
split; first exact: halt_poly_ring hR.
split; [exact: ht|exact: hd|exact: (hsim_associates hd)| |].
  move=> v Qv; apply: hsim_if => _; first exact: hsim_ret.
  apply: hsim_bind (hsim_vget _ Qv) _ => x Qx.
  apply: hsim_bind (associate_coef_rel hI Qx) _ => c Qc.
  by apply: hsim_mapM Qv => y Qy; exact: mul_rel hS _ _ Qy Qc.
move=> v Qv; apply: hsim_bind (hsim_assert _) _ => _ _.
apply: hsim_bind (hsim_vget _ Qv) _ => x Qx.
by apply: hsim_bind (associate_coef_rel hI Qx) _ => c Qc; exact: hsim_ret.
Qed.

Lemma halt_poly_eucl E (Q : E -> Prop) (A1 A2 : FieldAlg E) : field_alg_rel r ok Q A1 A2 ->
  eucl_alg_rel r ok (every Q) (PolyEucl A1) (PolyEucl A2).
Proof.
move=> hA; have hR : ring_alg_rel r ok Q A1 A2 := hA.
have [[hD hS hO] hC hG hU] := hR; have hF : field_rel r ok Q A1 A2 := hA.
have hq' v u : every Q v -> every Q u -> r (fun qr => both2 (every Q) qr /\
    zero_or_less (is_zero (poly_cmonoid A1)) size qr.2 u) (poly_quo_rem A1 v u) (poly_quo_rem A2 v u).
  move=> Qv Qu; apply: hsim_bind (hsim_assert _) _ => _ u0.
  apply: hsim_if => h; first by apply: hsim_ret; split=> //; right.
  apply: hsim_bind (zero_rel hC) _ => z Qz.
  apply: hsim_bind (hsim_vget _ Qu) _ => a Qa.
  apply: hsim_bind (is_zero_rel hC Qa) _ => b _.
  apply: hsim_bind (hsim_assert _) _ => _ _.
  set quo := vresize _ _ _; have Qq : every Q quo by exact: every_vresize.
  apply: (hsim_bind (Q := fun p : seq E * seq E => every Q p.1 /\ every Q p.2)).
    apply: (hsim_rev (J := fun _ (p : seq E * seq E) => every Q p.1 /\ every Q p.2)) => //.
    move=> i [qu re] _ [/= Qqu Qre].
    apply: hsim_bind (hsim_vget _ Qre) _ => x Qx.
    apply: hsim_bind (fdiv_rel hF Qx Qa) _ => q Qo.
    apply: hsim_bind (hsim_vset _ Qqu Qo) _ => qu' Qqu'.
    apply: hsim_bind (neg_rel hG Qo) _ => c Qc.
    apply: (hsim_bind (Q := every Q)); last by move=> re' Qre'; exact: hsim_ret.
    apply: (hsim_for (J := fun _ => every Q)) Qre => j re' _ Qre.
    apply: hsim_bind (hsim_vget _ Qu) _ => y Qy.
    apply: hsim_bind (mul_rel hS Qy Qc) _ => e Qe.
    apply: hsim_bind (hsim_vget _ Qre) _ => d Qd.
    by apply: hsim_bind (add_rel hC Qd Qe) _ => d' Qd'; exact: hsim_vset.
  move=> [qu re] [/= Qqu Qre].
  apply: (hsim_bind (Q := fun i => i <= size u - 1)).
    apply/haltsE; apply: (@ensures_while _ _ _ _ (fun i => i <= size u - 1) _ id) => //.
    move=> i ile; apply: (@ensures_mono _ _ _ (fun b : bool => b -> 0 < i)); last first.
      move=> [] // /(_ isT) i0; apply: ensures_ret; split; first exact: leq_trans (leq_subr _ _) ile.
      by rewrite ltn_subrL i0.
    case: ltnP => i0; last by apply: ensures_ret.
    apply/(haltsE _ _ panic); apply: (hsim_mono (P := any)) => //.
    apply: (hsim_bind (f2 := fun _ => panic)) (hsim_vget _ Qre) _ => x Qx.
    exact: is_zero_rel hC _ Qx.
  move=> i ile; apply: hsim_ret; split; first by split=> //; exact: every_take.
  right => /=; rewrite size_take; case: ifP => hi; lia.
have hz : rel1b r (every Q) (is_zero (poly_cmonoid A1)) (is_zero (poly_cmonoid A2)).
  by move=> v _; exact: hsim_ret.
have hq : rel2p r (every Q) (poly_quo_rem A1) (poly_quo_rem A2).
  by move=> v u Qv Qu; apply: hsim_mono (hq' v u Qv Qu) _ => qr [].
have hds : descends (every Q) (is_zero (poly_cmonoid A1)) (poly_quo_rem A1) size.
  by move=> v u Qv Qu; apply/haltsE; exact: hq'.
have hQ := hsim_quo hq; have hr := hsim_rem hq; have hg := hsim_gcd (default_rem (poly_quo_rem A2)) hz hds.
have hP : ring_alg_rel r ok (every Q) (PolyRing A1) (PolyRing A2) by exact: halt_poly_ring.
split; first exact: halt_poly_idom hA.
split; [exact: hq|exact: hQ|exact: hr|exact: (hsim_reduced hz hQ)|exact: hg| | |].
- exact: (hsim_lcm hz (mul_rel hP) hQ hg).
- move=> v u Qv Qu; exact: (hsim_extended_gcd _ hz (one_rel (ri_monoid_alg_rel hP))
    (zero_rel hP) (mul_rel hP) (sub_rel hP) hds Qv Qu).
- exact: (hsim_relative_primes (invertible_rel (ri_monoid_alg_rel hP)) hg).
Qed.

(** ** Matrices *)
Section Matrix.
Variables (E : Type) (Q : E -> Prop) (A1 A2 : FieldAlg E) (n : nat).
Local Notation V := (every Q).
Hypothesis hA : field_alg_rel r ok Q A1 A2.
Hypothesis ok1 : ok (Zpos xH).
Let hR : ring_alg_rel r ok Q A1 A2 := hA.
Let hD : domain_rel r Q A1 A2 := mo_domain_rel hR.
Let hS : semigroup_rel r Q A1 A2 := hR.
Let hO : monoid_rel r Q A1 A2 := ri_monoid_alg_rel hR.
Let hC : cmonoid_rel r Q A1 A2 := hR.
Let hG : abelian_rel r ok Q A1 A2 := hR.
Let hU : unitary_rel r ok Q A1 A2 := hR.
Let hF : field_rel r ok Q A1 A2 := hA.

Lemma halt_transpose v : V v -> r V (matrix_transpose n v) (matrix_transpose n v).
Proof.
move=> Qv; apply: hsim_bind (hsim_assert _) _ => _ _.
apply: (hsim_for (J := fun _ => V)) => // i acc _ Qacc.
apply: (hsim_for (J := fun _ => V)) Qacc => j acc' _ Qacc.
apply: hsim_bind (hsim_vget _ Qv) _ => x Qx; apply: hsim_ret.
by rewrite -cats1; apply/every_cat.
Qed.
Lemma halt_mul_row v i c : V v -> Q c -> r V (mul_row A1 n v i c) (mul_row A2 n v i c).
Proof.
move=> Qv Qc; apply: hsim_bind (hsim_assert _) _ => _ _.
apply: (hsim_bind (Q := V)) => [|s Qs].
  apply: (hsim_mapM (Q := Q)) => [x Qx|]; first exact: mul_assign_rel hS _ _ Qx Qc.
  by apply: every_take; exact: every_drop.
apply: hsim_ret; apply/every_cat; split; first exact: every_take.
by apply/every_cat; split=> //; exact: every_drop.
Qed.
Lemma halt_add_rows v i j c : V v -> Q c ->
  r V (add_rows A1 n v i j c) (add_rows A2 n v i j c).
Proof.
move=> Qv Qc; apply: (hsim_for (J := fun _ => V)) Qv => k u _ Qu.
apply: hsim_bind (hsim_vget _ Qu) _ => x Qx.
apply: hsim_bind (mul_rel hS Qx Qc) _ => y Qy.
apply: hsim_bind (hsim_vget _ Qu) _ => z Qz.
by apply: hsim_bind (add_assign_rel hC Qz Qy) _ => z' Qz'; exact: hsim_vset.
Qed.
Lemma halt_swap_rows v i j : V v -> r V (swap_rows n v i j) (swap_rows n v i j).
Proof.
by move=> Qv; apply: (hsim_for (J := fun _ => V)) Qv => k u _ Qu; exact: hsim_vswap.
Qed.
Lemma halt_find_row v j : V v -> r any (find_row A1 n v j) (find_row A2 n v j).
Proof.
move=> Qv; apply: (hsim_mono (P := fun o => if o is Some i then j <= i < j + (n - j) else true)) => //.
apply: hsim_findM => i _; apply: hsim_bind (hsim_vget _ Qv) _ => x Qx.
by apply: hsim_notM; exact: is_zero_rel hC _ Qx.
Qed.
Lemma halt_determinant v : V v -> r Q (determinant A1 n v) (determinant A2 n v).
Proof.
move=> Qv; apply: hsim_bind (one_rel hO) _ => o Qo.
apply: (hsim_bind (Q := fun x : (seq E * E) + E => match x with
  | inl p => V p.1 /\ Q p.2 | inr z => Q z end)); last first.
  by move=> [[u d] [/= _ Qd]|z Qz]; exact: hsim_ret.
apply: (hsim_for_ret (J := fun _ (p : seq E * E) => V p.1 /\ Q p.2)) => //.
move=> i [u d] _ [/= Qu Qd].
apply: hsim_bind (halt_find_row i Qu) _ => -[j|] _; last first.
  by apply: hsim_bind (zero_rel hC) _ => z Qz; exact: hsim_ret.
apply: (hsim_bind (Q := V)).
  by apply: hsim_if => _; [exact: halt_swap_rows|exact: hsim_ret].
move=> {Qu}u Qu; apply: hsim_bind (hsim_vget _ Qu) _ => c Qc.
apply: hsim_bind (mul_assign_rel hS Qd Qc) _ => d' Qd'.
apply: hsim_bind (finv_rel hF Qc) _ => c' Qc'.
apply: hsim_bind (halt_mul_row i Qu Qc') _ => {Qu}u Qu.
apply: (hsim_bind (Q := V)); last by move=> {Qu}u Qu; exact: hsim_ret.
apply: (hsim_for (J := fun _ => V)) Qu => k {}u _ Qu.
apply: hsim_bind (hsim_vget _ Qu) _ => e Qe.
apply: hsim_bind (is_zero_rel hC Qe) _ => b _.
apply: hsim_if => _; first exact: hsim_ret.
by apply: hsim_bind (neg_rel hG Qe) _ => f Qf; exact: halt_add_rows.
Qed.
Lemma halt_matrix_domain : domain_rel r V (matrix_domain A1 n) (matrix_domain A2 n).
Proof.
split.
  move=> v Qv; apply: hsim_if => _; first exact: hsim_ret.
  exact: hsim_allM (contains_rel hD) Qv.
move=> v u Qv Qu; apply: hsim_bind (hsim_assert _) _ => _ _.
exact: hsim_all2M (equals_rel hD) Qv Qu.
Qed.
Lemma halt_matrix_semigroup : semigroup_rel r V (matrix_semigroup A1 n) (matrix_semigroup A2 n).
Proof.
have hm : rel2 r V (matrix_mul A1 n) (matrix_mul A2 n).
  move=> v u Qv Qu; apply: hsim_bind (hsim_assert _) _ => _ _.
  apply: hsim_bind (halt_transpose Qu) _ => {Qu}u Qu.
  apply: (hsim_for (J := fun _ => V)) => // i acc _ Qacc.
  apply: (hsim_for (J := fun _ => V)) Qacc => j acc' _ Qacc.
  apply: hsim_bind (zero_rel hC) _ => z Qz.
  apply: (hsim_bind (Q := Q)).
    apply: (hsim_for (J := fun _ => Q)) Qz => k s _ Qs.
    apply: hsim_bind (hsim_vget _ Qv) _ => x Qx.
    apply: hsim_bind (hsim_vget _ Qu) _ => y Qy.
    by apply: hsim_bind (mul_rel hS Qx Qy) _ => p Qp; exact: add_assign_rel hC _ _ Qs Qp.
  by move=> s Qs; apply: hsim_ret; rewrite -cats1; apply/every_cat.
by split=> // v Qv; exact: hm.
Qed.
Lemma halt_matrix_cmonoid : cmonoid_rel r V (matrix_cmonoid A1 n) (matrix_cmonoid A2 n).
Proof.
have h := halt_vector_cmonoid (matrix_len n) hC.
split; [exact: zero_rel h|exact: is_zero_rel h|exact: add_rel h|exact: add_assign_rel h|
  exact: double_rel h|exact: ntimes_rel h].
Qed.
Lemma halt_matrix_abelian :
  abelian_rel r ok V (matrix_abelian c1 A1 n) (matrix_abelian c2 A2 n).
Proof.
have h := halt_vector_abelian (matrix_len n) (halt_abelian_alg hR).
split; [exact: neg_rel h|exact: neg_assign_rel h|exact: sub_rel h|exact: sub_assign_rel h|].
move=> k okk; apply: halt_ztimes okk; first exact: halt_matrix_domain.
  exact: halt_matrix_cmonoid.
exact: neg_rel h.
Qed.
Lemma halt_matrix_int k : ok k -> r V (matrix_int A1 n k) (matrix_int A2 n k).
Proof.
move=> okk; apply: hsim_bind (int_rel hU okk) _ => x Qx.
apply: hsim_bind (zero_rel halt_matrix_cmonoid) _ => m Qm.
by apply: (hsim_for (J := fun _ => V)) Qm => i u _ Qu; exact: hsim_vset.
Qed.
Lemma halt_matrix_one : r V (matrix_one A1 n) (matrix_one A2 n).
Proof. exact: halt_matrix_int. Qed.
Lemma halt_matrix_is_one : rel1b r V (matrix_is_one A1 n) (matrix_is_one A2 n).
Proof. exact: (hsim_is_zero (equals_rel halt_matrix_domain) halt_matrix_one). Qed.
Lemma halt_matrix_invertible : rel1b r V (matrix_invertible A1 n) (matrix_invertible A2 n).
Proof.
move=> v Qv; apply: hsim_bind (halt_determinant Qv) _ => d Qd.
by apply: hsim_notM; exact: is_zero_rel hC _ Qd.
Qed.
Lemma halt_matrix_try_inv :
  (forall v, V v -> r any (debug_assert c1 (matrix_is_one A1 n v))
     (debug_assert c2 (matrix_is_one A2 n v))) ->
  rel1o r V (matrix_try_inv c1 A1 n) (matrix_try_inv c2 A2 n).
Proof.
move=> hdbg v Qv; apply: hsim_bind halt_matrix_one _ => m Qm.
apply: (hsim_bind (Q := fun x : (seq E * seq E) + unit => match x with
  | inl p => V p.1 /\ V p.2 | inr _ => True end)); last first.
  move=> [[u w] [/= Qu Qw]|_ _]; last exact: hsim_ret.
  by apply: hsim_bind (hdbg u Qu) _ => _ _; exact: hsim_ret.
apply: (hsim_for_ret (J := fun _ (p : seq E * seq E) => V p.1 /\ V p.2)) => //.
move=> i [u w] _ [/= Qu Qw].
apply: hsim_bind (halt_find_row i Qu) _ => -[j|] _; last exact: hsim_ret.
apply: (hsim_bind (Q := fun p : seq E * seq E => V p.1 /\ V p.2)).
  apply: hsim_if => _; last exact: hsim_ret.
  apply: hsim_bind (halt_swap_rows i j Qu) _ => u' Qu'.
  by apply: hsim_bind (halt_swap_rows i j Qw) _ => w' Qw'; exact: hsim_ret.
move=> {u w Qu Qw} [u w] [/= Qu Qw].
apply: hsim_bind (hsim_vget _ Qu) _ => c Qc.
apply: hsim_bind (finv_rel hF Qc) _ => c' Qc'.
apply: hsim_bind (halt_mul_row i Qu Qc') _ => {Qu}u Qu.
apply: hsim_bind (halt_mul_row i Qw Qc') _ => {Qw}w Qw.
apply: (hsim_bind (Q := fun p : seq E * seq E => V p.1 /\ V p.2)); last first.
  by move=> p Qp; exact: hsim_ret.
apply: (hsim_for (J := fun _ (p : seq E * seq E) => V p.1 /\ V p.2)) => //.
move=> k {u w Qu Qw} [u w] _ [/= Qu Qw].
apply: hsim_if => _; first exact: hsim_ret.
apply: hsim_bind (hsim_vget _ Qu) _ => e Qe.
apply: hsim_bind (is_zero_rel hC Qe) _ => b _.
apply: hsim_if => _; first exact: hsim_ret.
apply: hsim_bind (neg_rel hG Qe) _ => f Qf.
apply: hsim_bind (halt_add_rows i k Qu Qf) _ => u' Qu'.
by apply: hsim_bind (halt_add_rows i k Qw Qf) _ => w' Qw'; exact: hsim_ret.
Qed.
Lemma halt_matrix_ring :
  (forall v, V v -> r any (debug_assert c1 (matrix_is_one A1 n v))
     (debug_assert c2 (matrix_is_one A2 n v))) ->
  ring_alg_rel r ok V (MatrixRing c1 A1 n) (MatrixRing c2 A2 n).
Proof.
move=> hdbg; split.
- split; [exact: halt_matrix_domain|exact: halt_matrix_semigroup|].
  split; [exact: halt_matrix_one|exact: halt_matrix_is_one|
    exact: halt_matrix_try_inv|exact: halt_matrix_invertible].
- exact: halt_matrix_cmonoid.
- exact: halt_matrix_abelian.
- by split=> k okk; exact: halt_matrix_int.
Qed.
End Matrix.

(** ** Permutations *)
Section Permutations.
Variables (n : nat) (Q : seq nat -> Prop).
Hypothesis QP : forall v, size v = n -> Q v.
Hypothesis Qsize : forall v u : seq nat, size v = size u -> Q u -> Q v.
Hypothesis hlen : forall v, Q v -> r any (debug_len c1 n v) (debug_len c2 n v).

Lemma hsim_size T (m : M T) (P : T -> Prop) : (forall k v, m k = Done v -> P v) ->
  r any m m -> r P m m.
Proof.
move=> h [[v [[k hk] _]]|hp]; last by right.
by left; exists v; split; [exists k|exact: h (hk k (leqnn k))].
Qed.
Lemma every_any T (s : seq T) : every any s.
Proof. by elim: s. Qed.
Lemma halt_perm_mul_loop i (v u p : seq nat) :
  r any (perm_mul_loop i v u p) (perm_mul_loop i v u p).
Proof.
elim: v i p => [|a v IH] i p /=; first exact: hsim_ret.
apply: hsim_bind (hsim_vget _ (every_any u)) _ => x _.
by apply: hsim_bind (hsim_vset _ (every_any p) (I : any x)) _ => q _; exact: IH.
Qed.
Lemma halt_perm_inv_loop i (v p : seq nat) :
  r any (perm_inv_loop i v p) (perm_inv_loop i v p).
Proof.
elim: v i p => [|a v IH] i p /=; first exact: hsim_ret.
by apply: hsim_bind (hsim_vset _ (every_any p) (I : any i)) _ => q _; exact: IH.
Qed.
Lemma halt_perm_contains v : r any (perm_contains n v) (perm_contains n v).
Proof.
rewrite /perm_contains; case: ifP => _; first exact: hsim_ret.
elim: v (nseq n false) => [|a v IH] used /=; first exact: hsim_ret.
apply: hsim_bind (hsim_vget _ (every_any used)) _ => -[] _; first exact: hsim_ret.
by apply: hsim_bind (hsim_vset _ (every_any used) (I : any true)) _ => q _; exact: IH.
Qed.
Lemma halt_perm_is_one_loop i (v : seq nat) :
  r any (perm_is_one_loop i v) (perm_is_one_loop i v).
Proof. by elim: v i => [|a v IH] i /=; [|case: ifP => _; [|exact: IH]]; exact: hsim_ret. Qed.
Lemma halt_perm_one : r any (perm_one n) (perm_one n).
Proof.
apply: (hsim_for (J := fun _ => any)) => // i v _ _.
exact: hsim_mono (hsim_vset _ (every_any v) (I : any i)) _.
Qed.
Lemma vset_size (v : seq nat) i x k u : vset v i x k = Done u -> size u = size v.
Proof.
rewrite /vset; case: ltnP => // h [<-]; rewrite size_cat /= size_drop size_take h.
by rewrite addnS -addSn subnKC.
Qed.
Lemma perm_mul_loop_size i (v u p : seq nat) k w :
  perm_mul_loop i v u p k = Done w -> size w = size p.
Proof.
elim: v i p => [|a v IH] i p /=; first by case=> ->.
rewrite /bind; case: (vget u a k) => [x||] //; case E1: (vset p i x k) => [q||] // /IH ->.
exact: vset_size E1.
Qed.
Lemma mapM_size (f : nat -> M nat) v k w : mapM f v k = Done w -> size w = size v.
Proof.
elim: v w => [|a v IH] w /=; first by case=> <-.
rewrite /bind; case: (f a k) => [x||] //; case E1: (mapM f v k) => [q||] // [<-] /=.
by rewrite (IH _ E1).
Qed.
Lemma perm_inv_loop_size i (v p : seq nat) k w : perm_inv_loop i v p k = Done w -> size w = size p.
Proof.
elim: v i p => [|a v IH] i p /=; first by case=> ->.
rewrite /bind; case E1: (vset p a i k) => [q||] // /IH ->; exact: vset_size E1.
Qed.
Lemma perm_one_size k w : perm_one n k = Done w -> size w = n.
Proof.
suff h m lo v : size v = n ->
    for_loop lo m (fun i v => vset v i i) v k = Done w -> size w = n.
  by apply: h; rewrite size_nseq.
elim: m lo v => [|m IH] lo v sv /=; first by case=> <-.
rewrite /bind; case E1: (vset v lo lo k) => [q||] //; apply: IH.
by rewrite (vset_size E1).
Qed.
Lemma halt_permutations :
  group_alg_rel r ok Q (Permutations c1 n) (Permutations c2 n).
Proof.
have hm : rel2 r Q (perm_mul c1 n) (perm_mul c2 n).
  move=> v u Qv Qu; apply: hsim_bind (hlen Qv) _ => _ _.
  apply: hsim_bind (hlen Qu) _ => _ _; apply: hsim_size (halt_perm_mul_loop _ _ _ _) => k w /perm_mul_loop_size.
  by rewrite size_nseq; exact: QP.
have hma : rel2 r Q (perm_mul_assign c1 n) (perm_mul_assign c2 n).
  move=> v u Qv Qu; apply: hsim_bind (hlen Qv) _ => _ _.
  apply: hsim_bind (hlen Qu) _ => _ _; apply: hsim_size => [k w /mapM_size e|]; first exact: Qsize e Qv.
  apply: hsim_mono (hsim_mapM (Q := any) (R := any) _ (every_any v)) _ => // a _.
  exact: hsim_vget (every_any u).
have hs : rel1 r Q (square (perm_semigroup c1 n)) (square (perm_semigroup c2 n)).
  by move=> v Qv; exact: hm.
have ho : r Q (perm_one n) (perm_one n).
  by apply: hsim_size halt_perm_one => k w /perm_one_size; exact: QP.
have ht : rel1o r Q (perm_try_inv c1 n) (perm_try_inv c2 n).
  move=> v Qv; apply: hsim_bind (hlen Qv) _ => _ _.
  apply: (hsim_bind (Q := Q)); last by move=> w Qw; exact: hsim_ret.
  by apply: hsim_size (halt_perm_inv_loop _ _ _) => k w /perm_inv_loop_size; rewrite size_nseq; exact: QP.
have hi := halt_ginv ht.
split; last by split=> // k okk; apply: halt_gpower.
split; first by split=> [v _|v u _ _]; [exact: halt_perm_contains|exact: hsim_ret].
- by split.
- split; [exact: ho| |exact: ht|by move=> v _; exact: hsim_ret].
  by move=> v Qv; apply: hsim_bind (hlen Qv) _ => _ _; exact: halt_perm_is_one_loop.
Qed.
End Permutations.
End Prof.
