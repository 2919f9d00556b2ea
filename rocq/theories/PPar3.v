(** * PPar3.v -- related structures have related vectors, polynomials and matrices. *)

From Coq Require Import ZArith.
From mathcomp Require Import all_ssreflect.
From Verif Require Import Rust Traits MInts MConstr Wp ParSpec PPar PPar2.

Set Implicit Arguments.
Unset Strict Implicit.
Unset Printing Implicit Defensive.

Section Par.
Variables (c : Cfg) (ok : Z -> Prop).
Local Notation par := (@alike _ _).

(** ** Vectors *)
Section Vector.
Variables (E1 E2 : Type) (R : E1 -> E2 -> Prop) (n : nat).
Local Notation V := (vec_par R).

Lemma par_len1 v v' : V v v' -> par eq (assert_len1 n v) (assert_len1 n v').
Proof. by move=> hv; rewrite /assert_len1 (vec_par_size hv); exact: par_assert. Qed.
Lemma par_len2 v u v' u' : V v v' -> V u u' -> par eq (assert_len2 n v u) (assert_len2 n v' u').
Proof.
by move=> hv hu; rewrite /assert_len2 (vec_par_size hv) (vec_par_size hu); exact: par_assert.
Qed.
Lemma par_vec1 f1 f2 : par1 R f1 f2 ->
  par1 V (fun v => do! assert_len1 n v in mapM f1 v) (fun v => do! assert_len1 n v in mapM f2 v).
Proof.
by move=> h v v' hv; apply: par_bind (par_len1 hv) _ => _ _ _; exact: par_mapM h hv.
Qed.
Lemma par_vec2 f1 f2 : par2 R f1 f2 ->
  par2 V (fun v u => do! assert_len2 n v u in map2M f1 v u)
    (fun v u => do! assert_len2 n v u in map2M f2 v u).
Proof.
move=> h v u v' u' hv hu; apply: par_bind (par_len2 hv hu) _ => _ _ _.
exact: par_map2M h hv hu.
Qed.
Lemma par_vec1b f1 f2 : par1b R f1 f2 ->
  par1b V (fun v => do! assert_len1 n v in allM f1 v) (fun v => do! assert_len1 n v in allM f2 v).
Proof.
by move=> h v v' hv; apply: par_bind (par_len1 hv) _ => _ _ _; exact: par_allM h hv.
Qed.
Lemma par_vec2b f1 f2 : par2b R f1 f2 ->
  par2b V (fun v u => do! assert_len2 n v u in all2M f1 v u)
    (fun v u => do! assert_len2 n v u in all2M f2 v u).
Proof.
move=> h v u v' u' hv hu; apply: par_bind (par_len2 hv hu) _ => _ _ _.
exact: par_all2M h hv hu.
Qed.
Lemma par_diag (m1 : M E1) (m2 : M E2) : par R m1 m2 ->
  par V (let! x := m1 in ret (vector_diagonal n x)) (let! x := m2 in ret (vector_diagonal n x)).
Proof. by move=> h; apply: par_bind h _ => x x' hx; apply: par_ret; exact: vec_par_nseq. Qed.

Lemma par_vector_domain (A1 : Domain E1) (A2 : Domain E2) : domain_par R A1 A2 ->
  domain_par V (vector_domain n A1) (vector_domain n A2).
Proof.
move=> h; split; last exact: par_vec2b (equals_par h).
move=> v v' hv; rewrite /= (vec_par_size hv).
apply: par_if => _; first exact: par_ret.
exact: par_allM (contains_par h) hv.
Qed.
Lemma par_vector_semigroup (A1 : Semigroup E1) (A2 : Semigroup E2) : semigroup_par R A1 A2 ->
  semigroup_par V (vector_semigroup n A1) (vector_semigroup n A2).
Proof.
move=> h; split; [exact: par_vec2 (mul_par h)|exact: par_vec2 (mul_assign_par h)|].
exact: par_vec1 (square_par h).
Qed.
Lemma par_vector_try_inv_loop (A1 : Monoid E1) (A2 : Monoid E2) xs v xs' v' :
  monoid_par R A1 A2 -> V xs xs' -> V v v' ->
  par (option_par V) (vector_try_inv_loop A1 xs v) (vector_try_inv_loop A2 xs' v').
Proof.
move=> h; elim: xs xs' v v' => [|x xs IH] [|x' xs'] v v' //=; first by move=> _ hv; exact: par_ret.
move=> [hx hxs] hv; apply: par_bind (try_inv_par h hx) _ => -[y|] [y'|] //= hy; last exact: par_ret.
by apply: IH => //; exact: vec_par_rcons.
Qed.
Lemma par_vector_monoid (A1 : Monoid E1) (A2 : Monoid E2) : monoid_par R A1 A2 ->
  monoid_par V (vector_monoid n A1) (vector_monoid n A2).
Proof.
move=> h; split; [exact: par_diag (one_par h)|exact: par_vec1b (is_one_par h)| |].
  move=> v v' hv; apply: par_bind (par_len1 hv) _ => _ _ _.
  exact: par_vector_try_inv_loop.
exact: par_vec1b (invertible_par h).
Qed.
Lemma par_vector_monoid_alg (A1 : MonoidAlg E1) (A2 : MonoidAlg E2) : monoid_alg_par R A1 A2 ->
  monoid_alg_par V (vector_monoid_alg n A1) (vector_monoid_alg n A2).
Proof.
case=> hD hS hO; split; [exact: par_vector_domain|exact: par_vector_semigroup|].
exact: par_vector_monoid.
Qed.
Lemma par_vector_group (A1 : GroupAlg E1) (A2 : GroupAlg E2) : group_alg_par ok R A1 A2 ->
  group_alg_par ok V (vector_group c n A1) (vector_group c n A2).
Proof.
move=> hA; have [[hD hS hO] hG] := hA.
split; first exact: par_vector_monoid_alg.
have hi := par_vec1 (ginv_par hG).
split=> // m _; apply: par_gpower => //.
- exact: one_par (par_vector_monoid hO).
- exact: mul_assign_par (par_vector_semigroup hS).
- exact: square_par (par_vector_semigroup hS).
Qed.
Lemma par_vector_cmonoid (A1 : CommMonoid E1) (A2 : CommMonoid E2) : cmonoid_par R A1 A2 ->
  cmonoid_par V (vector_cmonoid n A1) (vector_cmonoid n A2).
Proof.
move=> h; have hz := par_diag (zero_par h).
have ha := par_vec2 (add_assign_par h); have hd := par_vec1 (double_par h).
split=> //; [exact: par_vec1b (is_zero_par h)|exact: par_vec2 (add_par h)|].
by move=> m _; exact: (par_ntimes _ hz ha hd).
Qed.
Lemma par_vector_abelian (A1 : AbelianAlg E1) (A2 : AbelianAlg E2) :
  abelian_alg_par ok R A1 A2 ->
  abelian_par ok V (vector_abelian c n A1) (vector_abelian c n A2).
Proof.
move=> [hD hC hA]; have hn := par_vec1 (neg_par hA).
split=> //; [exact: par_vec1 (neg_assign_par hA)|exact: par_vec2 (sub_par hA)|
  exact: par_vec2 (sub_assign_par hA)|].
move=> m okm; apply: par_ztimes okm => //; first exact: par_vector_domain.
exact: par_vector_cmonoid.
Qed.
Lemma par_vector_ring (A1 : RingAlg E1) (A2 : RingAlg E2) : ring_alg_par ok R A1 A2 ->
  ring_alg_par ok V (VectorRing c n A1) (VectorRing c n A2).
Proof.
move=> hA; have [hM hC _ hU] := hA; split.
- exact: par_vector_monoid_alg.
- exact: par_vector_cmonoid.
- exact: par_vector_abelian (par_abelian_alg hA).
- by split=> m okm; exact: par_diag (int_par hU okm).
Qed.
Lemma par_vector_order (A1 : OrderAlg E1) (A2 : OrderAlg E2) : order_alg_par R A1 A2 ->
  order_alg_par V (vector_order n A1) (vector_order n A2).
Proof.
move=> [hD hO]; have hl := par_vec2b (leq_par hO).
have hd := par_vector_domain hD.
split=> //; split=> //; [exact: par_less_than (equals_par hd) hl|exact: par_comparable hl].
Qed.
Lemma par_vector_lattice (A1 : LatticeAlg E1) (A2 : LatticeAlg E2) : lattice_alg_par R A1 A2 ->
  lattice_alg_par V (VectorLattice n A1) (VectorLattice n A2).
Proof.
move=> [hO hL]; split; first exact: par_vector_order.
by split; [exact: par_vec2 (meet_par hL)|exact: par_vec2 (join_par hL)].
Qed.
Lemma par_vector_boolean (A1 : BooleanAlg E1) (A2 : BooleanAlg E2) : boolean_alg_par R A1 A2 ->
  boolean_alg_par V (VectorBoolean n A1) (VectorBoolean n A2).
Proof.
move=> [hL hB hN]; split; first exact: par_vector_lattice.
  by split; [exact: par_diag (omax_par hB)|exact: par_diag (omin_par hB)].
by split; exact: par_vec1 (bnot_par hN).
Qed.
End Vector.

(** ** Polynomials *)
Section PolyAbelian.
Variables (E1 E2 : Type) (R : E1 -> E2 -> Prop) (A1 : AbelianAlg E1) (A2 : AbelianAlg E2).
Local Notation V := (vec_par R).
Hypothesis hA : abelian_alg_par ok R A1 A2.
Let hD : domain_par R A1 A2 := hA.
Let hC : cmonoid_par R A1 A2 := hA.
Let hG : abelian_par ok R A1 A2 := hA.

Lemma par_poly_domain : domain_par V (poly_domain A1) (poly_domain A2).
Proof.
split.
  move=> v v' hv; rewrite /= /poly_contains (vec_par_size hv).
  apply: par_if => _; first exact: par_ret.
  apply: par_bind (par_allM (contains_par hD) hv) _ => b _ <-.
  apply: par_if => _; first exact: par_ret.
  apply: par_bind (par_vget _ hv) _ => x x' hx.
  by apply: par_notM; exact: is_zero_par hC _ _ hx.
move=> v u v' u' hv hu; rewrite /= /poly_equals (vec_par_size hv) (vec_par_size hu).
apply: par_if => _; first exact: par_ret.
exact: par_all2M (equals_par hD) hv hu.
Qed.
Lemma par_poly_mul (S1 : Semigroup E1) (S2 : Semigroup E2) : semigroup_par R S1 S2 ->
  par2 V (poly_mul A1 S1) (poly_mul A2 S2).
Proof.
move=> hS v u v' u' hv hu; rewrite /poly_mul (vec_par_size hv) (vec_par_size hu).
apply: par_if => _; first exact: par_ret.
apply: par_bind (zero_par hC) _ => z z' zz.
apply: (par_for (J := V)) => [i a a' ha|]; last exact: vec_par_vresize.
apply: (par_for (J := V)) ha => j {}a {}a' ha.
apply: par_bind (par_vget _ hv) _ => x x' hx.
apply: par_bind (par_vget _ hu) _ => y y' hy.
apply: par_bind (mul_par hS hx hy) _ => p p' hp.
apply: par_bind (par_vget _ ha) _ => q q' hq.
by apply: par_bind (add_par hC hq hp) _ => d d' hd; exact: par_vset.
Qed.
Lemma par_poly_semigroup (S1 : Semigroup E1) (S2 : Semigroup E2) : semigroup_par R S1 S2 ->
  semigroup_par V (poly_semigroup A1 S1) (poly_semigroup A2 S2).
Proof.
move=> hS; have hm := par_poly_mul hS; split=> //.
by move=> v v' hv; exact: hm.
Qed.
Lemma par_poly_one (O1 : Monoid E1) (O2 : Monoid E2) : monoid_par R O1 O2 ->
  par V (poly_one A1 O1) (poly_one A2 O2).
Proof.
move=> hO; apply: par_bind (one_par hO) _ => o o' oo.
apply: par_bind (is_zero_par hC oo) _ => b _ <-.
apply: par_bind (par_assert _) _ => _ _ _.
by apply: par_bind (one_par hO) _ => p p' hp; exact: par_ret.
Qed.
Lemma par_poly_monoid (O1 : Monoid E1) (O2 : Monoid E2) : monoid_par R O1 O2 ->
  monoid_par V (poly_monoid A1 O1) (poly_monoid A2 O2).
Proof.
move=> hO; have ht : par1o V (poly_try_inv O1) (poly_try_inv O2).
  move=> v v' hv; rewrite /poly_try_inv (vec_par_size hv).
  apply: par_if => _; last exact: par_ret.
  apply: par_bind (par_vget _ hv) _ => x x' hx.
  by apply: par_bind (try_inv_par hO hx) _ => -[y|] [y'|] //= hy; exact: par_ret.
split; [exact: par_poly_one| |exact: ht|exact: (par_invertible ht)].
move=> v v' hv; rewrite /= /poly_is_one (vec_par_size hv).
apply: par_if => _; last exact: par_ret.
by apply: par_bind (par_vget _ hv) _ => x x' hx; exact: is_one_par hO _ _ hx.
Qed.
Lemma par_poly_add : par2 V (poly_add A1) (poly_add A2).
Proof.
move=> v u v' u' hv hu; rewrite /poly_add (vec_par_size hv) (vec_par_size hu).
apply: par_if => _.
  have h v0 u0 v1 u1 : V v0 v1 -> V u0 u1 -> par V
    (for_loop 0 (size u0) (fun i acc => let! x := vget acc i in let! y := vget u0 i in
       let! a := add A1 x y in vset acc i a) v0)
    (for_loop 0 (size u1) (fun i acc => let! x := vget acc i in let! y := vget u1 i in
       let! a := add A2 x y in vset acc i a) v1).
    move=> h0 h1; rewrite (vec_par_size h1); apply: (par_for (J := V)) h0 => i a a' ha.
    apply: par_bind (par_vget _ ha) _ => x x' hx.
    apply: par_bind (par_vget _ h1) _ => y y' hy.
    by apply: par_bind (add_par hC hx hy) _ => z z' hz; exact: par_vset.
  by case: ifP => _; exact: h.
apply: (par_for (J := V)) => // i a a' ha.
apply: par_bind (par_vget _ hv) _ => x x' hx.
apply: par_bind (par_vget _ hu) _ => y y' hy.
apply: par_bind (add_par hC hx hy) _ => s s' hs.
apply: par_bind (is_zero_par hC hs) _ => b _ <-.
apply: par_if => _; last exact: par_ret.
apply: par_bind (zero_par hC) _ => z z' hz.
by apply: par_vset => //; exact: vec_par_vresize.
Qed.
Lemma par_poly_is_zero : par1b V (is_zero (poly_cmonoid A1)) (is_zero (poly_cmonoid A2)).
Proof. by move=> v v' /vec_par_size e; rewrite /= e; exact: par_ret. Qed.
Lemma par_poly_cmonoid : cmonoid_par V (poly_cmonoid A1) (poly_cmonoid A2).
Proof.
have ha := par_poly_add; have hd := par_double ha.
have hz : par V (ret [::]) (ret [::]) by exact: par_ret.
split; [exact: hz|exact: par_poly_is_zero|exact: ha|exact: ha|exact: hd|].
by move=> m _; exact: (par_ntimes _ hz ha hd).
Qed.
Lemma par_poly_ztimes m : ok m -> par1 V (poly_ztimes A1 m) (poly_ztimes A2 m).
Proof.
move=> okm v v' hv; apply: par_bind (par_mapM (ztimes_par hG okm) hv) _ => e e' he.
apply: (par_bind (R := either_par (fun _ _ : unit => True) V)).
  rewrite (vec_par_size he); apply: par_rev_ret => // i _ _ _.
  apply: par_bind (par_vget _ he) _ => x x' hx.
  apply: par_bind (is_zero_par hC hx) _ => b _ <-.
  apply: par_if => _; last exact: par_ret.
  apply: par_bind (zero_par hC) _ => z z' hz.
  by apply: par_ret; exact: vec_par_vresize.
by move=> [x|x] [y|y] //= h; exact: par_ret.
Qed.
Lemma par_poly_abelian : abelian_par ok V (poly_abelian A1) (poly_abelian A2).
Proof.
have hn : par1 V (poly_neg A1) (poly_neg A2).
  by move=> v v' hv; exact: par_mapM (neg_par hG) hv.
have ha := par_poly_add.
split=> //; [exact: (par_sub hn ha)|exact: (par_sub_assign hn ha)|].
exact: par_poly_ztimes.
Qed.
End PolyAbelian.

Section PolyRing.
Variables (E1 E2 : Type) (R : E1 -> E2 -> Prop).
Local Notation V := (vec_par R).

Lemma par_poly_ring (A1 : RingAlg E1) (A2 : RingAlg E2) : ring_alg_par ok R A1 A2 ->
  ring_alg_par ok V (PolyRing A1) (PolyRing A2).
Proof.
move=> hA; have hB := par_abelian_alg hA; have [[hD hS hO] hC hG hU] := hA.
split.
- split; [exact: par_poly_domain hB|exact: (par_poly_semigroup hB hS)|].
  exact: (par_poly_monoid hB hO).
- exact: par_poly_cmonoid hB.
- exact: par_poly_abelian hB.
- split=> m okm; apply: par_int; last exact: (par_poly_one hB hO).
  exact: (par_poly_ztimes hB okm).
Qed.

Lemma par_poly_idom (A1 : IDomAlg E1) (A2 : IDomAlg E2) : idom_alg_par ok R A1 A2 ->
  idom_alg_par ok V (PolyIDom A1) (PolyIDom A2).
Proof.
move=> hA; have [hR hI] := hA; have [[hD hS hO] hC hG hU] := hR.
have ht : par2o V (poly_try_div A1) (poly_try_div A2).
  move=> v u v' u' hv hu; rewrite /poly_try_div (vec_par_size hv) (vec_par_size hu).
  apply: par_bind (par_assert _) _ => _ _ _.
  apply: par_if => _; first by apply: par_if => _; exact: par_ret.
  apply: par_bind (zero_par hC) _ => z z' zz.
  apply: par_bind (par_vget _ hu) _ => a a' ha.
  apply: par_bind (is_zero_par hC ha) _ => b _ <-.
  apply: par_bind (par_assert _) _ => _ _ _.
  set quo1 := vresize _ _ z; set quo2 := vresize _ _ z'.
  have hq : V quo1 quo2 by exact: vec_par_vresize.
  rewrite (vec_par_size hq).
  pose J (p : seq E1 * seq E1) (q : seq E2 * seq E2) := V p.1 q.1 /\ V p.2 q.2.
  apply: (par_bind (R := either_par J (option_par V))).
    apply: par_rev_ret => // i [qu re] [qu' re'] [/= hqu hre].
    apply: par_bind (par_vget _ hre) _ => x x' hx.
    apply: par_bind (try_div_par hI hx ha) _ => -[q|] [q'|] //= hqq; last exact: par_ret.
    apply: par_bind (par_vset _ hqu hqq) _ => qu1 qu1' hqu1.
    apply: par_bind (neg_par hG hqq) _ => d d' hd.
    apply: (par_bind (R := V)); last by move=> re1 re1' hre1; exact: par_ret.
    apply: (par_for (J := V)) hre => j {}re {}re' hre.
    apply: par_bind (par_vget _ hu) _ => y y' hy.
    apply: par_bind (mul_par hS hy hd) _ => e e' he.
    apply: par_bind (par_vget _ hre) _ => f f' hf.
    by apply: par_bind (add_assign_par hC hf he) _ => g g' hg; exact: par_vset.
  move=> [[qu re]|o] [[qu' re']|o'] //=; last by move=> h; exact: par_ret.
  move=> [/= hqu hre].
  apply: par_bind (par_allM (is_zero_par hC) (vec_par_take _ hre)) _ => d _ <-.
  by case: d; exact: par_ret.
have hz : par1b V (is_zero (poly_cmonoid A1)) (is_zero (poly_cmonoid A2)).
  exact: par_poly_is_zero.
have hd := par_divisible hz ht.
split; first exact: par_poly_ring hR.
split; [exact: ht|exact: hd|exact: (par_associates hd)| |].
  move=> v v' hv; rewrite /= /poly_associate_repr (vec_par_size hv).
  apply: par_if => _; first exact: par_ret.
  apply: par_bind (par_vget _ hv) _ => x x' hx.
  apply: par_bind (associate_coef_par hI hx) _ => a a' ha.
  by apply: par_mapM hv => y y' hy; exact: mul_par hS _ _ _ _ hy ha.
move=> v v' hv; rewrite /= /poly_associate_coef (vec_par_size hv).
apply: par_bind (par_assert _) _ => _ _ _.
apply: par_bind (par_vget _ hv) _ => x x' hx.
by apply: par_bind (associate_coef_par hI hx) _ => a a' ha; exact: par_ret.
Qed.

Lemma par_poly_eucl (A1 : FieldAlg E1) (A2 : FieldAlg E2) : field_alg_par ok R A1 A2 ->
  eucl_alg_par ok V (PolyEucl A1) (PolyEucl A2).
Proof.
move=> hA; have hR : ring_alg_par ok R A1 A2 := hA.
have [[hD hS hO] hC hG hU] := hR; have hF : field_par ok R A1 A2 := hA.
have hq : par2p V (poly_quo_rem A1) (poly_quo_rem A2).
  move=> v u v' u' hv hu; rewrite /poly_quo_rem (vec_par_size hv) (vec_par_size hu).
  apply: par_bind (par_assert _) _ => _ _ _.
  apply: par_if => _; first exact: par_ret.
  apply: par_bind (zero_par hC) _ => z z' zz.
  apply: par_bind (par_vget _ hu) _ => a a' ha.
  apply: par_bind (is_zero_par hC ha) _ => b _ <-.
  apply: par_bind (par_assert _) _ => _ _ _.
  set quo1 := vresize _ _ z; set quo2 := vresize _ _ z'.
  have hq : V quo1 quo2 by exact: vec_par_vresize.
  rewrite (vec_par_size hq).
  pose J (p : seq E1 * seq E1) (q : seq E2 * seq E2) := V p.1 q.1 /\ V p.2 q.2.
  apply: (par_bind (R := J)).
    apply: par_rev => // i [qu re] [qu' re'] [/= hqu hre].
    apply: par_bind (par_vget _ hre) _ => x x' hx.
    apply: par_bind (fdiv_par hF hx ha) _ => q q' hqq.
    apply: par_bind (par_vset _ hqu hqq) _ => qu1 qu1' hqu1.
    apply: par_bind (neg_par hG hqq) _ => d d' hd.
    apply: (par_bind (R := V)); last by move=> re1 re1' hre1; exact: par_ret.
    apply: (par_for (J := V)) hre => j {}re {}re' hre.
    apply: par_bind (par_vget _ hu) _ => y y' hy.
    apply: par_bind (mul_par hS hy hd) _ => e e' he.
    apply: par_bind (par_vget _ hre) _ => f f' hf.
    by apply: par_bind (add_par hC hf he) _ => g g' hg; exact: par_vset.
  move=> [qu re] [qu' re'] [/= hqu hre].
  apply: (par_bind (R := eq)).
    apply: (par_while (I := eq)) => // [i _ <-|i _ <-]; last exact: par_ret.
    apply: par_if => _; last exact: par_ret.
    by apply: par_bind (par_vget _ hre) _ => x x' hx; exact: is_zero_par hC _ _ hx.
  by move=> i _ <-; apply: par_ret; split=> //; exact: vec_par_take.
have hz : par1b V (is_zero (poly_cmonoid A1)) (is_zero (poly_cmonoid A2)).
  exact: par_poly_is_zero.
have hQ := par_quo hq; have hr := par_rem hq; have hg := par_gcd hz hr.
have hP : ring_alg_par ok V (PolyRing A1) (PolyRing A2) by exact: par_poly_ring.
split; first exact: par_poly_idom hA.
split; [exact: hq|exact: hQ|exact: hr|exact: (par_reduced hz hQ)|exact: hg| | |].
- exact: (par_lcm hz (mul_par hP) hQ hg).
- exact: (par_extended_gcd hz (one_par (ri_monoid_alg_par hP))
    (zero_par hP) (mul_par hP) (sub_par hP) hq).
- exact: (par_relative_primes (invertible_par (ri_monoid_alg_par hP)) hg).
Qed.
End PolyRing.

(** ** Matrices *)
Section Matrix.
Variables (E1 E2 : Type) (R : E1 -> E2 -> Prop) (A1 : FieldAlg E1) (A2 : FieldAlg E2) (n : nat).
Local Notation V := (vec_par R).
Hypothesis hA : field_alg_par ok R A1 A2.
Hypothesis ok1 : ok (Zpos xH).
Let hR : ring_alg_par ok R A1 A2 := hA.
Let hD : domain_par R A1 A2 := mo_domain_par hR.
Let hS : semigroup_par R A1 A2 := hR.
Let hO : monoid_par R A1 A2 := ri_monoid_alg_par hR.
Let hC : cmonoid_par R A1 A2 := hR.
Let hG : abelian_par ok R A1 A2 := hR.
Let hU : unitary_par ok R A1 A2 := hR.
Let hF : field_par ok R A1 A2 := hA.

Lemma par_transpose v v' : V v v' -> par V (matrix_transpose n v) (matrix_transpose n v').
Proof.
move=> hv; rewrite /matrix_transpose (vec_par_size hv).
apply: par_bind (par_assert _) _ => _ _ _.
apply: (par_for (J := V)) => // i a a' ha.
apply: (par_for (J := V)) ha => j {}a {}a' ha.
apply: par_bind (par_vget _ hv) _ => x x' hx; apply: par_ret.
exact: vec_par_rcons.
Qed.
Lemma par_mul_row v v' i x x' : V v v' -> R x x' ->
  par V (mul_row A1 n v i x) (mul_row A2 n v' i x').
Proof.
move=> hv hx; rewrite /mul_row (vec_par_size hv); apply: par_bind (par_assert _) _ => _ _ _.
apply: (par_bind (R := V)) => [|s s' hs].
  apply: (par_mapM (R := R)) => [y y' hy|]; first exact: mul_assign_par hS _ _ _ _ hy hx.
  by apply: vec_par_take; exact: vec_par_drop.
apply: par_ret; apply: vec_par_cat; first exact: vec_par_take.
by apply: vec_par_cat => //; exact: vec_par_drop.
Qed.
Lemma par_add_rows v v' i j x x' : V v v' -> R x x' ->
  par V (add_rows A1 n v i j x) (add_rows A2 n v' i j x').
Proof.
move=> hv hx; apply: (par_for (J := V)) hv => m u u' hu.
apply: par_bind (par_vget _ hu) _ => a a' ha.
apply: par_bind (mul_par hS ha hx) _ => y y' hy.
apply: par_bind (par_vget _ hu) _ => z z' hz.
by apply: par_bind (add_assign_par hC hz hy) _ => w w' hw; exact: par_vset.
Qed.
Lemma par_swap_rows v v' i j : V v v' -> par V (swap_rows n v i j) (swap_rows n v' i j).
Proof.
by move=> hv; apply: (par_for (J := V)) hv => m u u' hu; exact: par_vswap.
Qed.
Lemma par_find_row v v' j : V v v' -> par eq (find_row A1 n v j) (find_row A2 n v' j).
Proof.
move=> hv; apply: par_findM => i; apply: par_bind (par_vget _ hv) _ => x x' hx.
by apply: par_notM; exact: is_zero_par hC _ _ hx.
Qed.
Lemma par_determinant v v' : V v v' -> par R (determinant A1 n v) (determinant A2 n v').
Proof.
move=> hv; apply: par_bind (one_par hO) _ => o o' oo.
pose J (p : seq E1 * E1) (q : seq E2 * E2) := V p.1 q.1 /\ R p.2 q.2.
apply: (par_bind (R := either_par J R)); last first.
  by move=> [[u d]|z] [[u' d']|z'] //= h; apply: par_ret => //; case: h.
apply: par_for_ret => // i [u d] [u' d'] [/= hu hd].
apply: par_bind (par_find_row i hu) _ => p _ <-; case: p => [j|]; last first.
  by apply: par_bind (zero_par hC) _ => z z' hz; exact: par_ret.
apply: (par_bind (R := V)).
  by apply: par_if => _; [exact: par_swap_rows|exact: par_ret].
move=> {hu}u {}u' hu; apply: par_bind (par_vget _ hu) _ => x x' hx.
apply: par_bind (mul_assign_par hS hd hx) _ => e e' he.
apply: par_bind (finv_par hF hx) _ => y y' hy.
apply: par_bind (par_mul_row i hu hy) _ => {hu}u {}u' hu.
apply: (par_bind (R := V)); last by move=> {hu}u {}u' hu; exact: par_ret.
apply: (par_for (J := V)) hu => m {}u {}u' hu.
apply: par_bind (par_vget _ hu) _ => f f' hf.
apply: par_bind (is_zero_par hC hf) _ => b _ <-.
apply: par_if => _; first exact: par_ret.
by apply: par_bind (neg_par hG hf) _ => g g' hg; exact: par_add_rows.
Qed.
Lemma par_matrix_domain : domain_par V (matrix_domain A1 n) (matrix_domain A2 n).
Proof.
split.
  move=> v v' hv; rewrite /= (vec_par_size hv).
  apply: par_if => _; first exact: par_ret.
  exact: par_allM (contains_par hD) hv.
move=> v u v' u' hv hu; rewrite /= (vec_par_size hv) (vec_par_size hu).
apply: par_bind (par_assert _) _ => _ _ _.
exact: par_all2M (equals_par hD) hv hu.
Qed.
Lemma par_matrix_semigroup : semigroup_par V (matrix_semigroup A1 n) (matrix_semigroup A2 n).
Proof.
have hm : par2 V (matrix_mul A1 n) (matrix_mul A2 n).
  move=> v u v' u' hv hu; rewrite /matrix_mul (vec_par_size hv) (vec_par_size hu).
  apply: par_bind (par_assert _) _ => _ _ _.
  apply: par_bind (par_transpose hu) _ => {hu}u {}u' hu.
  apply: (par_for (J := V)) => // i a a' ha.
  apply: (par_for (J := V)) ha => j {}a {}a' ha.
  apply: par_bind (zero_par hC) _ => z z' hz.
  apply: (par_bind (R := R)).
    apply: (par_for (J := R)) hz => m s s' hs.
    apply: par_bind (par_vget _ hv) _ => x x' hx.
    apply: par_bind (par_vget _ hu) _ => y y' hy.
    by apply: par_bind (mul_par hS hx hy) _ => p p' hp; exact: add_assign_par hC _ _ _ _ hs hp.
  by move=> s s' hs; apply: par_ret; exact: vec_par_rcons.
by split=> // v v' hv; exact: hm.
Qed.
Lemma par_matrix_cmonoid : cmonoid_par V (matrix_cmonoid A1 n) (matrix_cmonoid A2 n).
Proof.
have h := par_vector_cmonoid (matrix_len n) hC.
split; [exact: zero_par h|exact: is_zero_par h|exact: add_par h|exact: add_assign_par h|
  exact: double_par h|exact: ntimes_par h].
Qed.
Lemma par_matrix_abelian :
  abelian_par ok V (matrix_abelian c A1 n) (matrix_abelian c A2 n).
Proof.
have h := par_vector_abelian (matrix_len n) (par_abelian_alg hR).
split; [exact: neg_par h|exact: neg_assign_par h|exact: sub_par h|exact: sub_assign_par h|].
move=> m okm; apply: par_ztimes okm; first exact: par_matrix_domain.
  exact: par_matrix_cmonoid.
exact: neg_par h.
Qed.
Lemma par_matrix_int m : ok m -> par V (matrix_int A1 n m) (matrix_int A2 n m).
Proof.
move=> okm; apply: par_bind (int_par hU okm) _ => x x' hx.
apply: par_bind (zero_par par_matrix_cmonoid) _ => u u' hu.
by apply: (par_for (J := V)) hu => i {}u {}u' hu; exact: par_vset.
Qed.
Lemma par_matrix_one : par V (matrix_one A1 n) (matrix_one A2 n).
Proof. exact: par_matrix_int. Qed.
Lemma par_matrix_is_one : par1b V (matrix_is_one A1 n) (matrix_is_one A2 n).
Proof. exact: (par_is_zero (equals_par par_matrix_domain) par_matrix_one). Qed.
Lemma par_matrix_invertible : par1b V (matrix_invertible A1 n) (matrix_invertible A2 n).
Proof.
move=> v v' hv; apply: par_bind (par_determinant hv) _ => d d' hd.
by apply: par_notM; exact: is_zero_par hC _ _ hd.
Qed.
Lemma par_matrix_try_inv : par1o V (matrix_try_inv c A1 n) (matrix_try_inv c A2 n).
Proof.
move=> v v' hv; apply: par_bind par_matrix_one _ => m m' hm.
pose J (p : seq E1 * seq E1) (q : seq E2 * seq E2) := V p.1 q.1 /\ V p.2 q.2.
apply: (par_bind (R := either_par J (fun _ _ : unit => True))); last first.
  move=> [[u w]|z] [[u' w']|z'] //=; last by move=> _; exact: par_ret.
  move=> [/= hu hw]; apply: par_bind (par_debug_assert c (par_matrix_is_one hu)) _ => _ _ _.
  exact: par_ret.
apply: par_for_ret => // i [u w] [u' w'] [/= hu hw].
apply: par_bind (par_find_row i hu) _ => p _ <-; case: p => [j|]; last exact: par_ret.
apply: (par_bind (R := J)).
  apply: par_if => _; last exact: par_ret.
  apply: par_bind (par_swap_rows i j hu) _ => x x' hx.
  by apply: par_bind (par_swap_rows i j hw) _ => y y' hy; exact: par_ret.
move=> {u w u' w' hu hw} [u w] [u' w'] [/= hu hw].
apply: par_bind (par_vget _ hu) _ => x x' hx.
apply: par_bind (finv_par hF hx) _ => y y' hy.
apply: par_bind (par_mul_row i hu hy) _ => {hu}u {}u' hu.
apply: par_bind (par_mul_row i hw hy) _ => {hw}w {}w' hw.
apply: (par_bind (R := J)); last by move=> p p' hp; exact: par_ret.
apply: (par_for (J := J)) => // l {u w u' w' hu hw} [u w] [u' w'] [/= hu hw].
apply: par_if => _; first exact: par_ret.
apply: par_bind (par_vget _ hu) _ => e e' he.
apply: par_bind (is_zero_par hC he) _ => b _ <-.
apply: par_if => _; first exact: par_ret.
apply: par_bind (neg_par hG he) _ => f f' hf.
apply: par_bind (par_add_rows i l hu hf) _ => a a' ha.
by apply: par_bind (par_add_rows i l hw hf) _ => d d' hd; exact: par_ret.
Qed.
Lemma par_matrix_ring :
  ring_alg_par ok V (MatrixRing c A1 n) (MatrixRing c A2 n).
Proof.
split.
- split; [exact: par_matrix_domain|exact: par_matrix_semigroup|].
  split; [exact: par_matrix_one|exact: par_matrix_is_one|
    exact: par_matrix_try_inv|exact: par_matrix_invertible].
- exact: par_matrix_cmonoid.
- exact: par_matrix_abelian.
- by split=> m okm; exact: par_matrix_int.
Qed.
End Matrix.
End Par.
