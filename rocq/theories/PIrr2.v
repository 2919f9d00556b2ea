(** * PIrr2.v -- what the outcome of the irreducibility test means for QuotientField,
    and a test for primitive elements. *)

From Coq Require Import ZArith Lia List.
From mathcomp Require Import all_ssreflect all_fingroup all_solvable all_algebra all_field ssrZ zify.
From Verif Require Import Rust Traits MInts MConstr Wp Spec PropSpec RingSpec PDefaults Quotient NumSpec ArgSpec PArgs.
From Verif Require Import RingTac PPoly PQuot PLaws Laws TowerSpec PTower PCount3 FFSpec PFF IrrSpec PIrr.

Set Implicit Arguments.
Unset Strict Implicit.
Unset Printing Implicit Defensive.

Import GRing.Theory.
Local Open Scope ring_scope.

Lemma inverse_bezout (R : comRingType) (a b c m : R) : 1 - a * b = c * m -> c * m + b * a = 1.
Proof. by move=> <-; cring. Qed.
Lemma bezout_inverse (R : comRingType) (a x y m : R) : x * m + y * a = 1 -> 1 - a * y = x * m.
Proof. by move=> <-; cring. Qed.

Section Residue.
Variables (cfg : Cfg) (E : Type) (F : fieldType) (rep : E -> F -> Prop) (A : FieldAlg E) (k : nat).
Hypothesis hA : finite_field cfg rep A k.
Local Notation R := (poly_idomainType F).
Local Notation S := (poly_estruct F).
Variables (v : seq E) (P : R).
Hypotheses (vP : poly_of rep v P) (s1 : (1 < size v)%N).
Local Notation Q := (QuotientField cfg (PolyEucl A) v).
Let hk : enumerated rep k := let: conj _ h := finite_field_ok hA in h.
Let hE := PolyEucl_ok (finite_field_contract hA).
Let sP : size v = size (P : {poly F}).
Proof. exact: reps_size vP. Qed.
Let P0 : P != 0.
Proof. by rewrite -size_poly_eq0 -sP; case: size s1. Qed.
Let Pu : P \isn't a GRing.unit.
Proof. by rewrite unit_size -sP; case: eqP s1 => // ->. Qed.

Lemma coprime_coprimep (a b : {poly F}) : coprime_to (a : R) b <-> coprimep a b.
Proof.
split=> [[s [t h]]|/Bezout_eq1_coprimepP[[s t] /= h]]; last by exists s, t.
by apply/Bezout_eq1_coprimepP; exists (s, t).
Qed.

(** A modulus that is not irreducible has a residue that is not invertible. *)
Lemma bad_residue : ~ irreducible_elt P ->
  exists a : {poly F}, [/\ a != 0, (size a < size v)%N & ~ has_inverse P (a : R)].
Proof.
move=> nP; have [_ _ [s [us ss hs]]] := hk.
pose L := [seq Poly t | t <- seqs s (size v).-1].
have mL (a : {poly F}) : (size a < size v)%N -> a \in L.
  move=> ha; apply/mapP; exists (mkseq (fun i => a`_i) (size v).-1).
    by rewrite mem_seqs // size_mkseq.
  apply/polyP => i; rewrite coef_Poly; have [di|di] := ltnP i (size v).-1; first by rewrite nth_mkseq.
  rewrite [RHS]nth_default ?size_mkseq // nth_default //; apply: leq_trans di.
  by rewrite -ltnS prednK // (ltnW s1).
have [/hasP[a aL /andP[a0 /negP na]]|none] := boolP (has (fun a => (a != 0) && ~~ coprimep P a) L).
  exists a; split=> //.
    move: aL => /mapP[t]; rewrite mem_seqs // => /eqP st ->.
    by apply: leq_ltn_trans (size_Poly t) _; rewrite st prednK ?(ltnW s1).
  move=> [b [c h]]; apply: na; apply/coprime_coprimep.
  exists c, b.
  exact: (@inverse_bezout R _ _ _ _ h).
case: nP; split=> // a b PE; rewrite !unit_size.
have [a0 b0] : a != 0 /\ b != 0 by move: P0; rewrite PE mulf_eq0 negb_or => /andP.
have a2 : (0 < size (a : {poly F}))%N by rewrite lt0n size_poly_eq0.
have b2 : (0 < size (b : {poly F}))%N by rewrite lt0n size_poly_eq0.
have sE : (size (P : {poly F})).+1 = (size (a : {poly F}) + size (b : {poly F}))%N.
  by rewrite PE size_mul // prednK // addn_gt0 a2.
have [_|b1] := eqVneq (size b) 1%N; first by right.
left; have aP : (size (a : {poly F}) < size v)%N.
  move: b1 b2 sE sP; move: (size (a : {poly F})) (size (b : {poly F})) (size (P : {poly F})) (size v) => n1 n2 n3 n4.
  lia.
have := hasPn none _ (mL _ aP); rewrite negb_and negbK (negbTE a0) /= negbK.
move=> /coprime_coprimep[x [y h]]; rewrite -unit_size; apply/unitrP; exists (x * b + y).
have h' : (x * b + y) * a = 1 by rewrite -h PE mulrDl -mulrA [b * a]mulrC.
by split; [exact: h'|rewrite [LHS]mulrC; exact: h'].
Qed.

Lemma coprime_inverse (a : R) : coprime_to P a -> has_inverse P a.
Proof. by move=> [x [y h]]; exists y; exists x; exact: (@bezout_inverse R). Qed.

Let mem x := (exists U, poly_of rep x U) /\ (size x < size v)%N.

Lemma tested_true : returns (irreducible_test cfg A k v) true ->
  has_members mem (k ^ (size v).-1)%N /\
  forall x, mem x -> x <> [::] ->
  exists2 y, mem y & returns (finv Q x) y /\
    returns (let! z := mul Q x y in is_one Q z) true.
Proof.
move=> ht; have hP : irreducible_elt P.
  by apply/(ensures_value (irreducible_test_ok hA vP s1) ht).
pose m := irr_mod hP; have hQ := FF_extension hA (m := m) vP.
have memE x : (exists u, @qf_rep _ R (poly_of rep) S m x u) <-> mem x.
  split=> [[u xu]|[[U xU] sx]].
    split; first by exists (qval u).
    have := qvalP u; rewrite erem_small /= -sP => h; apply: leq_ltn_trans h.
    by rewrite (reps_size xu).
  have h : erem S (U : R) m == U by rewrite erem_small /= -sP -(reps_size xU).
  by exists (Quot h).
have [[t [t1 t2 t3]] _ _] := finite_field_members hQ; split.
  exists t; split=> //; first by rewrite t2 /= -sP.
  by move=> x; apply: (iff_trans (t3 x)); exact: memE.
move=> x mx x0; have [u xu] := (memE x).2 mx.
have hq := finite_field_contract hQ; have hR := id_ring_ok (eu_idom_ok (fi_eucl_ok hq)).
have u0 : u != 0.
  apply/eqP => u0; apply: x0; move: xu; rewrite u0 /qf_rep /q_rep qval0 /poly_of polyseq0 => h.
  by inversion h.
have [[y [ry yu]]|[[]]] := finv_ok (fi_fi_ok hq) xu u0.
exists y; first by apply/memE; exists u^-1.
split=> //; suff : answers False (let! z := mul Q x y in is_one Q z) true.
  by case=> [[b [rb <-]]|[[]]].
apply: ensures_bind (mul_ok (mo_sg_ok (ri_mon_ok hR)) xu yu) _ => z zE.
by have := is_one_ok (mo_mo_ok (ri_mon_ok hR)) zE; rewrite mulfV // eqxx.
Qed.

Lemma tested_false : returns (irreducible_test cfg A k v) false ->
  exists x, [/\ mem x, x <> [::] & panics (finv Q x)].
Proof.
move=> ht; have hP : ~ irreducible_elt P.
  by move=> hP; have /(_ hP) := (ensures_value (irreducible_test_ok hA vP s1) ht).2.
have [a [a0 sa na]] := bad_residue hP; have [x xa] := poly_of_surj hk a.
exists x; split.
- by split; [exists a|rewrite (reps_size xa)].
- by move=> x0; move: xa a0; rewrite x0 -size_poly_eq0 => /reps_size <-.
have [_ h] := @quotient_field_args_any cfg False _ _ _ _ _ _ hE P v P0 Pu vP.
by have [_ [h2 _]] := h _ _ _ _ xa xa; exact: h2.
Qed.
End Residue.

Section Primitive.
Variables (cfg : Cfg) (E : Type) (F : fieldType) (rep : E -> F -> Prop) (A : FieldAlg E) (k : nat).
Hypothesis hA : finite_field cfg rep A k.
Hypothesis gk : good_isize cfg (Z.of_nat k).
Let mem := fun x => exists u, rep x u.

Lemma root_generates x g : k.-1.-primitive_root g -> rep x g -> generates mem A k x.
Proof.
move=> hg xg; have [_ [inj surj [s [us sk hs]]]] := finite_field_ok hA.
have rfun := finite_field_fun hA.
have k1 := card_gt1 us hs; rewrite sk in k1.
have k0 : (0 < k.-1)%N by rewrite -ltnS prednK // ltnW.
have g0 : g != 0.
  by apply/eqP => g0; have /eqP := prim_expr_order hg; rewrite g0 expr0n gtn_eqF //= eq_sym oner_eq0.
have jk j : (j < k.-1)%N -> (j <= k)%N by move=> h; apply: leq_trans (leq_pred k); exact: ltnW.
have pE j : (j < k.-1)%N -> gives False rep (fpower A (Z.of_nat j) x) (g ^+ j).
  by move=> /jk h; apply: (pwE hA gk) => //; rewrite g0 orbT.
split.
- by exists g.
- move=> j h; have [y yE] := surj (g ^+ j); exists y; first by exists (g ^+ j).
  by split; [exact: (call hA) (pE j h) yE|apply/(nz hA yE); exact: expf_neq0].
- move=> y [u yu] /(nz hA yu) u0.
  have [i uE] : {i : 'I_k.-1 | u = g ^+ i}.
    by apply: prim_rootP hg _ _; rewrite -sk (fermat1 us hs).
  by exists i; [exact: ltn_ord|apply: (call hA) (pE i (ltn_ord i)) _; rewrite -uE].
- move=> i j y hi hj /(called (pE i hi)) y1 /(called (pE j hj)) y2.
  have /eqP := rfun _ _ _ y1 y2; rewrite (eq_prim_root_expr hg).
  by rewrite !modn_small // => /eqP.
Qed.

(** Lucas: it is enough to look at the maximal proper divisors of k - 1. *)
Lemma primitive_test x : mem x -> returns (is_zero A x) false ->
  generates mem A k x <->
  forall r, prime r -> (r %| k.-1)%N ->
    returns (let! y := fpower A (Z.of_nat (k.-1 %/ r)) x in is_one A y) false.
Proof.
move=> [g xg] /(nz hA xg) g0; have [_ [inj surj [s [us sk hs]]]] := finite_field_ok hA.
have hR := id_ring_ok (eu_idom_ok (fi_eucl_ok (finite_field_contract hA))).
have k1 := card_gt1 us hs; rewrite sk in k1.
have k0 : (0 < k.-1)%N by rewrite -ltnS prednK // ltnW.
have pE j : (j <= k)%N -> gives False rep (fpower A (Z.of_nat j) x) (g ^+ j).
  by move=> h; apply: (pwE hA gk) => //; rewrite g0 orbT.
have oneE j : (j <= k)%N ->
    returns (let! y := fpower A (Z.of_nat j) x in is_one A y) (g ^+ j == 1).
  move=> h; apply: sure; apply: ensures_bind (pE j h) _ => y yE.
  exact: (is_one_ok (mo_mo_ok (ri_mon_ok hR)) yE).
have div_le r : (k.-1 %/ r <= k)%N by apply: leq_trans (leq_div _ _) (leq_pred _).
split=> [[_ _ _ once] r pr rk|h].
  have hr : (k.-1 %/ r < k.-1)%N by rewrite ltn_Pdiv // prime_gt1.
  have r0 : (0 < k.-1 %/ r)%N by rewrite divn_gt0 ?prime_gt0 // dvdn_leq.
  have := oneE _ (div_le r); case: eqP => // g1 _.
  have [y y1] := surj 1.
  have := once 0%N (k.-1 %/ r)%N y k0 hr.
  have -> : (0 = k.-1 %/ r)%N <-> False by split=> // e; rewrite -e in r0.
  case; first by apply: (call hA) (pE 0%N isT) _; rewrite expr0.
  by apply: (call hA) (pE _ (div_le r)) _; rewrite g1.
apply: root_generates xg.
have g1 : g ^+ k.-1 = 1 by rewrite -sk (fermat1 us hs).
have [n hn nk] := prim_order_exists k0 g1.
have [<- //|nk1] := eqVneq n k.-1.
have d1 : (1 < k.-1 %/ n)%N.
  have := divnK nk; case E1 : (k.-1 %/ n)%N => [|[|d]] //.
    by rewrite mul0n => z; rewrite -z in k0.
  by rewrite mul1n => z; rewrite z eqxx in nk1.
have pr := pdiv_prime d1; set r := pdiv _ in pr; have rd : (r %| k.-1 %/ n)%N by exact: pdiv_dvd.
have rk : (r %| k.-1)%N by apply: dvdn_trans rd (dvdn_div nk) .
have e1 : g ^+ (k.-1 %/ r) = 1.
  apply/eqP; rewrite -(prim_order_dvd hn).
  by rewrite dvdn_divRL // mulnC -dvdn_divRL.
have := h r pr rk; move: (oneE _ (div_le r)); rewrite e1 eqxx => t f.
by have := returns_det t f.
Qed.
End Primitive.
