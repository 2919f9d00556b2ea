(** * PFinite.v -- every finite field is a quotient of a polynomial ring over a prime
    field, so it is one of the structures of the crate. *)

From Coq Require Import ZArith Znumtheory Lia List.
From mathcomp Require Import all_ssreflect all_fingroup all_solvable all_algebra finfield.
From mathcomp Require Import ssrZ zify.
From Verif Require Import Rust Traits MInts MConstr Wp Spec PropSpec RingSpec NumSpec TowerSpec FiniteSpec.
From Verif Require Import PIntsZ PInts POrders Quotient PQuot PModular PPoly PTower PCount PCount3.

Set Implicit Arguments.
Unset Strict Implicit.
Unset Printing Implicit Defensive.

Import GRing.Theory.
Local Open Scope ring_scope.

(** ** Morphisms from a quotient *)
Section Lift.
Variables (R : idomainType) (S : eucl_struct R) (m : modulus R) (K : ringType).
Variable f : {rmorphism R -> K}.
Hypothesis fm : f (mval m) = 0.

Lemma f_dvds a : dvds (mval m) a -> f a = 0.
Proof. by move=> [c ->]; rewrite rmorphM fm mulr0. Qed.

Lemma f_erem a : f (erem S a (mval m)) = f a.
Proof.
have h : dvds (mval m) (qval (qpi S m a) - a) by exact: qpi_val.
by apply/eqP; rewrite -subr_eq0 -rmorphB; apply/eqP; exact: f_dvds.
Qed.

Definition qlift (u : quot S m) : K := f (qval u).
Lemma qlift_is_rmorphism : rmorphism qlift.
Proof.
split=> [u v|].
  rewrite /qlift -rmorphB -[RHS]f_erem.
  by rewrite -[u in LHS](qpiK (m:=m)) -[v in LHS](qpiK (m:=m)) -rmorphB.
split=> [u v|]; last by rewrite /qlift qval1 rmorph1.
by rewrite /qlift -rmorphM -[RHS]f_erem.
Qed.
End Lift.

(** ** The prime field of a finite field *)
Section Build.
Variables (K : finFieldType) (q : Z) (hq : Znumtheory.prime q).
Hypothesis qK : ((Z.to_nat q)%:R : K) = 0.
Local Notation P := (qfield_fieldType Z_eucl (prime_field hq)).

Definition z_to (z : [idomainType of Z]) : K := (int_of_Z z)%:~R.
Lemma z_to_is_rmorphism : rmorphism z_to.
Proof.
split=> [a b|]; first by rewrite /z_to -rmorphB -raddfB.
split=> [a b|]; last by [].
by rewrite /z_to -rmorphM -(ZInstances.int_of_Z_is_multiplicative.1 a b).
Qed.
Canonical z_to_additive := Additive z_to_is_rmorphism.
Canonical z_to_rmorphism := RMorphism z_to_is_rmorphism.

Lemma z_to_q : z_to (mval (prime_field hq)) = 0.
Proof.
have q2 := prime_ge_2 _ hq.
rewrite /z_to /= -[RHS]qK pmulrn; congr (_%:~R); lia.
Qed.

Definition prime_in (u : P) : K := qlift [rmorphism of z_to] (u : quot Z_eucl (prime_field hq)).
Lemma prime_in_is_rmorphism : rmorphism prime_in.
Proof. exact (@qlift_is_rmorphism _ Z_eucl (prime_field hq) K [rmorphism of z_to] z_to_q). Qed.
Canonical prime_in_additive := Additive prime_in_is_rmorphism.
Canonical prime_in_rmorphism := RMorphism prime_in_is_rmorphism.

(** ** A primitive element and its minimal polynomial *)
Variable x : K.
Hypothesis xgen : forall u : K, u != 0 -> exists i, u = x ^+ i.

Definition peval (p : {poly P}) : K := (map_poly prime_in p).[x].
Lemma peval_is_rmorphism : rmorphism peval.
Proof.
split=> [a b|]; first by rewrite /peval rmorphB hornerD hornerN.
by split=> [a b|]; rewrite /peval ?rmorphM ?hornerM // rmorph1 hornerC.
Qed.
Canonical peval_additive := Additive peval_is_rmorphism.
Canonical peval_rmorphism := RMorphism peval_is_rmorphism.

Lemma pevalC c : peval c%:P = prime_in c.
Proof. by rewrite /peval map_polyC hornerC. Qed.
Lemma pevalX : peval 'X = x.
Proof. by rewrite /peval map_polyX hornerX. Qed.

Lemma peval_kernel : exists2 p : {poly P}, p != 0 & peval p = 0.
Proof.
exists ('X^#|K| - 'X); last by rewrite rmorphB rmorphX /= pevalX expf_card subrr.
have c1 : (1 < #|K|)%N by exact: finRing_gt1.
by rewrite -size_poly_gt0 size_addl ?size_polyXn // size_opp size_polyX ltnS.
Qed.

Lemma P_finite : exists s : seq P, uniq s /\ forall u, u \in s.
Proof.
have [_ [_ _ [s [us _ hs]]]] := finite_field_ok (FF_prime (mkCfg true true (Zpos xH)) hq).
by exists s.
Qed.

(** A polynomial of least size that vanishes at [x]. *)
Lemma peval_min : exists p : {poly P}, [/\ p != 0, peval p = 0 &
  forall r, peval r = 0 -> r != 0 -> (size p <= size r)%N].
Proof.
have [s [us hs]] := P_finite; pose P' := fin_field us hs.
pose Q n := [exists t : n.-tuple P', (Poly (t : seq P) != 0) && (peval (Poly (t : seq P)) == 0)].
have QP n : reflect (exists p : {poly P}, [/\ (size p <= n)%N, p != 0 & peval p = 0]) (Q n).
  apply: (iffP existsP) => [[t /andP[t0 /eqP te]]|[p [sp p0 pe]]].
    by exists (Poly (t : seq P)); split=> //; rewrite (leq_trans (size_Poly _)) ?size_tuple.
  have st : size (take n (p ++ nseq n 0 : seq P)) == n.
    by rewrite size_takel // size_cat size_nseq leq_addl.
  exists (Tuple (st : size (take n (p ++ nseq n 0) : seq P') == n)).
  rewrite /=; suff -> : Poly (take n (p ++ nseq n 0)) = p by rewrite p0 pe eqxx.
  apply/polyP => i; rewrite coef_Poly; case: (ltnP i n) => hi.
    rewrite nth_take // nth_cat; case: ltnP => // hi2.
    by rewrite nth_nseq if_same nth_default.
  rewrite !nth_default //; first exact: leq_trans sp hi.
  by rewrite (eqP st).
have ex : exists n, Q n.
  by have [p p0 pe] := peval_kernel; exists (size p); apply/QP; exists p.
case: (ex_minnP ex) => n /QP[p [sp p0 pe]] hn; exists p; split=> // r re r0.
by apply: leq_trans sp _; apply: hn; apply/QP; exists r.
Qed.

(** ** The isomorphism *)
Lemma finite_field_modulus : exists (m : irr_modulus (poly_idomainType P))
    (f : {rmorphism qfield_fieldType (poly_estruct P) m -> K}), bijective f.
Proof.
have [p [p0 pe pmin]] := peval_min.
have inj1 : injective prime_in by exact: fmorph_inj.
have pu : (p : poly_idomainType P) \isn't a GRing.unit.
  apply/negP => /(rmorph_unit [rmorphism of peval]).
  by rewrite /= pe unitr0.
have pirr : irreducible_elt (Modulus (R := poly_idomainType P) p0 pu).
  split=> //= a b pE.
  have ab0 : (a * b : {poly P}) != 0 by rewrite -pE.
  have [a0 b0] : a != 0 /\ b != 0 by apply/andP; rewrite -negb_or -mulf_eq0.
  have sab : (size p = (size a + size b).-1)%N by rewrite pE size_mul.
  have : peval a * peval b == 0.
    have e : peval (a * b : {poly P}) = peval a * peval b.
      exact: (rmorphM [rmorphism of peval] (a : {poly P}) b).
    by rewrite -e -[X in peval X]pE pe.
  have unit_of (c d : {poly P}) : c != 0 -> d != 0 -> peval c = 0 ->
      size p = (size c + size d).-1 -> d \is a GRing.unit.
    move=> c0 d0 ce sE; have := pmin c ce c0; rewrite sE => h.
    have sd : size d == 1%N.
      by move: d0 c0; rewrite -!size_poly_gt0; lia.
    rewrite poly_unitE sd unitfE.
    by have /size_poly1P[e e0 ->] := sd; rewrite coefC.
  rewrite mulf_eq0 => /orP[/eqP ae|/eqP be].
    by right; apply: (unit_of a b).
  by left; apply: (unit_of b a) => //; rewrite addnC.
pose m := IrrModulus pirr.
have h := @qlift_is_rmorphism _ (poly_estruct P) m K [rmorphism of peval] pe.
pose f := RMorphism (h : rmorphism (qlift [rmorphism of peval] : qfield_fieldType (poly_estruct P) m -> K)).
exists m, f.
have finj : injective f by exact: fmorph_inj.
have fpi (a : {poly P}) : f (qpi (poly_estruct P) m a) = peval a.
  exact: (@f_erem _ (poly_estruct P) m K [rmorphism of peval] pe a).
have fsurj u : exists v, f v = u.
  have [->|u0] := eqVneq u 0; first by exists 0; rewrite rmorph0.
  have [i ->] := xgen u0; exists (qpi (poly_estruct P) m ('X^i)).
  by rewrite fpi rmorphX /= pevalX.
have gP u : exists v, f v == u by have [v <-] := fsurj u; exists v.
exists (fun u => xchoose (gP u)) => [v|u]; last exact/eqP/(xchooseP (gP u)).
by apply: finj; exact/eqP/(xchooseP (gP (f v))).
Qed.
End Build.

(** ** Every finite field *)
Lemma prime_Z p : prime p -> Znumtheory.prime (Z.of_nat p).
Proof.
move=> pp; apply/prime_alt; split; first by have := prime_gt1 pp; lia.
move=> n [n1 np] [c cE].
have c0 : Z.le 0 c by nia.
have : (Z.to_nat n %| p)%N by apply/dvdnP; exists (Z.to_nat c); nia.
move/(prime_nt_dvdP pp) => h; have : Z.to_nat n = p by apply: h; lia.
lia.
Qed.

Lemma Forall2_rel_map (A B : Type) (R : A -> B -> Prop) (f : B -> A) (s : seq B) :
  (forall b, R (f b) b) -> Forall2 R (map f s) s.
Proof. by move=> h; elim: s => [|b s IH] /=; constructor. Qed.

Section Code.
Variables (cfg : Cfg) (E : Type) (F K : fieldType) (rep : E -> F -> Prop) (A : FieldAlg E) (k : nat).
Hypothesis hA : finite_field cfg rep A k.
Variables (f : {rmorphism F -> K}) (g : K -> F) (code : F -> E).
Hypotheses (gK : cancel g f) (fK : cancel f g) (codeP : forall u, rep (code u) u).

Lemma field_code_ok : field_code A (fun u => code (g u)).
Proof.
have hF := finite_field_contract hA; have [_ _ inj] := finite_field_members hA.
have hR := id_ring_ok (eu_idom_ok (fi_eucl_ok hF)).
have hD := mo_dom_ok (ri_mon_ok hR); have hM := mo_mo_ok (ri_mon_ok hR).
have hS := mo_sg_ok (ri_mon_ok hR); have hC := ri_cm_ok hR; have hN := ri_ab_ok hR.
have hI := fi_fi_ok hF.
have ret_rep m u : gives False rep m u -> returns m (code u).
  by case=> [[x [rx xu]]|[[]]]; rewrite (inj _ _ _ (codeP u) xu).
have ret_b m b : answers False m b -> returns m b by case=> [[c [rc <-]]|[[]]].
have ginj : injective g := can_inj gK.
have g0 : g 0 = 0 by rewrite -[RHS]fK rmorph0.
have g1 : g 1 = 1 by rewrite -[RHS]fK rmorph1.
have gD u v : g (u + v) = g u + g v by rewrite -[RHS]fK rmorphD !gK.
have gN u : g (- u) = - g u by rewrite -[RHS]fK rmorphN !gK.
have gM u v : g (u * v) = g u * g v by rewrite -[RHS]fK rmorphM !gK.
have gV u : g u^-1 = (g u)^-1 by rewrite -[RHS]fK fmorphV !gK.
have gz u : (g u == 0) = (u == 0) by rewrite -g0 (inj_eq ginj).
have c := fun u => codeP (g u).
split.
- by move=> u v e; apply: ginj; apply: (dom_fun hD) (c u) _; rewrite e.
- by move=> u; apply: ret_b; exact: contains_ok hD _ _ (c u).
- by move=> u v; rewrite -(inj_eq ginj); apply: ret_b; exact: equals_ok hD _ _ _ _ (c u) (c v).
- by rewrite g0; apply: ret_rep; exact: zero_ok hC.
- by rewrite g1; apply: ret_rep; exact: one_ok hM.
- by move=> u; rewrite -gz; apply: ret_b; exact: is_zero_ok hC _ _ (c u).
- by move=> u; rewrite -(inj_eq ginj) g1; apply: ret_b; exact: is_one_ok hM _ _ (c u).
- by move=> u v; rewrite gD; apply: ret_rep; exact: add_ok hC _ _ _ _ (c u) (c v).
- by move=> u; rewrite gN; apply: ret_rep; exact: neg_ok hN _ _ (c u).
- by move=> u v; rewrite gD gN; apply: ret_rep; exact: sub_ok hN _ _ _ _ (c u) (c v).
- by move=> u v; rewrite gM; apply: ret_rep; exact: mul_ok hS _ _ _ _ (c u) (c v).
- by move=> u u0; rewrite gV; apply: ret_rep; apply: finv_ok hI _ _ (c u) _; rewrite gz.
- by apply: finv_zero hI _ _; rewrite -[X in rep _ X]g0; exact: c.
- move=> u v v0; rewrite gM gV; apply: ret_rep; apply: fdiv_ok hI _ _ _ _ (c u) (c v) _.
  by rewrite gz.
- by move=> u; apply: fdiv_zero hI _ _ _ (c u) _; rewrite -[X in rep _ X]g0; exact: c.
Qed.
End Code.

Lemma every_finite_field cfg (K : finFieldType) p : p \in [char K] ->
  exists (modulo : seq Z) (code : K -> seq Z),
    field_code (QuotientField cfg (PolyEucl (QuotientField cfg ZZ (Z.of_nat p))) modulo) code /\
    (p ^ (size modulo).-1)%N = #|K|.
Proof.
move=> pK; have pp := charf_prime pK; have hq := prime_Z pp.
have qK : ((Z.to_nat (Z.of_nat p))%:R : K) = 0 by rewrite Nat2Z.id; exact: charf0.
have /cyclicP[g gE] := field_unit_group_cyclic [group of [set: {unit K}]].
have xgen (u : K) : u != 0 -> exists i, u = (val g) ^+ i.
  rewrite -unitfE => uu.
  have : FinRing.unit K uu \in [set: {unit K}] by rewrite inE.
  rewrite gE => /cycleP[i ig]; exists i.
  by have := congr1 val ig; rewrite /= FinRing.val_unitX.
have [m [f [h fK gK]]] := finite_field_modulus hq qK xgen.
set P := qfield_fieldType Z_eucl (prime_field hq).
pose code1 (c : P) : Z := qval (c : quot Z_eucl (prime_field hq)).
pose modulo := map code1 (mval m : {poly P}).
pose code (u : qfield (poly_estruct P) m) := map code1 (polyseq (qval u : {poly P})).
have hm : poly_of (@qf_rep Z [idomainType of Z] zz_rep Z_eucl (prime_field hq)) modulo (mval m).
  by apply: Forall2_rel_map.
have hF := FF_extension (FF_prime cfg hq) hm.
have [_ [_ _ [s [us ss hs]]]] := finite_field_ok hF.
exists modulo, (fun u => code (h u)); split.
  by apply: (field_code_ok hF gK fK) => u; apply: Forall2_rel_map.
rewrite size_map -[X in (X ^ _)%N](Nat2Z.id p) -ss.
have := @perm_size _ [seq f v | v <- s] (enum K); rewrite size_map -cardE => -> //.
apply: uniq_perm.
- by rewrite map_inj_uniq //; exact: can_inj fK.
- exact: enum_uniq.
- by move=> u; rewrite mem_enum; apply/mapP; exists (h u); rewrite ?gK.
Qed.

Lemma every_prime_power cfg p k : prime p -> (0 < k)%N ->
  exists (modulo : seq Z) (K : finFieldType) (code : K -> seq Z),
    [/\ size modulo = k.+1, #|K| = (p ^ k)%N &
        field_code (QuotientField cfg (PolyEucl (QuotientField cfg ZZ (Z.of_nat p))) modulo) code].
Proof.
move=> pp k0; have [K pK cK] := PrimePowerField pp k0.
have [modulo [code [h sE]]] := every_finite_field cfg pK.
exists modulo, K, code; split=> //.
have := sE; rewrite cK => /eqP; rewrite eqn_exp2l ?prime_gt1 // => /eqP e.
by rewrite -e prednK //; move: e k0; case: (size modulo) => //= <-.
Qed.
