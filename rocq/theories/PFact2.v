(** * PFact2.v -- factorizations exist over the integers and for polynomials over
    finite fields. *)

From mathcomp Require Import all_ssreflect all_algebra ssrZ zify.
From Coq Require Import ZArith Lia Znumtheory.
From Verif Require Import Rust Traits MInts MConstr Wp Spec PropSpec RingSpec PDefaults Quotient NumSpec.
From Verif Require Import RingTac PPoly PQuot PLaws Laws PInts PIntsZ PGcdLaw TowerSpec PTower PDegree PModular.
From Verif Require Import FFSpec IrrSpec PIrr PIrr2 FactSpec PFact Refuted.

Set Implicit Arguments.
Unset Strict Implicit.
Unset Printing Implicit Defensive.

Import GRing.Theory.
Local Open Scope ring_scope.

(** ** The integers *)
Lemma Z_split (a : [idomainType of Z]) : a != 0 -> a \isn't a GRing.unit -> irreducible_elt a \/
  exists b c, [/\ a = b * c, b \isn't a GRing.unit, c \isn't a GRing.unit &
                  (Z.abs_nat b < Z.abs_nat a)%nat /\ (Z.abs_nat c < Z.abs_nat a)%nat].
Proof.
move=> a0 au; have uE (b : Z) : (b : [idomainType of Z]) \is a GRing.unit <-> b = 1%Z \/ b = (-1)%Z.
  rewrite qualifE; split=> [/orP[]/eqP->|[]->] //; by [left|right].
have a0' : (a : Z) <> 0%Z by move=> h; rewrite h in a0.
have au' : ~ ((a : Z) = 1%Z \/ (a : Z) = (-1)%Z) by move=> /uE h; rewrite h in au.
have a1 : (1 < Z.abs a)%Z by lia.
have [pa|na] := prime_dec (Z.abs a).
  left; split=> // b c aE; have [_ _ h] := prime_irreducible pa.
  have [s sE] : exists s : Z, (s = 1 \/ s = -1)%Z /\ Z.abs a = (s * a)%Z.
    by have [h1|h1] := Z_lt_le_dec a 0; [exists (-1)%Z|exists 1%Z]; lia.
  have aE' : (a : Z) = (b * c)%Z := aE.
  have hp : (Z.abs a : [idomainType of Z]) = (s * b)%Z * (c : [idomainType of Z]).
    by rewrite -[RHS]/(s * b * c)%Z sE.2 aE' Z.mul_assoc.
  have [su|cu] := h _ _ hp; [left|by right].
  by apply/uE; move: su => /uE; lia.
right; have [n [n1 [q qE]]] := not_prime_divide _ a1 na.
pose s := Z.sgn a; have aE : a = (s * q * n)%Z.
  by rewrite /s -Z.mul_assoc -qE Z.mul_comm Z.abs_sgn.
have q1 : (1 < q < Z.abs a)%Z by nia.
have hs : (s = 1 \/ s = -1)%Z by rewrite /s; lia.
exists (s * q)%Z, n; split; first exact: aE.
- by apply/negP => /uE; lia.
- by apply/negP => /uE; lia.
by split; lia.
Qed.

Lemma integers_factor (x : Z) : x <> 0%Z -> x <> 1%Z -> x <> (-1)%Z ->
  exists2 xs, List.Forall (fun y => irreducible_elt (y : [idomainType of Z])) xs &
    returns (let! z := product ZZ xs in equals ZZ z x) true.
Proof.
move=> x0 x1 x2.
have [us hu xE] : exists2 us, List.Forall (@irreducible_elt [idomainType of Z]) us & (x : [idomainType of Z]) = prod_of us.
  apply: (exists_math (f := Z.abs_nat)); first exact: Z_split; first by apply/eqP.
  by rewrite qualifE; apply/norP; split; apply/eqP.
have [xs hx ht] := @factors_from debug64 Z [idomainType of Z] zz_rep _ _ _ (ZZ_ok debug64 False)
  (fun u => ex_intro _ u (erefl u)) x us xE hu.
exists xs => //; apply: List.Forall_impl hx => y [u yu ui].
by rewrite (yu : y = u).
Qed.

(** ** Polynomials over finite fields *)
Section Polys.
Variables (cfg : Cfg) (E : Type) (F : fieldType) (rep : E -> F -> Prop) (A : FieldAlg E) (k : nat).
Hypothesis hA : finite_field cfg rep A k.
Local Notation R := (poly_idomainType F).
Let hk : enumerated rep k := let: conj _ h := finite_field_ok hA in h.

Lemma poly_split (a : R) : a != 0 -> a \isn't a GRing.unit -> irreducible_elt a \/
  exists b c : R, [/\ a = b * c, b \isn't a GRing.unit, c \isn't a GRing.unit &
    (size (b : {poly F}) < size (a : {poly F}))%nat /\ (size (c : {poly F}) < size (a : {poly F}))%nat].
Proof.
move=> a0 au; have [v va] := poly_of_surj hk a.
have s1 : (1 < size v)%nat.
  move: a0 au; rewrite (reps_size va) unit_size -size_poly_eq0.
  by move: (size (a : {poly F})) => -[|[]].
have [[b [_ hb]]|[[]]] := irreducible_test_ok hA va s1.
have [bt|bf] := boolP b; first by left; apply/hb.
right; have nP : ~ irreducible_elt a by move=> /hb h; rewrite h in bf.
have [r [r0 sr nr]] := bad_residue hA va s1 nP.
have ra : ~~ coprimep a r.
  by apply/negP => /coprime_coprimep; move=> /(coprime_inverse).
pose g := gcdp a r; have g0 : g != 0 by rewrite /g gcdp_eq0 negb_and a0.
have [c aE] : exists c, (a : {poly F}) = c * g.
  by exists (a %/ g)%R; rewrite divpK // dvdp_gcdl.
have c0 : c != 0 by apply/eqP => c0; move: a0; rewrite aE c0 mul0r eqxx.
have sg : (size g <= size r)%nat by apply: dvdp_leq => //; exact: dvdp_gcdr.
have sg2 : (1 < size g)%nat.
  have : size g != 1%nat by exact: ra.
  by move: g0; rewrite -size_poly_eq0; move: (size g) => -[|[]].
have sE : (size (a : {poly F})).+1 = (size c + size g)%nat.
  by rewrite aE size_mul // prednK // addn_gt0 (ltnW sg2) orbT.
have c1 : (0 < size c)%nat by rewrite lt0n size_poly_eq0.
rewrite (reps_size va) in sr.
exists (c : R), (g : R); split=> //; rewrite ?unit_size.
- move: sE sg sg2 sr c1; move: (size c) (size g) (size r) (size (a : {poly F})) => n1 n2 n3 n4; lia.
- move: sE sg sg2 sr c1; move: (size c) (size g) (size r) (size (a : {poly F})) => n1 n2 n3 n4; lia.
- move: sE sg sg2 sr c1; move: (size c) (size g) (size r) (size (a : {poly F})) => n1 n2 n3 n4; lia.
Qed.

Lemma polys_factor x (P : {poly F}) : poly_of rep x P -> (1 < size x)%nat ->
  exists2 xs, List.Forall (fun y => exists2 U : R, poly_of rep y U & irreducible_elt U) xs &
    returns (let! z := product (PolyEucl A) xs in equals (PolyEucl A) z x) true.
Proof.
move=> xP s1; rewrite (reps_size xP) in s1.
have P0 : (P : R) != 0 by rewrite -size_poly_eq0; case: size s1.
have [|us hu PE] := exists_math (f := fun a : R => size (a : {poly F})) poly_split P0.
  by rewrite unit_size; case: eqP s1 => // ->.
apply: (@factors_from cfg _ _ _ _ _ _ (PolyEucl_ok (finite_field_contract hA)) (poly_of_surj hk) x us) => //.
by rewrite -PE.
Qed.
End Polys.
