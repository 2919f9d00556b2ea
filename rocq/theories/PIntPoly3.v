(** * PIntPoly3.v -- integer polynomials over machine fractions and over exact floats. *)

From mathcomp Require Import all_ssreflect all_fingroup all_algebra zify ssrZ.
From Coq Require Import ZArith Lia.
From Verif Require Import Rust Traits MInts MConstr Wp RingSpec Spec ZFacts PIntsZ PInts PFrac PFracProps
  ModSpec NumSpec PNum PChecked FracSpec RatSpec PRational PRat PVec PPoly FitSpec PFitInt IntPolySpec PIntPoly2.
From Verif Require Import Traits.

Set Implicit Arguments.
Unset Strict Implicit.
Unset Printing Implicit Defensive.

Import GRing.Theory.
Local Open Scope ring_scope.
Local Notation ZR := [idomainType of Z].
Local Notation QF := [fieldType of {fraction ZR}].
Local Notation phi := [rmorphism of @FracField.tofrac ZR].

Section Frac.
Variables (cfg : Cfg) (w : Z).
Hypothesis w2 : (2 <= w)%Z.
Local Notation RF := (ReducedFractions cfg (CheckedInts cfg w)).
Local Notation rep := (frac_rep (F := QF) phi Z_assoc (ci_rep w)).
Local Notation L := (2 ^ (w - 1) - 1)%Z.

Lemma frac_of (a : Z) : fits w a -> rep (a, Zpos xH) (phi a).
Proof.
move=> ha; exists a, 1%R; split=> /=.
- by split=> //; apply/fitsP.
- by split=> //; apply/fitsP; exact: fits1.
- split; [exact: oner_neq0| |exists 0, 1; rewrite mul0r add0r mulr1 //].
  by have [_ h _] := lowest1 Z_assoc.
- by rewrite rmorph1 divr1.
Qed.
Lemma of_frac x (a : Z) : rep x (phi a) -> is_frac w x a.
Proof.
move=> h; have e := rep_int h; split=> //; have [_ h1 _ _] := repP h.
by move: h1; rewrite e => /fitsP.
Qed.

Lemma runs T (m : M T) z : returns m z -> ensures False m (fun _ => True).
Proof. by move=> r; exact: ensures_returns r I. Qed.
Lemma small_fits a : (Z.abs a <= L)%Z -> fits w a.
Proof. by rewrite /fits; lia. Qed.

Lemma frac_fits : int_fits rep RF phi L.
Proof.
have p1 : (0 < 2 ^ (w - 1))%Z by apply: Z.pow_pos_nonneg; lia.
split.
- by apply: (runs (z := (0, 1)%Z)); exists 0%nat.
- by move=> x a _; have [b r] := is_zero_returns cfg w x; exact: runs r.
- move=> x a y b /of_frac[-> _] /of_frac[-> _] h; apply: (runs (z := (a * b, 1)%Z)).
  by apply: imul_returns => //; exact: small_fits.
- move=> x a y b /of_frac[-> _] /of_frac[-> _] h; apply: (runs (z := (a + b, 1)%Z)).
  by apply: iadd_returns => //; exact: small_fits.
- move=> x a /of_frac[-> _] h; have [r _] := rat_neg cfg w a 1; apply: runs (r _).
  by apply: small_fits; lia.
- move=> x a y b /of_frac[-> _] /of_frac[-> fb] h hb.
  have [r _] := rat_inv cfg w2 fb (fits1 w2) erefl.
  have e : (Z.sgn b * 1, Z.abs b)%Z = (b, 1%Z) by congr (_, _); lia.
  have p2 : (2 <= 2 ^ (w - 1))%Z by have := Z.pow_le_mono_r 2 1 (w - 1) ltac:(lia) ltac:(lia).
  rewrite e in r; have {}r := r ltac:(lia).
  apply: (runs (z := (a * b, 1)%Z)); apply: (returns_bind r).
  apply: imul_returns => //; apply: small_fits; rewrite Z.abs_mul hb; lia.
Qed.

Lemma is_fracP x a : is_frac w x a <-> rep x (phi a).
Proof. by split=> [[-> h]|/of_frac]; [exact: frac_of|]. Qed.
Let phi_inj : injective phi := @tofrac_inj ZR.
Local Notation ints := (poly_of (is_frac w)).
Local Notation bounded P B := (forall i, (Z.abs P`_i <= B)%Z).
Local Notation P := (PolyEucl RF).
Local Notation Lim := (2 ^ (w - 1))%Z.

Lemma frac_neg v (S : {poly Z}) B : ints v S -> bounded S B -> (B < Lim)%Z ->
  exists2 z, returns (neg P v) z & ints z (- S).
Proof.
by move=> h1 h2 h; apply: (ints_neg (rf_field cfg w2) phi_inj is_fracP frac_fits h1 h2); lia.
Qed.
Lemma frac_add v u (S T : {poly Z}) B C : ints v S -> ints u T -> bounded S B -> bounded T C -> (B + C < Lim)%Z ->
  exists2 z, returns (add P v u) z & ints z (S + T).
Proof.
by move=> h1 h2 h3 h4 h; apply: (ints_add (rf_field cfg w2) phi_inj is_fracP frac_fits h1 h2 h3 h4); lia.
Qed.
Lemma frac_sub v u (S T : {poly Z}) B C : ints v S -> ints u T -> bounded S B -> bounded T C -> (B + C < Lim)%Z ->
  exists2 z, returns (Traits.sub P v u) z & ints z (S - T).
Proof.
by move=> h1 h2 h3 h4 h; apply: (ints_sub (rf_field cfg w2) phi_inj is_fracP frac_fits h1 h2 h3 h4); lia.
Qed.
Lemma frac_mul v u (S T : {poly Z}) B C : ints v S -> ints u T -> bounded S B -> bounded T C ->
  (Z.of_nat (size S) * (B * C) < Lim)%Z -> exists2 z, returns (mul P v u) z & ints z (S * T).
Proof.
by move=> h1 h2 h3 h4 h; apply: (ints_mul (rf_field cfg w2) phi_inj is_fracP frac_fits h1 h2 h3 h4); lia.
Qed.
Lemma frac_quo_rem v u (S T : {poly Z}) B C : ints v S -> ints u T -> bounded S B -> bounded T C ->
  Z.abs (lead_coef T) = Zpos xH -> (B * (1 + C) ^ Z.of_nat (size S - size T + 1) < Lim)%Z ->
  exists2 z, returns (quo_rem P v u) z &
    exists U V : {poly Z}, [/\ ints z.1 U, ints z.2 V, S = U * T + V & (size V < size T)%nat].
Proof.
by move=> h1 h2 h3 h4 h5 h; apply: (ints_quo_rem (rf_field cfg w2) phi_inj is_fracP frac_fits h1 h2 h3 h4 h5); lia.
Qed.
Lemma frac_residue_mul v u m (S T N : {poly Z}) B C D : ints v S -> ints u T -> ints m N ->
  bounded S B -> bounded T C -> bounded N D -> Z.abs (lead_coef N) = Zpos xH ->
  (Z.of_nat (size S) * (B * C) * (1 + D) ^ Z.of_nat (size (S * T)%R - size N + 1) < Lim)%Z ->
  exists2 z, returns (mul (QuotientRing cfg P m) v u) z /\ returns (mul (QuotientField cfg P m) v u) z &
    exists V : {poly Z}, [/\ ints z V, exists U, S * T = U * N + V & (size V < size N)%nat].
Proof.
move=> h1 h2 h3 h4 h5 h6 h7 h.
have [|z r hz] := ints_residue_mul (rf_field cfg w2) phi_inj is_fracP frac_fits h1 h2 h4 h5 h3 h6 h7; first lia.
by exists z.
Qed.
Lemma frac_residue_add v u m (S T N : {poly Z}) B C D : ints v S -> ints u T -> ints m N ->
  bounded S B -> bounded T C -> bounded N D -> Z.abs (lead_coef N) = Zpos xH ->
  ((B + C) * (1 + D) ^ Z.of_nat (size (S + T)%R - size N + 1) < Lim)%Z ->
  exists2 z, returns (add (QuotientRing cfg P m) v u) z /\ returns (add (QuotientField cfg P m) v u) z &
    exists V : {poly Z}, [/\ ints z V, exists U, S + T = U * N + V & (size V < size N)%nat].
Proof.
move=> h1 h2 h3 h4 h5 h6 h7 h.
have [|z r hz] := ints_residue_add (rf_field cfg w2) phi_inj is_fracP frac_fits h1 h2 h4 h5 h3 h6 h7; first lia.
by exists z.
Qed.
End Frac.
