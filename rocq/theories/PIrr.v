(** * PIrr.v -- testing polynomials over finite fields for irreducibility. *)

From Coq Require Import ZArith Lia List.
From mathcomp Require Import all_ssreflect all_fingroup all_solvable all_algebra all_field ssrZ zify.
From Verif Require Import Rust Traits MInts MConstr Wp Spec PropSpec RingSpec PDefaults Quotient.
From Verif Require Import RingTac PPoly PQuot TowerSpec PTower PCount3 FFSpec PFF IrrSpec.

Set Implicit Arguments.
Unset Strict Implicit.
Unset Printing Implicit Defensive.

Import GRing.Theory.
Local Open Scope ring_scope.

Lemma sub4 (V : zmodType) (a b c d : V) : a - b - (c - d) = a - c - (b - d).
Proof. by rewrite !opprD !opprK addrACA. Qed.

Section Math.
Variables (E : Type) (F : fieldType) (rep : E -> F -> Prop) (k : nat).
Hypothesis hF : enumerated rep k.
Local Notation R := (poly_idomainType F).
Local Notation S := (poly_estruct F).

Lemma unit_size (P : {poly F}) : (P \is a GRing.unit) = (size P == 1%N).
Proof.
rewrite poly_unitE; apply/andP/idP => [[]|/eqP s1] //; split; first exact/eqP.
have : lead_coef P != 0 by rewrite lead_coef_eq0 -size_poly_eq0 s1.
by rewrite lead_coefE s1 unitfE.
Qed.

Lemma k_gt1 : (1 < k)%N.
Proof. by have [_ _ [s [us <- hs]]] := hF; exact: card_gt1 us hs. Qed.

Lemma frob_add (V : comRingType) (f : {rmorphism F -> V}) i (a b : V) :
  (a + b) ^+ (k ^ i) = a ^+ (k ^ i) + b ^+ (k ^ i).
Proof.
have [_ _ [s [us <- hs]]] := hF; have [r [d [pr rF d0 ->]]] := char_card us hs.
apply: exprDn_char; rewrite !pnatX; apply/orP; left; apply/orP; left.
by rewrite pnatE //; exact: rmorph_char rF.
Qed.

Lemma fermat_iter (V : fieldType) j (u : V) : u ^+ j = u -> forall i, u ^+ (j ^ i) = u.
Proof. by move=> h; elim=> [|i IH]; rewrite ?expr1 // expnS exprM h. Qed.

Variable m : irr_modulus R.
Local Notation mp := (mval m : {poly F}).
Local Notation Q := (qfield_fieldType S m).
Local Notation pi := (qpi S m).

Definition const_f : F -> Q := fun c => pi (c%:P).
Lemma const_rmorph : rmorphism const_f.
Proof.
rewrite /const_f; split=> [a b|]; first by rewrite polyCB rmorphB.
by split=> [a b|]; rewrite ?polyCM ?rmorphM // rmorph1.
Qed.
Canonical const_add := Additive const_rmorph.
Canonical const_rmor := RMorphism const_rmorph.

(** An irreducible polynomial of degree n divides X^(k^n) - X ... *)
Lemma irr_divides : dvds mp ('X^(k ^ (size mp).-1) - 'X).
Proof.
apply/(qpi_eq0 S m); rewrite rmorphB rmorphX /=.
by apply/eqP; rewrite subr_eq0; apply/eqP; exact: enumerated_fermat (extension_enumerated hF m) _.
Qed.

(** ... and no X^(k^i) - X for a smaller i. *)
Lemma irr_divides_not i : (0 < i < (size mp).-1)%N -> ~ dvds mp ('X^(k ^ i) - 'X).
Proof.
move=> /andP[i0 im] /(qpi_eq0 S m); rewrite rmorphB rmorphX /= => /eqP.
rewrite subr_eq0 => /eqP hx.
have fr (a b : Q) := @frob_add Q [rmorphism of const_f] i a b.
have all_fixed (u : Q) : u ^+ (k ^ i) = u.
  have [P <-] := qpi_surjective u; elim/poly_ind: P => [|P c IH].
    by rewrite rmorph0 expr0n expn_eq0 gtn_eqF // (ltnW k_gt1).
  rewrite rmorphD rmorphM /= fr exprMn IH hx; congr (_ + _).
  by rewrite -rmorphX /= -rmorphX /= (fermat_iter (enumerated_fermat hF c)).
have [_ _ [t [ut st ht]]] := extension_enumerated hF m.
have sX : size ('X^(k ^ i) - 'X : {poly Q}) = (k ^ i).+1.
  rewrite size_addl size_polyXn // size_opp size_polyX ltnS.
  by rewrite -{1}(exp1n i) ltn_exp2r // k_gt1.
have := @max_poly_roots Q ('X^(k ^ i) - 'X) t.
rewrite -size_poly_eq0 sX st ut => /(_ isT) h.
have : (k ^ (size mp).-1 < (k ^ i).+1)%N.
  apply: h => //; apply/allP => u _; rewrite /root !hornerE hornerXn all_fixed subrr //.
by rewrite ltnS leq_exp2l ?k_gt1 // leqNgt im.
Qed.
End Math.

Section Test.
Variables (E : Type) (F : fieldType) (rep : E -> F -> Prop) (k : nat).
Hypothesis hF : enumerated rep k.
Local Notation R := (poly_idomainType F).
Local Notation S := (poly_estruct F).

Definition irr_mod (P : R) (h : irreducible_elt P) : irr_modulus R :=
  @IrrModulus R (@Modulus R P (let: And3 h _ _ := h in h) (let: And3 _ h _ := h in h)) h.

Lemma irr_factor n (a : R) : (1 < size (a : {poly F}) <= n)%N ->
  ~ ~ exists2 g : R, irreducible_elt g & dvds g a.
Proof.
elim: n a => [|n IH] a; first by rewrite leqn0 size_poly_eq0 => /andP[h /eqP a0]; rewrite a0 size_poly0 in h.
move=> /andP[a1 an] none.
have a0 : a != 0 by rewrite -size_poly_eq0; case: size a1.
apply: (none); exists a; last by exists 1; rewrite mul1r.
split=> //; first by rewrite unit_size; case: eqP a1 => // ->.
move=> b c aE; rewrite !unit_size; have [_|b1] := eqVneq (size b) 1%N; first by left.
right; apply/negPn/negP => c1.
have [b0 c0] : b != 0 /\ c != 0 by move: a0; rewrite aE mulf_eq0 negb_or => /andP.
have b2 : (0 < size (b : {poly F}))%N by rewrite lt0n size_poly_eq0.
have c2 : (0 < size (c : {poly F}))%N by rewrite lt0n size_poly_eq0.
have sE : (size (a : {poly F})).+1 = (size (b : {poly F}) + size (c : {poly F}))%N.
  by rewrite aE size_mul // prednK // addn_gt0 b2.
apply: (IH b).
  move: b1 c1 b2 c2 sE an; move: (size (b : {poly F})) (size (c : {poly F})) (size (a : {poly F})) => sb sc sa.
  lia.
move=> [g gi [d dE]]; apply: none; exists g => //; exists (d * c).
by rewrite aE dE mulrAC.
Qed.

Lemma coprime_congr (P U V : R) : dvds P (U - V) -> coprime_to P U -> coprime_to P V.
Proof.
move=> [c cE] [a [b h]]; exists (a + b * c), b; rewrite -h mulrDl -mulrA -cE mulrBr.
by rewrite -addrA subrK.
Qed.

(** Ben-Or's criterion. *)
Lemma ben_or (P : R) : (1 < size (P : {poly F}))%N ->
  irreducible_elt P <->
  forall i, (0 < i <= (size (P : {poly F})).-1./2)%N -> coprime_to P ('X^(k ^ i) - 'X).
Proof.
move=> s1; have P0 : P != 0 by rewrite -size_poly_eq0; case: size s1.
split=> [hP i hi|h].
  apply: (@irr_coprime R S (irr_mod hP)); apply: (irr_divides_not hF (m := irr_mod hP)).
  by rewrite /=; move: hi s1; move: (size (P : {poly F})) => n; lia.
split=> //; first by rewrite unit_size; case: eqP s1 => // ->.
move=> a b PE; rewrite !unit_size.
have [a0 b0] : a != 0 /\ b != 0 by move: P0; rewrite PE mulf_eq0 negb_or => /andP.
have a2 : (0 < size (a : {poly F}))%N by rewrite lt0n size_poly_eq0.
have b2 : (0 < size (b : {poly F}))%N by rewrite lt0n size_poly_eq0.
have sE : (size (P : {poly F})).+1 = (size (a : {poly F}) + size (b : {poly F}))%N.
  by rewrite PE size_mul // prednK // addn_gt0 a2.
have small (c : R) : (1 < size (c : {poly F}))%N -> ((size (c : {poly F})).-1 <= (size (P : {poly F})).-1./2)%N ->
    dvds c P -> False.
  move=> c1 cs cP; apply: (@irr_factor (size (c : {poly F})) c); first by rewrite c1 leqnn.
  move=> [g gi [d cE]].
  have g0 : g != 0 by case: gi.
  have gu : g \isn't a GRing.unit by case: gi.
  have g1 : (1 < size (g : {poly F}))%N.
    by move: gu; rewrite unit_size; move: g0; rewrite -size_poly_eq0; case: size => [|[]].
  have d0 : d != 0 by apply/eqP => d0; move: c1; rewrite cE d0 mul0r size_poly0.
  have d2 : (0 < size (d : {poly F}))%N by rewrite lt0n size_poly_eq0.
  have cg : (size (c : {poly F})).+1 = (size (d : {poly F}) + size (g : {poly F}))%N.
    by rewrite cE size_mul // prednK // addn_gt0 d2.
  have [|x [y xy]] := h (size (g : {poly F})).-1; first by move: g1 cg d2 cs; move: (size (g : {poly F})) (size (c : {poly F})) (size (d : {poly F})) (size (P : {poly F})) => n1 n2 n3 n4; lia.
  have [e eE] := irr_divides hF (irr_mod gi); have [f fE] := cP.
  case/negP: gu; apply/unitrP; exists (x * f * d + y * e).
  have xg : (x * f * d + y * e) * g = 1.
    by rewrite -xy mulrDl -!mulrA -eE fE cE !mulrA.
  by split; [exact: xg|rewrite [LHS]mulrC; exact: xg].
apply/orP/negPn/negP; rewrite negb_or => /andP[a1 b1].
have [ab|ba] := leqP (size (a : {poly F})) (size (b : {poly F})).
  apply: (small a); last by exists b; rewrite PE mulrC.
    by move: a1 a2; move: (size (a : {poly F})) => n; lia.
  by move: ab sE a2 b2; move: (size (a : {poly F})) (size (b : {poly F})) (size (P : {poly F})) => n1 n2 n3; lia.
apply: (small b); last by exists a; rewrite PE.
  by move: b1 b2; move: (size (b : {poly F})) => n; lia.
by move: ba sE a2 b2; move: (size (a : {poly F})) (size (b : {poly F})) (size (P : {poly F})) => n1 n2 n3; lia.
Qed.
End Test.

Section Program.
Variables (cfg : Cfg) (E : Type) (F : fieldType) (rep : E -> F -> Prop) (A : FieldAlg E) (k : nat).
Hypothesis hA : finite_field cfg rep A k.
Local Notation R := (poly_idomainType F).
Local Notation S := (poly_estruct F).
Local Notation prep := (poly_of rep).
Variables (v : seq E) (P : R).
Hypotheses (vP : prep v P) (s1 : (1 < size v)%N).
Let hK := finite_field_contract hA.
Let hE := PolyEucl_ok hK.
Let hk : enumerated rep k := let: conj _ h := finite_field_ok hA in h.
Let sP : size v = size (P : {poly F}).
Proof. exact: reps_size vP. Qed.
Let P0 : P != 0.
Proof. by rewrite -size_poly_eq0 -sP; case: size s1. Qed.
Let Pu : P \isn't a GRing.unit.
Proof. by rewrite unit_size -sP; case: eqP s1 => // ->. Qed.
Let md := @Modulus R P P0 Pu.
Local Notation qrep := (@q_rep (seq E) R S md prep).
Local Notation pi := (qpi S md).
Let hQ : ring_alg_spec cfg False qrep *%R 1 (QuotientRing cfg (PolyEucl A) v) :=
  @QuotientRing_ok cfg False (seq E) R prep _ S (PolyEucl A) hE md v vP.
Let hS := mo_sg_ok (ri_mon_ok hQ).

Lemma raise_ok n y U z W : qrep y U -> qrep z W ->
  gives False qrep (raise cfg A v y n z) (W * U ^+ n).
Proof.
move=> yU; elim: n z W => [|n IH] z W zW; first by apply: ensures_ret; rewrite mulr1.
apply: ensures_bind (mul_assign_ok hS zW yU) _ => z' z'W.
by rewrite exprS mulrA; exact: IH.
Qed.

Local Notation good i := (coprime_to P ('X^(k ^ i) - 'X)).
Lemma no_common_factor_ok n x X y j : prep x X -> dvds P (X - 'X) ->
  qrep y (pi 'X ^+ (k ^ j)) ->
  decides False (no_common_factor cfg A k v x y n)
    (forall i, (j < i <= j + n)%N -> good i).
Proof.
move=> xX hX; elim: n y j => [|n IH] y j yj.
  apply: ensures_ret; split=> // _ i; rewrite addn0 => /andP[h1 h2].
  by move: (leq_trans h1 h2); rewrite ltnn.
apply: ensures_bind (one_ok (mo_mo_ok (ri_mon_ok hQ))) _ => z z1.
apply: ensures_bind (raise_ok k yj z1) _ => y'; rewrite mul1r -exprM -expnSr => yj'.
have yP : prep y' (qval (pi 'X ^+ (k ^ j.+1))) by exact: yj'.
apply: ensures_bind (sub_ok (ri_ab_ok (id_ring_ok (eu_idom_ok hE))) yP xX) _ => d dD.
have cong : dvds P (qval (pi 'X ^+ (k ^ j.+1)) - X - ('X^(k ^ j.+1) - 'X)).
  have [a aE] : dvds P (qval (pi 'X ^+ (k ^ j.+1)) - 'X^(k ^ j.+1)).
    by apply/(qpiE S md); rewrite qpiK rmorphX.
  by have [b bE] := hX; exists (a - b); rewrite mulrBl -aE -bE sub4.
have cong' : dvds P ('X^(k ^ j.+1) - 'X - (qval (pi 'X ^+ (k ^ j.+1)) - X)).
  by have [c cE] := cong; exists (- c); rewrite mulNr -cE [RHS]opprB.
apply: ensures_bind (relative_primes_ok (eu_eu_ok hE) vP dD) _ => -[] hb.
  apply: ensures_mono (IH _ _ yj') _ => b hb2; apply: (iff_trans hb2); split=> h i.
    rewrite leq_eqVlt -addSnnS => /andP[/orP[/eqP <- _|h1 h2]]; last by apply: h; rewrite h1.
    by apply: (coprime_congr cong); apply/hb.
  by move=> /andP[h1 h2]; apply: h; rewrite (ltnW h1) -addSnnS.
apply: ensures_ret; split=> // /(_ j.+1); rewrite leqnn -addSnnS leq_addr => /(_ isT) h.
by apply/hb; exact: (coprime_congr cong' h).
Qed.

Lemma irreducible_test_ok :
  decides False (irreducible_test cfg A k v) (irreducible_elt P).
Proof.
have hR := id_ring_ok (eu_idom_ok (fi_eucl_ok hK)).
apply: ensures_bind (zero_ok (ri_cm_ok hR)) _ => o o0.
apply: ensures_bind (one_ok (mo_mo_ok (ri_mon_ok hR))) _ => l l1.
have xX : prep [:: o; l] 'X.
  by rewrite /poly_of polyseqX; repeat constructor.
apply: ensures_bind (rem_ok (eu_eu_ok hE) xX vP P0) _ => x xE.
have hx : dvds P (erem S ('X : R) P - 'X).
  have h := e_div S ('X : R) P0; exists (- equo S ('X : R) P); move: h.
  move: (erem _ _ _) (equo _ _ _) => r q h; rewrite mulNr h.
  by rewrite opprD addrCA subrr addr0.
have xq : qrep x (pi 'X ^+ (k ^ 0)) by rewrite expr1.
apply: ensures_mono (no_common_factor_ok (length v).-1./2 xE hx xq) _ => b hb; apply: (iff_trans hb).
rewrite -[length v]/(size v) sP; apply: iff_sym; apply: (ben_or hk); by rewrite -sP.
Qed.
End Program.
