(** * PQuotProps.v -- QuotientRing and QuotientField in terms of congruences. *)

From mathcomp Require Import all_ssreflect all_algebra zify ssrZ.
From Coq Require Import ZArith Lia Znumtheory.
From Verif Require Import Rust Traits MInts MConstr RingTac Wp Spec PropSpec Laws ZFacts.
From Verif Require Import PDefaults PEucl PInts PIntsZ PChecked Quotient PQuot PModular PLaws PLaws2.
From Verif Require Import NumSpec.

Set Implicit Arguments.
Unset Strict Implicit.
Unset Printing Implicit Defensive.

Import GRing.Theory.
Local Open Scope ring_scope.

Section Congr.
Variables (R : idomainType) (S : eucl_struct R).

Lemma congruent_refl (m a : R) : congruent m a a.
Proof. by exists 0; rewrite subrr mul0r. Qed.

Lemma residue_uniq E (rep : E -> R -> Prop) (m : R) x y a b : m != 0 ->
  residue_of S m rep x a -> residue_of S m rep y b -> congruent m a b -> a = b.
Proof.
move=> m0 [_ ra] [_ rb] [c h]; rewrite -ra -rb.
by rewrite -(@e_canon _ S a m c) // -h addrC subrK.
Qed.
End Congr.

Section Quot.
Variables (cfg : Cfg) (p : Prop) (E : Type) (R : idomainType) (rep : E -> R -> Prop).
Variables (S : eucl_struct R) (A : RingAlg E) (m : modulus R).
Local Notation qrep := (@q_rep E R S m rep).
Local Notation res := (residue_of S (m : R) rep).
Local Notation mgives := (mod_gives p S (m : R) rep).

Lemma res_quot x a : res x a -> exists2 u : quot S m, qrep x u & qval u = a.
Proof. by move=> [xa /eqP ra]; exists (Quot ra). Qed.
Lemma quot_res x (u : quot S m) : qrep x u -> res x (qval u).
Proof. by move=> xu; split=> //; exact: qvalE. Qed.

Lemma gives_mod (c : M E) (u : quot S m) v :
  gives p qrep c u -> u = qpi S m v -> mgives c v.
Proof.
move=> h uv; apply: ensures_mono h _ => z zu; exists (qval u); first exact: quot_res.
by rewrite /congruent uv -opprB; case: (qpi_val S m v) => k ->; exists (- k); rewrite mulNr.
Qed.

Lemma quot_val (u : quot S m) a : qval u = a -> u = qpi S m a.
Proof. by move=> <-; rewrite qpiK. Qed.

Hypothesis hQ : ring_alg_spec cfg p qrep *%R 1 A.

Lemma zmul_qpi a n : zmul (qpi S m a) n = qpi S m (zmul a n).
Proof. by case: n => [|k|k] /=; rewrite ?rmorph0 ?rmorphN ?rmorphMn. Qed.

Lemma quot_ring_mod :
  [/\ mgives (zero A) 0, mgives (one A) 1 &
      forall n, good_isize cfg n -> mgives (int A n) (zmul 1 n)] /\
  (forall x a y b, res x a -> res y b ->
   [/\ mgives (add A x y) (a + b), mgives (sub A x y) (a - b) & mgives (mul A x y) (a * b)] /\
   [/\ mgives (add_assign A x y) (a + b), mgives (sub_assign A x y) (a - b) &
       mgives (mul_assign A x y) (a * b)] /\
   [/\ mgives (neg A x) (- a), mgives (neg_assign A x) (- a),
       mgives (double A x) (a + a) & mgives (square A x) (a * a)] /\
   (forall n, Z.le 0 n -> mgives (ntimes A n x) (a *+ Z.to_nat n)) /\
   (forall n, good_isize cfg n -> mgives (ztimes A n x) (zmul a n)) /\
   [/\ answers p (contains A x) true,
       decides p (equals A x y) (congruent m a b),
       decides p (is_zero A x) (congruent m a 0) &
       decides p (is_one A x) (congruent m a 1)]).
Proof.
have [hM hC hB hU] := hQ; have [hD hS hO] := hM.
split.
  split; first by apply: gives_mod (zero_ok hC) _; rewrite rmorph0.
    by apply: gives_mod (one_ok hO) _; rewrite rmorph1.
  by move=> n gn; apply: gives_mod (int_ok hU gn) _; rewrite -zmul_qpi rmorph1.
move=> x a y b /res_quot[u xu /quot_val uE] /res_quot[v yv /quot_val vE].
have cE : forall c d, congruent m c d <-> qpi S m c = qpi S m d.
  by move=> c d; split=> [/(qpiE S m) ->//|h]; apply/(qpiE S m); rewrite h.
split; first by split; [apply: gives_mod (add_ok hC xu yv) _|
  apply: gives_mod (sub_ok hB xu yv) _|apply: gives_mod (mul_ok hS xu yv) _];
  rewrite uE vE ?rmorphD ?rmorphN ?rmorphM.
split; first by split; [apply: gives_mod (add_assign_ok hC xu yv) _|
  apply: gives_mod (sub_assign_ok hB xu yv) _|apply: gives_mod (mul_assign_ok hS xu yv) _];
  rewrite uE vE ?rmorphD ?rmorphN ?rmorphM.
split; first by split; [apply: gives_mod (neg_ok hB xu) _|apply: gives_mod (neg_assign_ok hB xu) _|
  apply: gives_mod (double_ok hC xu) _|apply: gives_mod (square_ok hS xu) _];
  rewrite uE ?rmorphN ?rmorphD ?rmorphM.
split.
  move=> n n0; apply: gives_mod (ntimes_ok hC n0 xu) _.
  by rewrite /npow iter_addr addr0 uE rmorphMn.
split; first by move=> n gn; apply: gives_mod (ztimes_ok hB gn xu) _; rewrite uE zmul_qpi.
split; first exact: (contains_ok hD xu).
- apply: ensures_mono (equals_ok hD xu yv) _ => r ->.
  by rewrite cE -uE -vE; split=> [/eqP|->].
- apply: ensures_mono (is_zero_ok hC xu) _ => r ->.
  by rewrite cE -uE rmorph0; split=> [/eqP|->].
- apply: ensures_mono (is_one_ok hO xu) _ => r ->.
  by rewrite cE -uE rmorph1; split=> [/eqP|->].
Qed.

Lemma quot_inverse (u v : quot S m) a b : u = qpi S m a -> v = qpi S m b ->
  inverse_of *%R 1 u v <-> congruent m (a * b) 1.
Proof.
move=> -> ->; rewrite /inverse_of -!(rmorphM (qpi_rmorphism S m)) /congruent.
rewrite -(rmorph1 (qpi_rmorphism S m)) /=.
split=> [[h _]|/(qpiE S m) h]; first by apply/(qpiE S m); rewrite h.
by split; rewrite ?[b * a]mulrC -h.
Qed.

Lemma quot_try_inv x a : res x a ->
  ensures p (try_inv A x) (fun o =>
    match o with
    | Some y => exists2 b, res y b & congruent m (a * b) 1
    | None => forall b, ~ congruent m (a * b) 1
    end) /\
  decides p (invertible A x) (exists b, congruent m (a * b) 1).
Proof.
have [hM hC hB hU] := hQ; have [hD hS hO] := hM.
move=> /res_quot[u xu /quot_val uE]; split.
  apply: ensures_mono (try_inv_ok hO xu) _ => -[y [v yv uv]|h].
    exists (qval v); first exact: quot_res.
    by apply/(quot_inverse uE (esym (qpiK v))).
  move=> b /(quot_inverse uE (erefl _)); exact: h.
apply: ensures_mono (invertible_ok hO xu) _ => r ->; split=> [[v uv]|[b h]].
  by exists (qval v); apply/(quot_inverse uE (esym (qpiK v))).
by exists (qpi S m b); apply/(quot_inverse uE (erefl _)).
Qed.
End Quot.

(** ** The constructor of QuotientField checks nothing about the modulus *)
Section New.
Variables (cfg : Cfg) (E : Type) (R : idomainType) (rep : E -> R -> Prop).
Variables (AS : assoc_struct R) (S : eucl_struct R) (A : EuclAlg E).
Hypothesis hA : eucl_alg_spec cfg False rep AS S A.
Let hI := eu_idom_ok hA.
Let hR := id_ring_ok hI.
Let hD := mo_dom_ok (ri_mon_ok hR).
Let hM := mo_mo_ok (ri_mon_ok hR).
Let hC := ri_cm_ok hR.
Let hE := eu_eu_ok hA.

Lemma ensures_False_returns T (c : M T) Q :
  ensures False c Q -> exists2 v, returns c v & Q v.
Proof. by move=> [[v [h q]]|[[]]]; exists v. Qed.

Lemma quotient_field_new_any modulo m : rep modulo m -> returns (quotient_field_new A modulo) tt.
Proof.
move=> hm.
have h : ensures False (quotient_field_new A modulo) (fun=> True).
  apply: ensures_bind (contains_ok hD hm) _ => b ->.
  apply: ensures_assert_bind => //.
  apply: ensures_bind (one_ok hM) _ => o oE.
  apply: ensures_bind (rem_ok hE oE oE (oner_neq0 _)) _ => r rE.
  apply: ensures_bind (is_zero_ok hC rE) _ => z ->.
  rewrite (_ : erem S 1 1 = 0) ?eqxx; first exact: ensures_ret.
  by have := @e_canon _ S 0 1 1 (oner_neq0 _); rewrite add0r mulr1 => ->; exact/e_rem0/oner_neq0.
by have [[] h1 _] := ensures_False_returns h.
Qed.

Lemma erem_unit (a m : R) : m \is a GRing.unit -> erem S a m = 0.
Proof.
move=> mu; have m0 : m != 0 by apply: contraTneq mu => ->; rewrite unitr0.
have := @e_canon _ S 0 m (a / m) m0; rewrite add0r divrK // => ->; exact: e_rem0.
Qed.

Lemma quotient_unit_modulus modulo (m : R) : rep modulo m -> m \is a GRing.unit ->
  exists2 o, returns (one (QuotientField cfg A modulo)) o &
             returns (contains (QuotientField cfg A modulo) o) false.
Proof.
move=> hm mu; have [o oE o1] := ensures_False_returns (one_ok hM).
exists o => //; have m0 : m != 0 by apply: contraTneq mu => ->; rewrite unitr0.
have [b bE bb] := ensures_False_returns (reduced_ok hE o1 hm).
by move: bE; rewrite bb (negbTE m0) erem_unit // eq_sym oner_eq0.
Qed.

Lemma quotient_zero_modulus_panics modulo x a y b : rep modulo 0 -> rep x a -> rep y b ->
  [/\ panics (mul (QuotientField cfg A modulo) x y), panics (add (QuotientField cfg A modulo) x y) &
      panics (neg (QuotientField cfg A modulo) x)].
Proof.
move=> hm xa yb; split.
- apply: panics_ensures (mul_ok (mo_sg_ok (ri_mon_ok hR)) xa yb) _ => z zE.
  exact: (rem_zero hE zE hm).
- by apply: panics_ensures (add_ok hC xa yb) _ => z zE; exact: (rem_zero hE zE hm).
- by apply: panics_ensures (neg_ok (ri_ab_ok hR) xa) _ => z zE; exact: (rem_zero hE zE hm).
Qed.
End New.

(** ** The field methods in terms of congruences *)
Section QuotField.
Variables (cfg : Cfg) (p : Prop) (E : Type) (R : idomainType) (rep : E -> R -> Prop).
Variables (S : eucl_struct R) (A : FieldAlg E) (m : irr_modulus R).
Local Notation frep := (@qf_rep E R rep S m).
Local Notation res := (residue_of S (m : R) rep).
Hypothesis hA : field_alg_spec cfg p frep A.
Let hF := fi_fi_ok hA.

Lemma qfield_ring : ring_alg_spec cfg p (@q_rep E R S m rep) *%R 1 A.
Proof. exact: (id_ring_ok (eu_idom_ok (fi_eucl_ok hA))). Qed.

Lemma res_field x a : res x a ->
  exists2 u : qfield S m, frep x u & u = qpi S m a /\ (u != 0 <-> ~ dvds (m : R) a).
Proof.
move=> /(@res_quot E R rep S m)[u xu /quot_val uE]; exists u => //; split=> //; split=> [u0 h|h].
  by move/negP: u0; apply; apply/eqP; rewrite uE; apply/(qpi_eq0 S m).
by apply/negP => /eqP u0; apply: h; apply/(qpi_eq0 S m); rewrite -uE.
Qed.
Lemma field_res x (u : qfield S m) : frep x u -> res x (qval u).
Proof. by move=> h; exact: quot_res. Qed.
Lemma qpi_val_congr (u : qfield S m) (c : R) : (u : quot S m) = qpi S m c ->
  congruent m (qval u) c.
Proof. by move=> uE; apply/(qpiE S m); rewrite qpiK uE. Qed.

Lemma quot_field_mod x a y b : res x a -> res y b ->
  (~ dvds (m : R) a -> ensures p (finv A x) (fun z =>
     exists2 c, res z c & congruent m (a * c) 1)) /\
  (dvds (m : R) a -> panics (finv A x)) /\
  (~ dvds (m : R) b -> ensures p (fdiv A x y) (fun z =>
     exists2 c, res z c & congruent m (c * b) a)) /\
  (dvds (m : R) b -> panics (fdiv A x y)) /\
  (~ dvds (m : R) a -> forall n, good_isize cfg n ->
     ensures p (fpower A n x) (fun z => exists2 c, res z c &
       match n with
       | Z0 => congruent m c 1
       | Zpos k => congruent m c (a ^+ Pos.to_nat k)
       | Zneg k => congruent m (c * a ^+ Pos.to_nat k) 1
       end)).
Proof.
move=> /res_field[u xu [uE u0]] /res_field[v yv [vE v0]].
have z0 (w : qfield S m) c : (w : quot S m) = qpi S m c -> dvds (m : R) c -> w = 0.
  by move=> -> h; apply/(qpi_eq0 S m).
have cong1 (w : qfield S m) c d : (w * (qpi S m c : qfield S m) = qpi S m d :> qfield S m) ->
    congruent m (qval w * c) d.
  move=> h; apply/(qpiE S m); rewrite -[RHS](_ : qpi S m (qval w) * qpi S m c = _) ?rmorphM //.
  rewrite qpiK; exact: esym h.
split=> [h|].
  apply: ensures_mono (finv_ok hF xu _) _; first by apply/u0.
  move=> z zu; exists (qval u^-1); first exact: field_res.
  rewrite mulrC; apply: cong1; rewrite rmorph1 -uE; apply: mulVf; exact/u0.
split=> [h|].
  by apply: (finv_zero hF); have <- := z0 _ _ uE h.
split=> [h|].
  apply: ensures_mono (fdiv_ok hF xu yv _) _; first by apply/v0.
  move=> z zu; exists (qval (u / v)); first exact: field_res.
  apply: cong1; rewrite -uE -vE; apply: divfK; exact/v0.
split=> [h|].
  by apply: (fdiv_zero hF xu); have <- := z0 _ _ vE h.
move=> h n gn; apply: ensures_mono (fpower_ok hF gn xu _) _; first by apply/u0.
move=> z zu; eexists; first exact: (field_res zu).
have pE k : (u : quot S m) ^+ k = qpi S m (a ^+ k) by rewrite uE -rmorphX.
case: n {gn zu} => [|k|k]; rewrite /zexp.
- by apply: qpi_val_congr; rewrite rmorph1.
- by apply: qpi_val_congr; exact: pE.
- apply: cong1; rewrite -pE rmorph1; apply: mulVf.
  by apply: expf_neq0; exact/u0.
Qed.
End QuotField.

(** ** Statements for a plain modulus *)
Section Plain.
Variables (cfg : Cfg) (p : Prop) (E : Type) (R : idomainType) (rep : E -> R -> Prop).
Variables (AS : assoc_struct R) (S : eucl_struct R) (A : EuclAlg E).
Hypothesis hA : eucl_alg_spec cfg p rep AS S A.

Section Ring.
Variables (m : R) (modulo : E).
Hypotheses (m0 : m != 0) (mu : m \isn't a GRing.unit) (hm : rep modulo m).
Let md := Modulus m0 mu.
Let hQ := @QuotientRing_ok cfg p E R rep AS S A hA md modulo hm.

Definition quotient_mod : quotient_ring_correct p S m rep cfg (QuotientRing cfg A modulo) :=
  @quot_ring_mod cfg p E R rep S (QuotientRing cfg A modulo) md hQ.
Definition quotient_try_inv_mod :
  quotient_try_inv_correct p S m rep (QuotientRing cfg A modulo) :=
  @quot_try_inv cfg p E R rep S (QuotientRing cfg A modulo) md hQ.

Lemma quotient_laws : Z.le 2 (ptr_bits cfg) ->
  ring_alg_laws p (fun x => exists a, residue_of S m rep x a) cfg (QuotientRing cfg A modulo) /\
  mul_commutes p (fun x => exists a, residue_of S m rep x a)
    (QuotientRing cfg A modulo) (QuotientRing cfg A modulo).
Proof.
move=> hc; have hr x : (exists a, residue_of S m rep x a) -> exists u, @q_rep E R S md rep x u.
  by move=> [a /(@res_quot E R rep S md)[u xu _]]; exists u.
split.
  apply: (ring_alg_laws_ok hc hr _ _ _ _ _ hQ).
  - exact: mulrA.
  - exact: mul1r.
  - exact: mulr1.
  - exact: mulrDr.
  - exact: mulrDl.
exact: (mul_commutes_ok hr (mo_dom_ok (ri_mon_ok hQ)) (mo_sg_ok (ri_mon_ok hQ)) (@mulrC _)).
Qed.
End Ring.

Section Field.
Variables (m : R) (modulo : E).
Hypotheses (hirr : irreducible_elt m) (hm : rep modulo m).
Let m0 : m != 0. Proof. by case: hirr. Qed.
Let mu : m \isn't a GRing.unit. Proof. by case: hirr. Qed.
Let md := @IrrModulus R (Modulus m0 mu) hirr.
Let hQ := @QuotientField_ok cfg p E R rep AS S A hA md modulo hm.

Definition quotient_field_mod :
  quotient_field_correct p S m rep cfg (QuotientField cfg A modulo) :=
  @quot_field_mod cfg p E R rep S (QuotientField cfg A modulo) md hQ.
Definition quotient_field_ring_mod :
  quotient_ring_correct p S m rep cfg (QuotientField cfg A modulo) :=
  @quot_ring_mod cfg p E R rep S (QuotientField cfg A modulo) md (qfield_ring hQ).
Definition quotient_field_try_inv_mod :
  quotient_try_inv_correct p S m rep (QuotientField cfg A modulo) :=
  @quot_try_inv cfg p E R rep S (QuotientField cfg A modulo) md (qfield_ring hQ).

Lemma quotient_field_laws : Z.le 2 (ptr_bits cfg) ->
  field_alg_laws p (fun x => exists a, residue_of S m rep x a) cfg (QuotientField cfg A modulo).
Proof.
move=> hc; apply: (field_alg_laws_ok hc _ hQ) => x [a /(@res_quot E R rep S md)[u xu _]].
by exists u.
Qed.
End Field.

Lemma quotient_contains_plain (m : R) modulo x a : m != 0 -> rep modulo m -> rep x a ->
  answers p (contains (QuotientRing cfg A modulo) x) (erem S a m == a) /\
  answers p (contains (QuotientField cfg A modulo) x) (erem S a m == a).
Proof.
move=> m0 hm xa; have h : answers p (reduced A x modulo) (erem S a m == a).
  by apply: ensures_mono (reduced_ok (eu_eu_ok hA) xa hm) _ => b ->; rewrite (negbTE m0).
by split.
Qed.
End Plain.
