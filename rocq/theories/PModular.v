(** * PModular.v -- modular arithmetic over machine integers does not overflow as
    long as the square of the largest residue fits. *)

From mathcomp Require Import all_ssreflect all_algebra zify ssrZ.
From Coq Require Import ZArith Lia Znumtheory.
From Verif Require Import Rust Traits MInts MConstr RingTac Wp Spec ZFacts ZEgcd PIntsZ.
From Verif Require Import PDefaults PEucl PInts PChecked Quotient PQuot.

Set Implicit Arguments.
Unset Strict Implicit.
Unset Printing Implicit Defensive.

Import GRing.Theory.
Local Open Scope ring_scope.

(** ** Moduli in Z *)
Lemma Z_modulus_ge2 (m : modulus [idomainType of Z]) : Z.le 2 (Z.abs (mval m)).
Proof.
have /eqP h0 := m_neq0 m; have := m_nonunit m; rewrite qualifE => /norP[/eqP h1 /eqP h2].
by move: h0 h1 h2; set z := mval m => h0 h1 h2; have : z <> Z0 /\ z <> 1%Z /\ z <> (-1)%Z; [split|lia].
Qed.

Section Modular.
Variables (cfg : Cfg) (w : Z).
Hypothesis w4 : Z.le 4 w.
Lemma w2 : Z.le 2 w. Proof. lia. Qed.
Local Notation CI := (CheckedInts cfg w).

Section Total.
Variable m : Z.
Hypothesis m_in : in_i w m.
Hypothesis m2 : Z.le 2 (Z.abs m).
Hypothesis m_small : Z.le (Z.mul (Z.abs m - 1)%Z (Z.abs m - 1)%Z) (imax w).

Definition residue (x : Z) : Prop := Z.le Z0 x /\ Z.lt x (Z.abs m).

Let mm := imin_imax w2.
Lemma imax7 : Z.le 7 (imax w).
Proof. by have := range8 w4; rewrite /imax; lia. Qed.

Lemma bad_div_m x : ~~ bad_div w x m.
Proof. by apply/bad_divF => -[_ h]; move: m2; rewrite h. Qed.

Lemma rem_m_total z : in_i w z -> ensures False (rem CI z m) (fun=> True).
Proof.
move=> hz; have := @ci_rem_exact cfg w w2 z m hz m_in; rewrite /exact_if bad_div_m andbT.
case: Z.eqb_spec => [h|_ /= h]; first by lia.
exact: ensures_returns h _.
Qed.

Lemma exact_in (b : bool) (c : M Z) z :
  exact_if b c z -> b -> ensures False c (fun r => r = z).
Proof. by rewrite /exact_if => h hb; rewrite hb in h; exact: ensures_returns h _. Qed.

Lemma qmul_total x y : residue x -> residue y ->
  ensures False (quotient_mul CI m x y) (fun=> True).
Proof.
move=> [x0 x1] [y0 y1].
have hxy : in_i w (Z.mul x y) by apply/(in_iP w); nia.
by apply: ensures_bind (exact_in (ci_mul_exact cfg w x y) hxy) _ => z ->; exact: rem_m_total.
Qed.
Lemma qadd_total x y : residue x -> residue y ->
  ensures False (quotient_add CI m x y) (fun=> True).
Proof.
move=> [x0 x1] [y0 y1].
have hxy : in_i w (Z.add x y) by apply/(in_iP w); have := imax7; nia.
by apply: ensures_bind (exact_in (ci_add_exact cfg w x y) hxy) _ => z ->; exact: rem_m_total.
Qed.
Lemma qneg_total x : residue x -> ensures False (quotient_neg CI m x) (fun=> True).
Proof.
move=> [x0 x1]; move/(in_iP w): (m_in) => hm.
have hx : in_i w (Z.opp x) by apply/(in_iP w); lia.
by apply: ensures_bind (exact_in (ci_neg_exact cfg w x) hx) _ => z ->; exact: rem_m_total.
Qed.
Lemma residue_in x : residue x -> in_i w x.
Proof. by move=> [x0 x1]; move/(in_iP w): (m_in) => hm; apply/(in_iP w); lia. Qed.

(** [quotient_mul] of a unit and a Bezout coefficient. *)
Lemma qunit_total a r : (a = 1%Z \/ a = (-1)%Z) -> inr' (2 ^ (w - 1)) r ->
  ensures False (quotient_mul CI m a r) (fun=> True).
Proof.
move=> ha hr; have har : in_i w (Z.mul a r).
  by apply/(in_iP w); rewrite /inr' /imin /imax in hr *; case: ha => ->; lia.
by apply: ensures_bind (exact_in (ci_mul_exact cfg w a r) har) _ => z ->; exact: rem_m_total.
Qed.

Lemma egcd_m_total x : residue x -> ensures False (extended_gcd CI m x) (fun gst =>
  inr' (2 ^ (w - 1)) gst.2).
Proof.
move=> rx; have hx := residue_in rx; have [g [s [t h]]] := eg_total m x.
have nb : ~~ bad_div w m x by apply: bad_div_nonneg; case: rx.
have hr := @ci_extended_gcd_returns cfg w w2 w4 m x g s t h m_in hx nb.
apply: ensures_returns hr _ => /=; have [x0|x0] := Z.eq_dec x Z0.
  by rewrite x0 in h; have [_ [_ ->]] := eg_zero _ _ _ _ h; have := range8 w4; rewrite /inr'; lia.
by have [] := ci_eg_range w4 h m_in hx nb x0.
Qed.

Lemma try_inv_unit g (Q : option Z -> Prop) :
  (forall a, (a = 1%Z \/ a = (-1)%Z) -> Q (Some a)) -> Q None ->
  ensures False (try_inv CI g) Q.
Proof.
move=> h1 h2; rewrite /= /checked_ints_try_inv /checked_ints_invertible bind_ret.
case: Z.eqb_spec => h3 /=; first by apply/ensures_ret/h1; left.
by case: Z.eqb_spec => h4 /=; apply/ensures_ret => //; apply: h1; right.
Qed.

Lemma qtry_inv_total x : residue x ->
  ensures False (quotient_ring_try_inv CI m x) (fun=> True).
Proof.
move=> rx; apply: ensures_bind (egcd_m_total rx) _ => -[[g s] r] /= hr.
apply: (@ensures_bind _ _ _ _ _
  (fun o => forall a, o = Some a -> a = 1%Z \/ a = (-1)%Z)).
  by apply: try_inv_unit => // a ha b [<-].
move=> [a|] h; last exact: ensures_ret.
apply: ensures_bind (qunit_total (h _ erefl) hr) _ => z _; exact: ensures_ret.
Qed.
End Total.

Section Ring.
Variable m : modulus [idomainType of Z].
Local Notation mz := (mval m : Z).
Hypothesis m_in : in_i w mz.
Hypothesis m_small : Z.le (Z.mul (Z.abs mz - 1)%Z (Z.abs mz - 1)%Z) (imax w).
Local Notation qrep := (@q_rep Z [idomainType of Z] Z_eucl m (ci_rep w)).
Let hm : ci_rep w mz mz. Proof. by []. Qed.
Let hCI := CheckedInts_ok cfg w2.

Lemma qrep_residue x u : qrep x u -> residue mz x.
Proof.
case=> -> _; have := qvalE u => /= h.
have m0 : mz <> Z0 by have := @Z_modulus_ge2 m; lia.
exact: (proj1 (zrem_self _ _ m0) h).
Qed.

Lemma CI_zero : gives False (ci_rep w) (zero CI) 0.
Proof. by apply: ensures_ret; split=> //; exact: (in_i0 w2). Qed.
Lemma CI_one : gives False (ci_rep w) (one CI) 1.
Proof. by apply: ensures_ret; split=> //; exact: (in_i1 w2). Qed.
Lemma CI_is_one x u : ci_rep w x u -> answers False (is_one CI x) (u == 1).
Proof. by move=> [-> _]; exact: ensures_ret. Qed.
Lemma CI_equals x u y v : ci_rep w x u -> ci_rep w y v ->
  answers False (equals CI x y) (u == v).
Proof. by move=> [-> _] [-> _]; exact: ensures_ret. Qed.
Lemma CI_reduced x a : ci_rep w x a ->
  answers False (reduced CI x mz) (erem Z_eucl a m == a).
Proof.
move=> [-> hx]; have h := @ci_reduced_exact cfg w w2 a mz hx.
apply: ensures_returns h _; rewrite (_ : Z.eqb mz Z0 = false) //.
by case: Z.eqb_spec => // h; have := @Z_modulus_ge2 m; rewrite h.
Qed.

Lemma total_gives (c : M Z) (v : quot Z_eucl m) :
  gives True qrep c v -> ensures False c (fun=> True) -> gives False qrep c v.
Proof. by move=> h1 h2; apply: ensures_mono (ensures_total h1 h2) _ => x []. Qed.

(** QuotientRing over CheckedInts with a small modulus is total. *)
Lemma QuotientRing_small :
  ring_alg_spec cfg False qrep *%R 1 (QuotientRing cfg CI mz).
Proof.
apply: QuotientRing_assemble.
- by move=> x u v [<- _] [<- _].
- exact: CI_equals.
- exact: CI_reduced.
- exact: CI_zero.
- exact: CI_one.
- exact: CI_is_one.
- move=> x u y v xu yv; apply: total_gives; first exact: (b_qmul hCI hm xu yv).
  exact: (qmul_total m_in (@Z_modulus_ge2 m) m_small (qrep_residue xu) (qrep_residue yv)).
- move=> x u y v xu yv; apply: total_gives; first exact: (b_qadd hCI hm xu yv).
  exact: (qadd_total m_in (@Z_modulus_ge2 m) m_small (qrep_residue xu) (qrep_residue yv)).
- move=> x u xu; apply: total_gives; first exact: (b_qneg hCI hm xu).
  exact: (qneg_total m_in (@Z_modulus_ge2 m) m_small (qrep_residue xu)).
- move=> x u xu; have h := qtry_inv_total m_in (@Z_modulus_ge2 m) m_small (qrep_residue xu).
  by apply: ensures_mono (ensures_total (b_try_inv hCI hm xu) h) _ => o [].
Qed.
End Ring.

Section Field.
Variable m : irr_modulus [idomainType of Z].
Local Notation mz := (mval m : Z).
Hypothesis m_in : in_i w mz.
Hypothesis m_small : Z.le (Z.mul (Z.abs mz - 1)%Z (Z.abs mz - 1)%Z) (imax w).
Local Notation frep := (@qf_rep Z [idomainType of Z] (ci_rep w) Z_eucl m).
Let hm : ci_rep w mz mz. Proof. by []. Qed.
Let hCI := CheckedInts_ok cfg w2.

(** QuotientField over CheckedInts with a small modulus is total. *)
Lemma QuotientField_small :
  field_alg_spec cfg False frep (QuotientField cfg CI mz).
Proof.
apply: QuotientField_assemble.
- by move=> x u v [<- _] [<- _].
- exact: CI_equals.
- exact: CI_reduced.
- exact: CI_zero.
- exact: CI_one.
- exact: CI_is_one.
- move=> x u y v xu yv; apply: total_gives; first exact: (b_qmul hCI hm xu yv).
  exact: (qmul_total m_in (@Z_modulus_ge2 m) m_small (qrep_residue m_in xu) (qrep_residue m_in yv)).
- move=> x u y v xu yv; apply: total_gives; first exact: (b_qadd hCI hm xu yv).
  exact: (qadd_total m_in (@Z_modulus_ge2 m) m_small (qrep_residue m_in xu) (qrep_residue m_in yv)).
- move=> x u xu; apply: total_gives; first exact: (b_qneg hCI hm xu).
  exact: (qneg_total m_in (@Z_modulus_ge2 m) m_small (qrep_residue m_in xu)).
- move=> x u xu u0.
  have rx := qrep_residue m_in (xu : @q_rep _ _ _ _ _ _ (u : quot _ _)).
  have hE := ensures_total (b_bezout hCI hm xu) (egcd_m_total m_in (@Z_modulus_ge2 m) m_small rx).
  apply: ensures_bind hE _ => -[[g s] r] [[d [t [gd rt dg dE]]] /= hr].
  have cop : coprime_to (mval m : [idomainType of Z]) (qval u).
    by apply: (irr_coprime Z_eucl) => /(qpi_eq0 Z_eucl m); rewrite qpiK => /eqP; rewrite (negbTE u0).
  have [d' dd'] := (gcd_coprime Z_eucl dg).2 cop.
  have hT := @try_inv_unit g (fun o => forall a, o = Some a -> a = 1%Z \/ a = (-1)%Z).
  have {}hT := ensures_total (try_inv_ok (mo_mo_ok (ri_mon_ok (id_ring_ok (eu_idom_ok hCI)))) gd)
    (hT (fun a ha b => ltac:(by move=> [<-])) (fun a => ltac:(by []))).
  apply: ensures_bind hT _ => -[a [[d2 ad2 [dd2 d2d]] ha]|[/(_ d')[]]]; last first.
    by split=> //; rewrite mulrC.
  rewrite bind_ret.
  have h1 := ensures_total (b_mul hCI hm ad2 rt) (qunit_total m_in (@Z_modulus_ge2 m) (ha _ erefl) hr).
  apply: ensures_mono h1 _ => y [yE _].
  rewrite /qf_rep (_ : u^-1 = qpi Z_eucl m d2 * qpi Z_eucl m t) //.
  apply: (mulIf u0); rewrite mulVf //.
  have h : (qpi Z_eucl m d2 * qpi Z_eucl m t * (u : quot Z_eucl m)) = 1.
    by rewrite -mulrA -dE -rmorphM d2d rmorph1.
  exact: (esym h).
Qed.
End Field.
End Modular.

(** ** Prime numbers are irreducible *)
Lemma prime_neq0 (q : Z) : prime q -> (q : [idomainType of Z]) != 0.
Proof. by move=> /prime_ge_2 h; apply/eqP => h0; rewrite h0 in h; case: h. Qed.
Lemma prime_nonunit (q : Z) : prime q -> (q : [idomainType of Z]) \isn't a GRing.unit.
Proof.
move=> /prime_ge_2 h; rewrite qualifE; apply/norP; split; apply/eqP => hq; rewrite hq in h; lia.
Qed.
Definition prime_modulus (q : Z) (hq : prime q) : modulus [idomainType of Z] :=
  Modulus (prime_neq0 hq) (prime_nonunit hq).
Lemma prime_irreducible (q : Z) (hq : prime q) :
  irreducible_elt (mval (prime_modulus hq)).
Proof.
split; [exact: prime_neq0|exact: prime_nonunit|move=> a b /= qE].
have [->|[->|aq]] : a = (-1)%Z \/ a = 1%Z \/ (a = q \/ a = (- q)%Z).
- by apply: prime_divisors => //; exists b; rewrite qE Z.mul_comm.
- by left; rewrite qualifE.
- by left; rewrite qualifE.
have h2 := prime_ge_2 _ hq; right; have qab : q = (a * b)%Z by exact: qE.
have [->|->] : b = 1%Z \/ b = (-1)%Z by clear -aq h2 qab; nia.
  by rewrite qualifE.
by rewrite qualifE.
Qed.
Definition prime_field (q : Z) (hq : prime q) : irr_modulus [idomainType of Z] :=
  IrrModulus (prime_irreducible hq).
