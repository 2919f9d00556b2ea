(** * PQuot.v -- QuotientRing and QuotientField compute in the quotient. *)

From Coq Require Import ZArith Lia.
From mathcomp Require Import all_ssreflect all_algebra zify.
From Verif Require Import Rust Traits MInts MConstr RingTac Wp Spec PDefaults PEucl.
From Verif Require Import Quotient.

Set Implicit Arguments.
Unset Strict Implicit.
Unset Printing Implicit Defensive.

Import GRing.Theory.
Local Open Scope ring_scope.

(** A reduced element denotes its class. *)
Definition q_rep (E : Type) (R : idomainType) (S : eucl_struct R) (m : modulus R)
    (rep : E -> R -> Prop) (x : E) (q : quot S m) : Prop := rep x (qval q).

(** ** Assembling the contracts from the basic operations *)
Section Assemble.
Variables (cfg : Cfg) (p : Prop) (E : Type) (R : idomainType) (rep : E -> R -> Prop).
Variables (S : eucl_struct R) (m : modulus R) (A : EuclAlg E) (modulo : E).
Local Notation qrep := (@q_rep E R S m rep).

Hypothesis h_fun : forall x u v, rep x u -> rep x v -> u = v.
Hypothesis h_eq : forall x u y v, rep x u -> rep y v -> answers p (equals A x y) (u == v).
Hypothesis h_red : forall x a, rep x a ->
  answers p (reduced A x modulo) (erem S a m == a).
Hypothesis h_zero : gives p rep (zero A) 0.
Hypothesis h_one : gives p rep (one A) 1.
Hypothesis h_isone : forall x u, rep x u -> answers p (is_one A x) (u == 1).
Hypothesis h_mul : forall x u y v, qrep x u -> qrep y v ->
  gives p qrep (quotient_mul A modulo x y) (u * v).
Hypothesis h_add : forall x u y v, qrep x u -> qrep y v ->
  gives p qrep (quotient_add A modulo x y) (u + v).
Hypothesis h_neg : forall x u, qrep x u -> gives p qrep (quotient_neg A modulo x) (- u).

Lemma q_zero : gives p qrep (zero A) 0.
Proof. by apply: ensures_mono h_zero _ => z zz; rewrite /q_rep qval0. Qed.
Lemma q_one : gives p qrep (one A) 1.
Proof. by apply: ensures_mono h_one _ => z zz; rewrite /q_rep qval1. Qed.

Lemma q_domain : domain_spec p qrep (quotient_domain A modulo).
Proof.
split=> /=.
- by move=> x u v xu xv; apply: val_inj; exact: h_fun xu xv.
- by move=> x v xv; apply: ensures_mono (h_red xv) _ => b ->; rewrite qvalE eqxx.
- by move=> x u y v xu yv; exact: h_eq xu yv.
Qed.

Lemma q_semigroup : semigroup_spec p qrep *%R (quotient_semigroup A modulo).
Proof. exact: semigroup_default. Qed.

Lemma q_cmonoid : cmonoid_spec p qrep +%R 0 (quotient_cmonoid A modulo).
Proof.
apply: (cmonoid_default (@addrA _) (@add0r _) (@addr0 _)) => //; first exact: q_zero.
move=> x u xu; apply: (default_is_zero_ok _ q_zero) xu.
exact: equals_ok q_domain.
Qed.

Lemma q_abelian : abelian_spec cfg p qrep (quotient_abelian cfg A modulo).
Proof. by apply: abelian_default; [exact: q_cmonoid|exact: h_neg]. Qed.

Lemma q_isone x u : qrep x u -> answers p (is_one A x) (u == 1).
Proof.
move=> xu; apply: ensures_mono (h_isone xu) _ => b ->.
by rewrite -[in LHS](qval1 S m); exact: (inj_eq val_inj).
Qed.

Lemma QuotientRing_assemble :
  (forall x u, qrep x u -> ensures p (quotient_ring_try_inv A modulo x) (fun o =>
    match o with
    | Some y => exists2 v, qrep y v & inverse_of *%R 1 u v
    | None => forall v, ~ inverse_of *%R 1 u v
    end)) ->
  ring_alg_spec cfg p qrep *%R 1 (QuotientRing cfg A modulo).
Proof.
move=> hi; split; first split.
- exact: q_domain.
- exact: q_semigroup.
- split=> /=.
  + exact: q_one.
  + exact: q_isone.
  + exact: hi.
  + by move=> x u xu; apply: default_invertible_ok; apply: hi.
- exact: q_cmonoid.
- exact: q_abelian.
- by apply: unitary_default; [exact: ztimes_ok q_abelian|exact: q_one].
Qed.
End Assemble.

Section AssembleField.
Variables (cfg : Cfg) (p : Prop) (E : Type) (R : idomainType) (rep : E -> R -> Prop).
Variables (S : eucl_struct R) (m : irr_modulus R) (A : EuclAlg E) (modulo : E).
Definition qf_rep (x : E) (q : qfield S m) : Prop := rep x (qval q).
Local Notation qrep := (@q_rep E R S m rep).

Hypothesis h_fun : forall x u v, rep x u -> rep x v -> u = v.
Hypothesis h_eq : forall x u y v, rep x u -> rep y v -> answers p (equals A x y) (u == v).
Hypothesis h_red : forall x a, rep x a ->
  answers p (reduced A x modulo) (erem S a m == a).
Hypothesis h_zero : gives p rep (zero A) 0.
Hypothesis h_one : gives p rep (one A) 1.
Hypothesis h_isone : forall x u, rep x u -> answers p (is_one A x) (u == 1).
Hypothesis h_mul : forall x u y v, qrep x u -> qrep y v ->
  gives p qrep (quotient_mul A modulo x y) (u * v).
Hypothesis h_add : forall x u y v, qrep x u -> qrep y v ->
  gives p qrep (quotient_add A modulo x y) (u + v).
Hypothesis h_neg : forall x u, qrep x u -> gives p qrep (quotient_neg A modulo x) (- u).
Hypothesis h_inv : forall x (u : qfield S m), qf_rep x u -> u != 0 ->
  ensures p (let! gsr := extended_gcd A modulo x in
             let '(g, _, r) := gsr in
             let! o := try_inv A g in
             let! a := unwrap o in
             quotient_mul A modulo a r)
    (fun y => qf_rep y u^-1).

Let hcm : cmonoid_spec p qf_rep +%R 0 (quotient_cmonoid A modulo) :=
  q_cmonoid h_fun h_eq h_red h_zero h_add.

Lemma qf_inv x u : qf_rep x u -> u != 0 ->
  gives p qf_rep (quotient_field_inv A modulo x) u^-1.
Proof.
move=> xu u0; apply: ensures_bind (is_zero_ok hcm xu) _ => b ->.
by apply: ensures_assert_bind => //; exact: h_inv.
Qed.

Lemma qf_inv_zero x : qf_rep x 0 -> panics (quotient_field_inv A modulo x).
Proof.
move=> x0; apply: panics_ensures (is_zero_ok hcm x0) _ => b ->.
by apply: panics_assert_bind; rewrite eqxx.
Qed.

Lemma qf_ring : ring_alg_spec cfg p qf_rep *%R 1 (quotient_field_ring cfg A modulo).
Proof.
have hab := q_abelian cfg h_fun h_eq h_red h_zero h_add h_neg.
split; first split.
- exact: q_domain h_fun h_eq h_red.
- exact: q_semigroup h_mul.
- have hu (u : qfield S m) : (exists v, inverse_of *%R 1 u v) <-> u != 0.
    split=> [[v [uv _]]|u0]; last by exists u^-1; split; rewrite ?mulfV ?mulVf.
    by apply: contra_eq_neq uv => ->; rewrite mul0r eq_sym oner_neq0.
  split=> /=.
  + exact: q_one h_one.
  + exact: q_isone h_isone.
  + move=> x u xu; apply: ensures_bind (is_zero_ok hcm xu) _ => b ->.
    case: eqVneq => u0.
      by apply: ensures_ret => v uv; have := (hu u).1 (ex_intro _ v uv); rewrite u0 eqxx.
    apply: ensures_bind (qf_inv xu u0) _ => y yE; apply: ensures_ret.
    by exists u^-1 => //; split; rewrite ?mulfV ?mulVf.
  + move=> x u xu; apply: ensures_mono (ensures_notM (is_zero_ok hcm xu)) _ => b ->.
    by rewrite hu.
- exact: hcm.
- exact: hab.
- by apply: unitary_default; [exact: ztimes_ok hab|exact: q_one h_one].
Qed.

Lemma QuotientField_assemble : field_alg_spec cfg p qf_rep (QuotientField cfg A modulo).
Proof.
have hR := qf_ring; have hmul := mul_ok (mo_sg_ok (ri_mon_ok hR)).
apply: field_alg_ok => //; split=> /=.
- exact: qf_inv.
- exact: qf_inv_zero.
- move=> x a y b xa yb b0; apply: ensures_bind (qf_inv yb b0) _ => i iE.
  exact: hmul.
- by move=> x a y _ y0; apply: panics_bind; exact: qf_inv_zero.
- by move=> n x a gn xa a0; apply: (default_fpower_ok hR).
- by move=> n x x0; apply: (default_fpower_zero hR).
Qed.
End AssembleField.

(** ** The quotient of any Euclidean domain *)
Section FromBase.
Variables (cfg : Cfg) (p : Prop) (E : Type) (R : idomainType) (rep : E -> R -> Prop).
Variables (AS : assoc_struct R) (S : eucl_struct R) (A : EuclAlg E).
Hypothesis hA : eucl_alg_spec cfg p rep AS S A.

Let hI := eu_idom_ok hA.
Let hR := id_ring_ok hI.
Let hD := mo_dom_ok (ri_mon_ok hR).
Let hM := mo_mo_ok (ri_mon_ok hR).
Let hC := ri_cm_ok hR.
Let hE := eu_eu_ok hA.

Section Ring.
Variables (m : modulus R) (modulo : E).
Hypothesis hm : rep modulo m.
Local Notation qrep := (@q_rep E R S m rep).

Lemma b_rem z a : rep z a -> gives p qrep (rem A z modulo) (qpi S m a).
Proof. by move=> za; exact: (rem_ok hE za hm (m_neq0 m)). Qed.

Lemma b_mul x u y v : rep x u -> rep y v ->
  gives p qrep (quotient_mul A modulo x y) (qpi S m u * qpi S m v).
Proof.
move=> xu yv; apply: ensures_bind (mul_ok (mo_sg_ok (ri_mon_ok hR)) xu yv) _ => z zE.
by rewrite -rmorphM; exact: b_rem.
Qed.
Lemma b_qmul x u y v : qrep x u -> qrep y v ->
  gives p qrep (quotient_mul A modulo x y) (u * v).
Proof. by move=> xu yv; have := b_mul xu yv; rewrite !qpiK. Qed.
Lemma b_qadd x u y v : qrep x u -> qrep y v ->
  gives p qrep (quotient_add A modulo x y) (u + v).
Proof.
move=> xu yv; apply: ensures_bind (add_ok hC xu yv) _ => z zE.
by have := b_rem zE; rewrite rmorphD /= !qpiK.
Qed.
Lemma b_qneg x u : qrep x u -> gives p qrep (quotient_neg A modulo x) (- u).
Proof.
move=> xu; apply: ensures_bind (neg_ok (ri_ab_ok hR) xu) _ => z zE.
by have := b_rem zE; rewrite rmorphN /= !qpiK.
Qed.
Lemma b_red x a : rep x a -> answers p (reduced A x modulo) (erem S a m == a).
Proof.
move=> xa; apply: ensures_mono (reduced_ok hE xa hm) _ => b ->.
by rewrite (negbTE (m_neq0 m)).
Qed.

(** [extended_gcd] followed by [try_inv] finds the inverse. *)
Lemma b_bezout x u : qrep x u ->
  ensures p (extended_gcd A modulo x) (fun gsr => exists g r,
     [/\ rep gsr.1.1 g, rep gsr.2 r, is_gcd (m : R) (qval u) g &
         qpi S m g = qpi S m r * u]).
Proof.
move=> xu; apply: ensures_mono (extended_gcd_ok hE hm xu) _.
move=> [[g s] r] [d [s' [t [[/= gd ss rt] [dE dg]]]]]; exists d, t; split=> //.
rewrite dE rmorphD !rmorphM /= qpiK.
have -> : qpi S m m = 0 by apply/qpi_eq0; exact: dvds_refl.
by rewrite mulr0 add0r.
Qed.

Lemma b_try_inv x u : qrep x u ->
  ensures p (quotient_ring_try_inv A modulo x) (fun o =>
    match o with
    | Some y => exists2 v, qrep y v & inverse_of *%R 1 u v
    | None => forall v, ~ inverse_of *%R 1 u v
    end).
Proof.
move=> xu; apply: ensures_bind (b_bezout xu) _ => -[[g s] r] [d [t [gd rt dg dE]]].
apply: ensures_bind (try_inv_ok hM gd) _ => -[a [d' ad' [dd' d'd]]|nd].
  apply: ensures_bind (b_mul ad' rt) _ => y yE; apply: ensures_ret.
  exists (qpi S m d' * qpi S m t) => //.
  have h : qpi S m d' * qpi S m t * u = 1 by rewrite -mulrA -dE -rmorphM d'd rmorph1.
  by split=> //; rewrite mulrC.
apply: ensures_ret => v uv.
have /qunitP/(gcd_coprime S dg)[d' h] : exists v, inverse_of *%R 1 u v by exists v.
by case: (nd d'); split=> //; rewrite mulrC.
Qed.

(** QuotientRing over a Euclidean domain is the quotient ring. *)
Lemma QuotientRing_ok : ring_alg_spec cfg p qrep *%R 1 (QuotientRing cfg A modulo).
Proof.
apply: QuotientRing_assemble.
- exact: dom_fun hD.
- exact: equals_ok hD.
- exact: b_red.
- exact: zero_ok hC.
- exact: one_ok hM.
- exact: is_one_ok hM.
- exact: b_qmul.
- exact: b_qadd.
- exact: b_qneg.
- exact: b_try_inv.
Qed.

(** [contains] of the quotient, on members of the base. *)
Lemma quotient_contains x a : rep x a ->
  answers p (contains (quotient_domain A modulo) x) (erem S a m == a).
Proof. exact: b_red. Qed.
End Ring.

(** [extended_gcd] finds the inverse of every non-zero class. *)
Lemma b_inv (m : irr_modulus R) modulo x (u : qfield S m) : rep modulo m ->
  qf_rep rep x u -> u != 0 ->
  ensures p (let! gsr := extended_gcd A modulo x in
             let '(g, _, r) := gsr in
             let! o := try_inv A g in
             let! a := unwrap o in
             quotient_mul A modulo a r)
    (fun y => qf_rep rep y u^-1).
Proof.
move=> hm xu u0.
apply: ensures_bind (b_bezout hm xu) _ => -[[g s] r] [d [t [gd rt dg dE]]].
have cop : coprime_to (m : R) (qval u).
  by apply: (irr_coprime S) => /(qpi_eq0 S m); rewrite qpiK => /eqP; rewrite (negbTE u0).
have [d' dd'] := (gcd_coprime S dg).2 cop.
apply: ensures_bind (try_inv_ok hM gd) _ => -[a [d2 ad2 [dd2 d2d]]|/(_ d')[]]; last first.
  by split=> //; rewrite mulrC.
rewrite bind_ret; apply: ensures_mono (b_mul hm ad2 rt) _ => y yE.
rewrite /qf_rep (_ : u^-1 = qpi S m d2 * qpi S m t) //.
apply: (mulIf u0); rewrite mulVf //.
have h : (qpi S m d2 * qpi S m t * (u : quot S m)) = 1.
  by rewrite -mulrA -dE -rmorphM d2d rmorph1.
exact: (esym h).
Qed.

(** QuotientField over a Euclidean domain and an irreducible modulus is the
    quotient field. *)
Lemma QuotientField_ok (m : irr_modulus R) modulo : rep modulo m ->
  field_alg_spec cfg p (@qf_rep E R rep S m) (QuotientField cfg A modulo).
Proof.
move=> hm; apply: QuotientField_assemble.
- exact: dom_fun hD.
- exact: equals_ok hD.
- exact: b_red.
- exact: zero_ok hC.
- exact: one_ok hM.
- exact: is_one_ok hM.
- exact: b_qmul.
- exact: b_qadd.
- exact: b_qneg.
- by move=> x u xu u0; exact: b_inv.
Qed.
End FromBase.
