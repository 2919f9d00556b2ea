(** * PPolyProps.v -- the properties of polynomials, from PPoly.v. *)

From Coq Require Import ZArith Lia.
From mathcomp Require Import all_ssreflect all_algebra zify.
From Verif Require Import Rust Traits MInts MConstr RingTac Wp Spec PropSpec RingSpec Laws.
From Verif Require Import PDefaults PEucl PVec PPolyA PPoly PLaws PLaws2 PEuclProps.

Set Implicit Arguments.
Unset Strict Implicit.
Unset Printing Implicit Defensive.

Import GRing.Theory.
Local Open Scope ring_scope.

Section Methods.
Variables (cfg : Cfg) (p : Prop) (E : Type) (V : zmodType) (rep : E -> V -> Prop).

Lemma group_methods_ok (A : AbelianAlg E) : abelian_alg_spec cfg p rep A ->
  group_methods p rep cfg A.
Proof.
move=> [hD hC hA]; split; first exact: zero_ok hC.
split=> [x u xu|x u y v xu yv].
- split; first by split; [exact: (neg_ok hA xu)|exact: (neg_assign_ok hA xu)|
    exact: (double_ok hC xu)|exact: (contains_ok hD xu)].
  split; first exact: (is_zero_ok hC xu).
  split=> n hn; last exact: (ztimes_ok hA hn xu).
  by rewrite -(npow_mulrn u); exact: (ntimes_ok hC hn xu).
- by split; [exact: (add_ok hC xu yv)|exact: (sub_ok hA xu yv)|
    exact: (add_assign_ok hC xu yv)|exact: (sub_assign_ok hA xu yv)|exact: (equals_ok hD xu yv)].
Qed.

Lemma ring_methods_ok op e (A : RingAlg E) : ring_alg_spec cfg p rep op e A ->
  ring_methods p rep cfg op e A.
Proof.
move=> [[hD hS hM] hC hA hU]; split; first by apply: group_methods_ok; split.
split; first exact: one_ok hM.
split; first by move=> n gn; exact: (int_ok hU gn).
split=> [x u xu|x u y v xu yv].
  split; [exact: (square_ok hS xu)|exact: (is_one_ok hM xu)| |exact: (invertible_ok hM xu)].
  by apply: ensures_mono (try_inv_ok hM xu) _ => -[y [v yv [h1 h2]]|//]; exists v.
by split; [exact: (mul_ok hS xu yv)|exact: (mul_assign_ok hS xu yv)].
Qed.
End Methods.

Section Ring.
Variables (cfg : Cfg) (p : Prop) (E : Type) (R : ringType) (rep : E -> R -> Prop).
Variable A : RingAlg E.
Hypothesis hA : ring_alg_spec cfg p rep *%R 1 A.

(** Over any ring, the product has the right coefficients; it has no leading
    zeros if the product of the leading coefficients is not zero. *)
Lemma poly_mul_any v P u Q : poly_of rep v P -> poly_of rep u Q ->
  ensures p (mul (PolyRing A) v u) (fun w =>
    (exists2 r : seq R, reps rep w r & forall i, r`_i = (P * Q)`_i) /\
    (lead_coef P * lead_coef Q <> 0 -> poly_of rep w (P * Q))).
Proof.
move=> vP uQ; have hB : abelian_alg_spec cfg p rep (ring_abelian A).
  by case: hA => [[hD _ _] hC hA' _]; split.
apply: ensures_mono (poly_mul_seq hB (mo_sg_ok (ri_mon_ok hA)) vP uQ) _ => w [r [wr sr]].
rewrite !polyseqK => rE; split; first by exists r => // i; rewrite -rE coef_Poly.
move=> /eqP l0; rewrite /poly_of -rE size_Poly_eq // sr rE !size_poly_eq0.
case: (eqVneq P 0) l0 => [->|P0]; first by rewrite lead_coef0 mul0r eqxx.
case: (eqVneq Q 0) => [->|Q0]; first by rewrite lead_coef0 mulr0 eqxx.
by move=> l0; rewrite size_proper_mul // subn1.
Qed.

(** A returned inverse is one. *)
Lemma poly_try_inv_any v P : (1 : R) != 0 -> poly_of rep v P ->
  ensures p (try_inv (PolyRing A) v) (fun o => match o with
    | Some w => exists Q, [/\ poly_of rep w Q, P * Q = 1 & Q * P = 1]
    | None => True
    end).
Proof.
move=> o0 vP; rewrite /= /poly_try_inv (reps_size vP).
case: eqVneq => s1; last exact: ensures_ret.
have i0 : (0 < size P)%N by rewrite s1.
apply: ensures_bind (ensures_vget p 0 vP i0) _ => a aE.
have PE := size1_polyC (eq_leq s1).
apply: ensures_bind (try_inv_ok (mo_mo_ok (ri_mon_ok hA)) aE) _ => -[y [b yb [ab ba]]|nb];
  apply: ensures_ret => //.
exists b%:P; rewrite PE -!polyCM ab ba; split=> //.
have b0 : b != 0 by apply: contra_eq_neq ab => ->; rewrite mulr0 eq_sym oner_neq0.
by rewrite /poly_of polyseqC b0; apply: reps_cons => //; exact: reps_nil.
Qed.
End Ring.

Section IDom.
Variables (cfg : Cfg) (p : Prop) (E : Type) (R : idomainType) (rep : E -> R -> Prop).

Section RingPart.
Variable A : RingAlg E.
Hypothesis hA : ring_alg_spec cfg p rep *%R 1 A.

Lemma polynomial_methods : ring_methods p (poly_of rep) cfg *%R 1 (PolyRing A).
Proof. exact: (ring_methods_ok (PolyRing_ok hA)). Qed.

Lemma polynomial_laws : Z.le 2 (ptr_bits cfg) ->
  ring_alg_laws p (fun x => exists P, poly_of rep x P) cfg (PolyRing A) /\
  mul_commutes p (fun x => exists P, poly_of rep x P) (PolyRing A) (PolyRing A).
Proof.
move=> hc; split.
  apply: (ring_alg_laws_ok hc (fun x h => h) _ _ _ _ _ (PolyRing_ok hA)).
  - exact: mulrA.
  - exact: mul1r.
  - exact: mulr1.
  - exact: mulrDr.
  - exact: mulrDl.
have [[hD hS _] _ _ _] := PolyRing_ok hA.
exact: (mul_commutes_ok (fun x h => h) hD hS (@mulrC _)).
Qed.
End RingPart.

Section IDomPart.
Variables (S : assoc_struct R) (A : IDomAlg E).
Hypothesis hI : idom_alg_spec cfg p rep S A.

Lemma polynomial_try_div x P y U : poly_of rep x P -> poly_of rep y U ->
  (U <> 0 -> ensures p (try_div (PolyIDom A) x y) (fun o => match o with
    | Some z => exists2 Q, poly_of rep z Q & P = Q * U
    | None => ~ exists Q, P = Q * U
    end)) /\
  (U = 0 -> panics (try_div (PolyIDom A) x y)).
Proof.
move=> xP yU; split=> [/eqP U0|U0]; first exact: (poly_try_div_ok hI xP yU U0).
by apply: (poly_try_div_zero A xP); rewrite -U0.
Qed.

Lemma polynomial_divisible x P y U : poly_of rep x P -> poly_of rep y U ->
  decides p (divisible (PolyIDom A) x y) (exists Q, P = Q * U) /\
  decides p (associates (PolyIDom A) x y)
    ((exists Q, P = Q * U) /\ (exists Q, U = Q * P)).
Proof.
have h := id_id_ok (PolyIDom_ok hI) => xP yU; split; first exact: (divisible_ok h xP yU).
apply: ensures_mono (associates_ok h xP yU) _ => b [h1 h2]; split=> [/h1|] [h3 h4] //.
exact: h2.
Qed.

Lemma polynomial_associates : associates_correct p (poly_of rep) (PolyIDom A).
Proof. exact: (associates_correct_ok (id_id_ok (PolyIDom_ok hI))). Qed.

Lemma polynomial_idom_laws : Z.le 2 (ptr_bits cfg) ->
  idom_alg_laws p (fun x => exists P, poly_of rep x P) cfg (PolyIDom A).
Proof. by move=> hc; exact: (idom_alg_laws_ok hc (fun x h => h) (PolyIDom_ok hI)). Qed.
End IDomPart.
End IDom.

Section Field.
Variables (cfg : Cfg) (p : Prop) (E : Type) (F : fieldType) (rep : E -> F -> Prop).
Variable A : FieldAlg E.
Hypothesis hA : field_alg_spec cfg p rep A.

Lemma polynomial_quo_rem x P y U : poly_of rep x P -> poly_of rep y U ->
  (U <> 0 -> ensures p (quo_rem (PolyEucl A) x y) (fun z => exists Q N,
     [/\ poly_of rep z.1 Q, poly_of rep z.2 N, P = Q * U + N & (size N < size U)%N])) /\
  (U = 0 -> panics (quo_rem (PolyEucl A) x y)).
Proof.
move=> xP yU; split=> [/eqP U0|U0]; first exact: (poly_quo_rem_spec hA xP yU U0).
by apply: (poly_quo_rem_zero A xP); rewrite -U0.
Qed.

Lemma quo_rem_unique (U Q N Q' N' : {poly F}) : (size N < size U)%N -> (size N' < size U)%N ->
  Q * U + N = Q' * U + N' -> Q = Q' /\ N = N'.
Proof.
move=> hN hN' h; have U0 : U != 0 by rewrite -size_poly_gt0; case: (size U) hN.
by have := congr1 (fun P => (divp P U, modp P U)) h;
  rewrite /= !divp_addl_mul_small // !modp_addl_mul_small // => -[-> ->].
Qed.

Lemma polynomial_eucl_laws : Z.le 2 (ptr_bits cfg) ->
  eucl_alg_laws p (fun x => exists P, poly_of rep x P) cfg (PolyEucl A).
Proof. by move=> hc; exact: (eucl_alg_laws_ok hc (fun x h => h) (PolyEucl_ok hA)). Qed.

(** The remaining methods, for polynomials. *)
Lemma polynomial_gcd :
  [/\ gcd_correct p (poly_of rep) (gcd (PolyEucl A)),
      extended_gcd_correct p (poly_of rep) (extended_gcd (PolyEucl A)),
      lcm_correct p (poly_of rep) (lcm (PolyEucl A)) &
      relative_primes_correct p (poly_of rep) (relative_primes (PolyEucl A))].
Proof.
have h := eu_eu_ok (PolyEucl_ok hA).
by split; [exact: (gcd_correct_ok h)|exact: (extended_gcd_correct_ok h)|
  exact: (lcm_correct_ok h)|exact: (relative_primes_correct_ok h)].
Qed.
End Field.
