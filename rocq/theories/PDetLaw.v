(** * PDetLaw.v -- matrices over a field obey the laws of DetLaw.v. *)

From Coq Require Import ZArith.
From mathcomp Require Import all_ssreflect all_algebra zify ssrZ.
From Verif Require Import Rust Traits MConstr RingTac Wp Spec RingSpec PDefaults Laws PLaws PLaws2.
From Verif Require Import MatFacts PMat PMatProps PTimesLaw DetLaw.

Set Implicit Arguments.
Unset Strict Implicit.
Unset Printing Implicit Defensive.

Import GRing.Theory.
Local Open Scope ring_scope.

Section Field.
Variables (cfg : Cfg) (p : Prop) (E : Type) (n : nat) (F : fieldType) (rep : E -> F -> Prop).
Variable A : FieldAlg E.
Hypothesis hF : field_alg_spec cfg p rep A.
Hypothesis hc : Z.le (Zpos (xO xH)) (ptr_bits cfg).
Local Notation mof := (@matrix_of n E F rep).
Local Notation R := (MatrixRing cfg A n).
Local Notation mm := (fun x => exists N, mof x N).

Let hR := MatrixRing_ok hF n hc.
Let hM := ri_mon_ok hR.
Let hC := ri_cm_ok hR.
Let hB := ri_ab_ok hR.
Let hD := mo_dom_ok hM.
Let hS := mo_sg_ok hM.
Let hO := mo_mo_ok hM.

Lemma try_inv_value x N : mof x N -> ensures p (try_inv R x) (fun o =>
  match o with
  | Some y => N \in unitmx /\ mof y (invmx N)
  | None => N \notin unitmx
  end).
Proof.
move=> xN; have [h _] := matrix_inverse hF hc xN.
apply: ensures_mono h _ => -[y [T [yT NT TN]]|//]; have [u _] := mulmx1_unit NT; split=> //.
by rewrite -[invmx N]mulmx1 -NT mulmxA mulVmx // mul1mx.
Qed.
Lemma is_one_value x N : mof x N -> answers p (is_one R x) (N == 1%:M).
Proof. by move=> xN; exact: (is_one_ok hO xN). Qed.

Lemma inverse_laws_ok : inverse_laws p R mm.
Proof.
split.
- move=> x [N xN]; have [_ h] := matrix_inverse hF hc xN.
  apply: (agree_ok h _ (erefl (N \in unitmx))).
  apply: ensures_bind (try_inv_value xN) _ => -[y [-> _]|/negbTE->]; exact: ensures_ret.
- apply: ensures_bind (one_ok hO) _ => e e1.
  apply: ensures_bind (try_inv_value e1) _ => -[y [_ yN]|]; last by rewrite unitmx1.
  by apply: (same_eq hD (gret p yN) (one_ok hO)); rewrite -[LHS]mulmx1 mulVmx // unitmx1.
- move=> x [N xN]; apply: ensures_bind (try_inv_value xN) _ => -[y [u yN]|_]; last exact: ensures_ret.
  apply: ensures_bind (try_inv_value yN) _ => -[z [_ zN]|]; last by rewrite unitmx_inv u.
  by apply: yes (equals_ok hD zN xN) _; rewrite invmxK.
- move=> x y [N xN] [T yT]; apply: ensures_bind (mul_ok hS xN yT) _ => a aN.
  apply: ensures_bind (is_one_value aN) _ => _ ->; case: eqP => [e|_]; last exact: ensures_ret.
  have [u _] := mulmx1_unit e; apply: ensures_bind (try_inv_value xN) _ => -[z [_ zN]|]; last by rewrite u.
  by apply: yes (equals_ok hD zN yT) _; rewrite -[T]mul1mx -(mulVmx u) -mulmxA e mulmx1.
- move=> x y [N xN] [T yT].
  apply: (@agree_ok _ _ _ (N *m T == 1%:M) (T *m N == 1%:M)).
  + by apply: ensures_bind (mul_ok hS xN yT) _ => a; exact: is_one_value.
  + by apply: ensures_bind (mul_ok hS yT xN) _ => a; exact: is_one_value.
  + by apply/eqP/eqP=> /mulmx1C.
- move=> x y [N xN] [T yT].
  apply: ensures_bind (try_inv_value xN) _ => oa ha.
  apply: ensures_bind (try_inv_value yT) _ => ob hb.
  apply: ensures_bind (mul_ok hS xN yT) _ => xy xyN.
  apply: ensures_bind (try_inv_value xyN) _ => oc; rewrite unitmx_mul.
  case: oa ha => [a [ua aN]|/negbTE ua]; case: ob hb => [b [ub bT]|/negbTE ub]; rewrite ua ub ?andbF;
    case: oc => [c []|] //; try by move=> *; exact: ensures_ret.
  move=> _ cN; apply: (same_eq hD (mul_ok hS bT aN) (gret p cN)).
  have uc : N *m T \in unitmx by rewrite unitmx_mul ua ub.
  by apply: (can_inj (mulKmx uc)); rewrite mulmxV // -mulmxA mulKVmx // mulmxV.
- move=> x y [N xN] [T yT].
  apply: ensures_bind (try_inv_value xN) _ => -[a [u aN]|_]; last exact: ensures_ret.
  have h1 : answers p (same R (let! z := mul R a y in mul R x z) (ret y)) true.
    have := same_eq hD _ (gret p yT) (mulKVmx u T); apply.
    by apply: gbind (mul_ok hS aN yT) _ => z; exact: (mul_ok hS).
  have h2 : answers p (same R (let! z := mul R y a in mul R z x) (ret y)) true.
    have := same_eq hD _ (gret p yT) (mulmxKV u T); apply.
    by apply: gbind (mul_ok hS yT aN) _ => z zN; exact: (mul_ok hS zN xN).
  exact: both_ok h1 h2.
- move=> x y [N xN] [T yT]; have [_ h] := matrix_inverse hF hc xN.
  apply: ensures_bind (mul_ok hS xN yT) _ => xy xyN.
  apply: (entails_ok (both_ok h (is_zero_ok hC xyN)) (is_zero_ok hC yT)).
  by case/andP=> u /eqP e; rewrite -[T]mul1mx -(mulVmx u) -mulmxA e mulmx0.
Qed.

(** ** Determinants *)
Let hA := ri_mon_ok (id_ring_ok (eu_idom_ok (fi_eucl_ok hF))).
Let aD := mo_dom_ok hA.
Let aS := mo_sg_ok hA.
Let aO := mo_mo_ok hA.
Let aC := ri_cm_ok (id_ring_ok (eu_idom_ok (fi_eucl_ok hF))).
Let aB := ri_ab_ok (id_ring_ok (eu_idom_ok (fi_eucl_ok hF))).
Local Notation det := (determinant A n).

(** The call returns [d] up to the sign. *)
Definition signed (m : M E) (d : F) : Prop :=
  ensures p m (fun z => exists b : bool, rep z ((-1) ^+ b * d)).

Lemma det_signed x N : mof x N -> signed (det x) (\det N).
Proof. by move=> xN; apply: ensures_mono (mat_determinant hF hc xN) _ => z [b zb _]; exists b. Qed.
Lemma gives_signed m d : gives p rep m d -> signed m d.
Proof. by move=> h; apply: ensures_mono h _ => z zd; exists false; rewrite mul1r. Qed.
Lemma det_bind (m : M (seq E)) N : gives p mof m N -> signed (let! a := m in det a) (\det N).
Proof. by move=> h; apply: ensures_bind h _ => a; exact: det_signed. Qed.
Lemma mul_signed x y N T : mof x N -> mof y T ->
  signed (let! a := det x in let! b := det y in mul A a b) (\det N * \det T).
Proof.
move=> xN yT; apply: ensures_bind (det_signed xN) _ => a [i ai].
apply: ensures_bind (det_signed yT) _ => b [j bj].
apply: ensures_mono (mul_ok aS ai bj) _ => z zd; exists (i (+) j).
by rewrite signr_addb mulrACA.
Qed.
Lemma alike_ok m1 m2 d1 d2 (c : bool) : signed m1 d1 -> signed m2 d2 -> d1 = (-1) ^+ c * d2 ->
  holds p (alike A m1 m2).
Proof.
move=> h1 h2 e; apply: ensures_bind h1 _ => a [i ai]; apply: ensures_bind h2 _ => b [j bj].
have h : answers p (let! c := neg A b in equals A a c)
    ((-1) ^+ i * d1 == - ((-1) ^+ j * d2)).
  by apply: ensures_bind (neg_ok aB bj) _ => k kd; exact: (equals_ok aD ai kd).
apply: yes (either_ok (equals_ok aD ai bj) h) _.
rewrite e {h ai bj e}; case: c; case: i; case: j;
  by rewrite ?expr0 ?expr1 ?mul1r ?mulN1r ?opprK ?eqxx ?orbT.
Qed.
Lemma zero_signed x N : mof x N -> answers p (let! d := det x in notM (is_zero A d)) (\det N != 0).
Proof.
move=> xN; apply: ensures_bind (det_signed xN) _ => d [b db]; apply: notM_ok.
by apply: ensures_mono (is_zero_ok aC db) _ => r ->; rewrite mulf_eq0 signr_eq0.
Qed.

Lemma determinant_laws_ok : determinant_laws p A n R mm.
Proof.
split.
- by move=> x [N xN]; apply: ensures_bind (det_signed xN) _ => d [b db]; exact: (contains_ok aD db).
- apply: (same_eq aD _ (one_ok aO) (erefl _)); apply: ensures_bind (one_ok hO) _ => e e1.
  apply: ensures_mono (matrix_determinant hF hc e1) _ => d [_ _ _]; rewrite det1; apply=> m mn _.
  suff -> : lsub mn 1%:M = 1%:M :> 'M[F]_m by rewrite det1; apply/eqP/oner_neq0.
  by apply/matrixP=> i j; rewrite !mxE.
- move=> n0; apply: (same_eq aD _ (zero_ok aC) (erefl _)); apply: ensures_bind (zero_ok hC) _ => o o0.
  apply: ensures_mono (matrix_determinant hF hc o0) _ => d [_ h _ _]; apply: h.
  by case: (n) n0 => // m _; rewrite det0.
- move=> x y [N xN] [T yT].
  by apply: (@alike_ok _ _ _ _ false (det_bind (mul_ok hS xN yT)) (mul_signed xN yT));
    rewrite mul1r det_mulmx.
- move=> x y [N xN] [T yT].
  by apply: (@alike_ok _ _ _ _ false (det_bind (mul_ok hS xN yT)) (det_bind (mul_ok hS yT xN)));
    rewrite mul1r !det_mulmx mulrC.
- move=> x [N xN].
  apply: (@alike_ok _ _ _ _ (odd n) (det_bind (neg_ok hB xN)) (det_signed xN)).
  by rewrite -scaleN1r detZ signr_odd.
- move=> x [N xN].
  by apply: (@alike_ok _ _ _ _ false (det_bind (mat_transpose p xN)) (det_signed xN)); rewrite mul1r det_tr.
- move=> x [N xN]; have [_ h] := matrix_inverse hF hc xN.
  by apply: (agree_ok h (zero_signed xN)); rewrite unitmxE unitfE.
- move=> x [N xN]; apply: ensures_bind (try_inv_value xN) _ => -[y [u yN]|u].
    apply: (@alike_ok _ _ _ _ false (mul_signed xN yN) (gives_signed (one_ok aO))).
    by rewrite mul1r -det_mulmx mulmxV // det1.
  apply: (same_eq aD _ (zero_ok aC) (erefl _)).
  apply: ensures_mono (matrix_determinant hF hc xN) _ => d [_ h _ _]; apply: h.
  by move: u; rewrite unitmxE unitfE negbK => /eqP.
- move=> h2 x y [N xN] [T yT].
  have two : 1 + 1 = 0 :> F.
    have h : answers p (let! e := one A in let! t := add A e e in is_zero A t) ((1 + 1 : F) == 0).
      apply: ensures_bind (one_ok aO) _ => e e1; apply: ensures_bind (add_ok aC e1 e1) _ => t.
      exact: (is_zero_ok aC).
    by have /esym/eqP := ensures_value h h2.
  have dd z Z : mof z Z -> gives p rep (det z) (\det Z).
    by move=> zZ; apply: ensures_mono (matrix_determinant hF hc zZ) _ => d [_ _ h _]; exact: h.
  apply: (@same_eq _ _ _ _ _ aD _ _ (\det (N *m T)) (\det N * \det T)).
  + by apply: ensures_bind (mul_ok hS xN yT) _ => a; exact: dd.
  + by apply: gbind (dd _ _ xN) _ => a aN; apply: gbind (dd _ _ yT) _ => b; exact: (mul_ok aS aN).
  + by rewrite det_mulmx.
Qed.
End Field.
