(** * PPoly.v -- PolynomialAlgebra is the polynomial ring. *)

From Coq Require Import ZArith Lia List.
From mathcomp Require Import all_ssreflect all_algebra zify.
From Verif Require Import Rust Traits MInts MConstr RingTac Wp Spec PDefaults PEucl.
From Verif Require Import PPolyA.

Set Implicit Arguments.
Unset Strict Implicit.
Unset Printing Implicit Defensive.

Import GRing.Theory.
Local Open Scope ring_scope.

(** [lia] up to convertible occurrences of [size _]. *)
Ltac slia :=
  repeat match goal with
  | H : is_true (ssrnat.leq _ _) |- _ => revert H
  | H : @eq nat _ _ |- _ => revert H
  end;
  repeat match goal with |- context [@size ?T ?s] =>
    let n := fresh "n" in
    pose (n := @size T s);
    repeat match goal with |- context [@size ?T' ?s'] =>
      change (@size T' s') with n end;
    clearbody n
  end; lia.

(** The vector lists the coefficients of the polynomial, up to the leading one. *)
Definition poly_rep (E : Type) (R : ringType) (rep : E -> R -> Prop) (v : seq E)
    (P : {poly R}) : Prop := reps rep v (polyseq P).

(** ** Lists of coefficients *)
Section Coefs.
Variable R : ringType.
Implicit Types (s t r : seq R) (P Q : {poly R}).

Lemma polyseq_canon P : canon (polyseq P).
Proof.
rewrite /canon; case: eqVneq => //= s0; have := lead_coef_eq0 P.
by rewrite -size_poly_eq0 (negbTE s0) /lead_coef => ->.
Qed.

Lemma canon_Poly s : canon s -> polyseq (Poly s) = s.
Proof. by move=> cs; apply: canon_uniq => // [|i]; [exact: polyseq_canon|rewrite coef_Poly]. Qed.

Lemma size_Poly_eq r : size r = size (Poly r) -> polyseq (Poly r) = r.
Proof. by move=> h; apply: (@eq_from_nth _ 0) => // i _; rewrite coef_Poly. Qed.

Lemma Poly_set_nth r k a : (k < size r)%N ->
  Poly (set_nth 0 r k (r`_k + a)) = Poly r + a *: 'X^k.
Proof.
move=> kr; apply/polyP => i; rewrite coefD coefZ coefXn !coef_Poly nth_set_nth /=.
by case: eqVneq => [->|_]; rewrite ?mulr1 ?mulr0 ?addr0.
Qed.

Lemma Poly_takeS t j : (j < size t)%N ->
  Poly (take j.+1 t) = Poly (take j t) + t`_j *: 'X^j.
Proof.
move=> jt; apply/polyP => i; rewrite coefD coefZ coefXn !coef_Poly !nth_take_full ltnS.
by case: ltngtP => [|| ->]; rewrite ?mulr1 ?mulr0 ?addr0 ?add0r.
Qed.

Lemma scale_mul (a b : R) i j : (a *: 'X^i) * (b *: 'X^j) = (a * b) *: 'X^(i + j).
Proof.
rewrite -!mul_polyC -!mulrA exprD polyCM -!mulrA; congr (_ * _).
by rewrite !mulrA; congr (_ * _); rewrite commr_polyXn.
Qed.

Lemma Poly_nseq0 n : Poly (nseq n 0) = 0 :> {poly R}.
Proof. by apply/polyP => i; rewrite coef_Poly coef0 nth_nseq; case: ifP. Qed.
End Coefs.

(** ** Multiplication over any ring *)
Section Ring.
Variables (cfg : Cfg) (p : Prop) (E : Type) (R : ringType) (rep : E -> R -> Prop).
Variables (A : AbelianAlg E) (S : Semigroup E).
Hypotheses (hA : abelian_alg_spec cfg p rep A) (hS : semigroup_spec p rep *%R S).
Let hC := ab_cm_ok hA.

Lemma poly_mul_seq v s u t : reps rep v s -> reps rep u t ->
  ensures p (poly_mul A S v u) (fun w => exists r, [/\ reps rep w r,
    size r = (if (size s == 0%N) || (size t == 0%N) then 0%N else size s + size t - 1)%N &
    Poly r = Poly s * Poly t]).
Proof.
move=> vs ut; rewrite /poly_mul (reps_size vs) (reps_size ut).
case: ifP => [/orP h|/norP[s0 t0]].
  apply: ensures_ret; exists [::]; split=> //.
  by case: h => /eqP/size0nil ->; rewrite ?mul0r ?mulr0.
apply: ensures_bind (zero_ok hC) _ => z zE.
set N := (size s + size t - 1)%N.
pose I i acc := exists r, [/\ reps rep acc r, size r = N &
  Poly r = Poly (take i s) * Poly t].
apply: ensures_mono (@ensures_for _ p 0 (size s) _ _ I _ _) _.
- exists (nseq N 0); split; last by rewrite Poly_nseq0 take0 mul0r.
  + by rewrite /vresize /= subn0; exact: reps_nseq.
  + by rewrite size_nseq.
- move=> i acc /andP[_ ilt] [r [ar sr rE]].
  pose J j acc := exists r, [/\ reps rep acc r, size r = N &
    Poly r = Poly (take i s) * Poly t + (s`_i *: 'X^i) * Poly (take j t)].
  apply: ensures_mono (@ensures_for _ p 0 (size t) _ _ J _ _) _.
  + by exists r; rewrite take0 mulr0 addr0.
  + move=> j acc' /andP[_ jlt] [r' [ar' sr' rE']].
    apply: ensures_bind (ensures_vget p 0 vs ilt) _ => x xE.
    apply: ensures_bind (ensures_vget p 0 ut jlt) _ => y yE.
    apply: ensures_bind (mul_ok hS xE yE) _ => a aE.
    have ij : (i + j < size r')%N by rewrite sr' /N; lia.
    apply: ensures_bind (ensures_vget p 0 ar' ij) _ => c cE.
    apply: ensures_bind (add_ok hC cE aE) _ => d dE.
    apply: ensures_mono (ensures_vset p 0 ar' dE ij) _ => w wE.
    exists (set_nth 0 r' (i + j) (r'`_(i + j) + s`_i * t`_j)); split=> //.
      by rewrite size_set_nth; move: ij; rewrite sr' => ij; apply/maxn_idPr.
    by rewrite Poly_set_nth // rE' Poly_takeS // mulrDr addrA scale_mul.
  + move=> w [r' [wr sr' rE']]; exists r'; split=> //.
    by rewrite rE' add0n take_size Poly_takeS // mulrDl.
- by move=> w [r [wr sr rE]]; exists r; split=> //; rewrite rE add0n take_size.
Qed.
End Ring.

(** ** The ring of polynomials over an integral domain *)
Section IDom.
Variables (cfg : Cfg) (p : Prop) (E : Type) (R : idomainType) (rep : E -> R -> Prop).

Section RingPart.
Variable A : RingAlg E.
Hypothesis hA : ring_alg_spec cfg p rep *%R 1 A.
Let hM := mo_mo_ok (ri_mon_ok hA).
Let hS := mo_sg_ok (ri_mon_ok hA).
Let hC := ri_cm_ok hA.
Local Notation prep := (@poly_rep E R rep).
Implicit Types (P Q : {poly R}).

Lemma ring_abelian_ok : abelian_alg_spec cfg p rep (ring_abelian A).
Proof. by split; [exact: mo_dom_ok (ri_mon_ok hA)|exact: hC|exact: ri_ab_ok hA]. Qed.

Lemma poly_additive : abelian_alg_spec cfg p prep (PolyAbelian A).
Proof.
apply: (pab_alg ring_abelian_ok (cf := @polyseq R)).
- exact: polyseq_canon.
- exact: poly_inj.
- exact: polyseq0.
- by move=> a b i; rewrite coefD.
- by move=> a i; rewrite coefN.
Qed.

Lemma poly_mul_ok x P y Q : prep x P -> prep y Q -> gives p prep (poly_mul A A x y) (P * Q).
Proof.
move=> xP yQ.
apply: ensures_mono (poly_mul_seq ring_abelian_ok hS xP yQ) _ => w [r [wr sr]].
rewrite !polyseqK => rE; rewrite /poly_rep -rE size_Poly_eq //.
rewrite sr rE !size_poly_eq0; case: (eqVneq P 0) => [->|P0] /=; first by rewrite mul0r size_poly0.
case: (eqVneq Q 0) => [->|Q0] /=; first by rewrite mulr0 size_poly0.
by rewrite size_mul // subn1.
Qed.

Lemma poly_one_ok : gives p prep (poly_one A A) 1.
Proof.
apply: ensures_bind (one_ok hM) _ => o oE.
apply: ensures_bind (is_zero_ok hC oE) _ => b ->; rewrite oner_eq0 /= bind_ret.
apply: ensures_bind (one_ok hM) _ => o' o'E; apply: ensures_ret.
by rewrite /poly_rep polyseq1; apply: reps_cons => //; exact: reps_nil.
Qed.

(** A constant polynomial is a list of at most one element. *)
Lemma poly_size1 P : size P = 1%N -> polyseq P = [:: P`_0].
Proof. by case: (polyseq P) => [|a [|]]. Qed.

Lemma poly_is_one_ok x P : prep x P -> answers p (poly_is_one A x) (P == 1).
Proof.
move=> xP; rewrite /poly_is_one (reps_size xP).
case: eqVneq => s1; last first.
  by apply: ensures_ret; apply/esym/negP => /eqP P1; rewrite P1 size_poly1 in s1.
have i0 : (0 < size P)%N by rewrite s1.
apply: ensures_bind (ensures_vget p 0 xP i0) _ => a aE.
apply: ensures_mono (is_one_ok hM aE) _ => b ->.
rewrite [in RHS](size1_polyC (eq_leq s1)) -polyC1; apply/eqP/eqP => [->//|].
exact: polyC_inj.
Qed.

Lemma poly_unit_size P Q : P * Q = 1 -> size P = 1%N.
Proof.
move=> PQ; have P0 : P != 0 by apply: contra_eq_neq PQ => ->; rewrite mul0r eq_sym oner_neq0.
have Q0 : Q != 0 by apply: contra_eq_neq PQ => ->; rewrite mulr0 eq_sym oner_neq0.
have := size_mul P0 Q0; rewrite PQ size_poly1.
by move: P0 Q0; rewrite -!size_poly_gt0; lia.
Qed.

Lemma poly_try_inv_ok x P : prep x P ->
  ensures p (poly_try_inv A x) (fun o => match o with
    | Some y => exists2 Q, prep y Q & inverse_of *%R 1 P Q
    | None => forall Q, ~ inverse_of *%R 1 P Q
    end).
Proof.
move=> xP; rewrite /poly_try_inv (reps_size xP).
case: eqVneq => s1; last first.
  by apply: ensures_ret => Q [/poly_unit_size h _]; rewrite h eqxx in s1.
have i0 : (0 < size P)%N by rewrite s1.
apply: ensures_bind (ensures_vget p 0 xP i0) _ => a aE.
have PE := size1_polyC (eq_leq s1).
apply: ensures_bind (try_inv_ok hM aE) _ => -[y [b yb [ab ba]]|nb]; apply: ensures_ret.
  exists b%:P; last by rewrite PE; split; rewrite -polyCM ?ab ?ba.
  have b0 : b != 0 by apply: contra_eq_neq ab => ->; rewrite mulr0 eq_sym oner_neq0.
  by rewrite /poly_rep polyseqC b0; apply: reps_cons => //; exact: reps_nil.
move=> Q [PQ _]; apply: (nb Q`_0); have := congr1 (fun P => P`_0) PQ.
by rewrite {1}PE coefCM coef1 => h; split=> //; rewrite mulrC.
Qed.

Lemma PolyRing_ok : ring_alg_spec cfg p prep *%R 1 (PolyRing A).
Proof.
have [hD' hC' hA'] := poly_additive.
split=> //; first split=> //.
- by apply: semigroup_default; exact: poly_mul_ok.
- split=> /=.
  + exact: poly_one_ok.
  + exact: poly_is_one_ok.
  + exact: poly_try_inv_ok.
  + by move=> x P xP; apply: default_invertible_ok; exact: poly_try_inv_ok.
- by apply: unitary_default; [exact: ztimes_ok hA'|exact: poly_one_ok].
Qed.
End RingPart.

(** *** Long division *)
Section Division.
Variable A : RingAlg E.
Hypothesis hA : ring_alg_spec cfg p rep *%R 1 A.
Let hM := mo_mo_ok (ri_mon_ok hA).
Let hS := mo_sg_ok (ri_mon_ok hA).
Let hC := ri_cm_ok hA.
Local Notation prep := (@poly_rep E R rep).
Implicit Types (P Q U D : {poly R}) (s t r q : seq R).

Lemma Poly_take_set K r k (a : R) : (k < K)%N ->
  Poly (take K (set_nth 0 r k (r`_k + a))) = Poly (take K r) + a *: 'X^k.
Proof.
move=> kK; apply/polyP => i; rewrite coefD coefZ coefXn !coef_Poly !nth_take_full.
rewrite nth_set_nth /=; case: eqVneq => [->|_]; first by rewrite kK mulr1.
by rewrite mulr0 addr0.
Qed.

(** The inner loop subtracts [c X^i u] without its leading term from the
    remainder. *)
Lemma div_inner (ad : E -> E -> M E) u t rm r i b (c : R) :
  (forall x u y v, rep x u -> rep y v -> gives p rep (ad x y) (u + v)) ->
  reps rep u t -> reps rep rm r -> rep b (- c) ->
  (0 < size t)%N -> (i + size t - 1 <= size r)%N ->
  ensures p (for_loop 0 (size t - 1) (fun j rem =>
      let! y := vget u j in
      let! c := mul A y b in
      let! d := vget rem (i + j) in
      let! d := ad d c in
      vset rem (i + j) d) rm)
    (fun rm' => exists r', [/\ reps rep rm' r', size r' = size r &
      Poly (take (i + size t - 1) r') =
      Poly (take (i + size t - 1) r) - (c *: 'X^i) * Poly (take (size t - 1) t)]).
Proof.
move=> had ut rr bc t0 ir; set K := (i + size t - 1)%N.
pose J j rm' := exists r', [/\ reps rep rm' r', size r' = size r &
  Poly (take K r') = Poly (take K r) - (c *: 'X^i) * Poly (take j t)].
apply: (@ensures_for _ p 0 (size t - 1) _ rm J).
  by exists r; rewrite take0 mulr0 subr0.
move=> j rm' /andP[_ jt] [r' [rr' sr' rE']].
have jt' : (j < size t)%N by slia.
apply: ensures_bind (ensures_vget p 0 ut jt') _ => y yE.
apply: ensures_bind (mul_ok hS yE bc) _ => d dE.
have ij : (i + j < size r')%N by rewrite sr'; slia.
apply: ensures_bind (ensures_vget p 0 rr' ij) _ => e eE.
apply: ensures_bind (had _ _ _ _ eE dE) _ => f fE.
apply: ensures_mono (ensures_vset p 0 rr' fE ij) _ => w wE.
exists (set_nth 0 r' (i + j) (r'`_(i + j) + t`_j * - c)); split=> //.
  by rewrite size_set_nth sr'; apply/maxn_idPr; rewrite -sr'.
rewrite Poly_take_set; last by rewrite /K; slia.
rewrite rE' Poly_takeS // mulrDr opprD addrA scale_mul; congr (_ + _).
by rewrite mulrN mulrC scaleNr.
Qed.

(** The loop invariant: [P = q U + rem], and [q] has no terms below [X^i]. *)
Definition div_inv P U (k : nat) (i : nat) (qr : seq E * seq E) : Prop :=
  exists q r, [/\ reps rep qr.1 q, reps rep qr.2 r, size q = k, size r = size P &
    (forall j, (j < i)%N -> q`_j = 0) /\
    P = Poly q * U + Poly (take (i + size U - 1) r)].

Lemma div_start P U x z : prep x P -> rep z 0 -> (size U <= size P)%N -> U != 0 ->
  div_inv P U (size P - size U + 1) (size P - size U + 1)
    (vresize [::] (size P - size U + 1) z, x).
Proof.
move=> xP z0 UP; rewrite -size_poly_gt0 => U0; exists (nseq (size P - size U + 1) 0), P; split=> //.
- by rewrite /vresize /= subn0; exact: reps_nseq.
- by rewrite size_nseq.
- split=> [j _|]; first by rewrite nth_nseq; case: ifP.
  by rewrite Poly_nseq0 mul0r add0r take_oversize ?polyseqK //; slia.
Qed.

(** One step of the division, for any way to divide the leading coefficients. *)
Lemma div_step T P U k i (u qq0 rm : seq E) (x : seq E * seq E -> T) (c d : R) (z : E) (ad : E -> E -> M E) :
  (forall x u y v, rep x u -> rep y v -> gives p rep (ad x y) (u + v)) ->
  prep u U -> U != 0 -> (i < k)%N -> (i + size U <= size P)%N ->
  div_inv P U k i.+1 (qq0, rm) -> rep z c ->
  c * lead_coef U = d ->
  (forall r, reps rep rm r -> r`_(i + size U - 1) = d) ->
  ensures p (let! quo := vset qq0 i z in
     let! b := neg A z in
     let! rem := for_loop 0 (size U - 1) (fun j rem =>
          let! y := vget u j in
          let! c := mul A y b in
          let! d := vget rem (i + j) in
          let! d := ad d c in
          vset rem (i + j) d) rm in
     ret (x (quo, rem))) (fun y => exists2 qr, y = x qr & div_inv P U k i qr).
Proof.
move=> had uU U0 ik iP [q' [r [/= qq rr sq sr [q0 PE]]]] zc cd hr.
have Us : (0 < size U)%N by rewrite size_poly_gt0.
have iq : (i < size q')%N by rewrite sq.
apply: ensures_bind (ensures_vset p 0 qq zc iq) _ => qn qnE.
apply: ensures_bind (neg_ok (ri_ab_ok hA) zc) _ => b bE.
have ir : (i + size U - 1 <= size r)%N by rewrite sr; slia.
apply: ensures_bind (div_inner had uU rr bE Us ir) _ => rm' [r' [rr' sr' rE']].
apply: ensures_ret; exists (qn, rm') => //.
exists (set_nth 0 q' i c), r'; split=> //.
- by rewrite size_set_nth sq; apply/maxn_idPr.
- by rewrite sr' sr.
- split=> [j ji|].
    by rewrite nth_set_nth /= ifN ?q0 ?ltnS 1?ltnW // neq_ltn ji.
  rewrite rE' PE (_ : i.+1 + size U - 1 = (i + size U - 1).+1)%N; last by slia.
  rewrite Poly_takeS; last by rewrite sr; slia.
  have qE : Poly (set_nth 0 q' i c) = Poly q' + c *: 'X^i.
    by rewrite -[RHS]Poly_set_nth // q0 // add0r.
  rewrite (hr r rr) -cd qE mulrDl -!addrA; congr (_ + _).
  have UE : U = Poly (take (size U - 1) U) + lead_coef U *: 'X^(size U - 1).
    rewrite /lead_coef -subn1 -Poly_takeS ?subn1 ?ltn_predL // prednK //.
    by rewrite take_oversize ?polyseqK.
  rewrite [X in _ = _ * X + _]UE mulrDr scale_mul addnBA // [LHS]addrC [RHS]addrC.
  by rewrite [RHS]addrA subrK addrC.
Qed.

Lemma div_coef P U k i (q rm : seq E) : U != 0 -> (i + size U <= size P)%N ->
  div_inv P U k i.+1 (q, rm) ->
  ensures p (vget rm (i + size U - 1)) (fun x => exists2 d, rep x d &
    (forall r, reps rep rm r -> r`_(i + size U - 1) = d) /\
    (dvds U P -> dvds (lead_coef U) d)).
Proof.
move=> U0 iP [q' [r [/= qq rr sq sr [q0 PE]]]].
have Us : (0 < size U)%N by rewrite size_poly_gt0.
have ir : (i + size U - 1 < size r)%N by rewrite sr; slia.
apply: ensures_mono (ensures_vget p 0 rr ir) _ => x xE.
exists r`_(i + size U - 1) => //; split.
  by move=> r' rr'; rewrite (reps_fun (dom_fun (mo_dom_ok (ri_mon_ok hA))) rr rr').
move=> [D DE]; set N := Poly (take (i.+1 + size U - 1) r).
have NE : N = (D - Poly q') * U.
  by apply: (@addrI _ (Poly q' * U)); rewrite -PE DE mulrBl addrC subrK.
have <- : N`_(i + size U - 1) = r`_(i + size U - 1).
  by rewrite coef_Poly nth_take //; slia.
have sN : (size N <= i + size U)%N.
  apply: leq_trans (size_Poly _) _; rewrite size_take; case: ltnP => ?; slia.
case: (ltnP (size N) (i + size U)) => h.
  rewrite nth_default; first exact: dvds0.
  by slia.
exists (lead_coef (D - Poly q')); rewrite -lead_coefM -NE /lead_coef; congr (_`__).
by slia.
Qed.

Lemma div_end P U k qr : U != 0 -> (size U <= size P)%N -> k = (size P - size U + 1)%N ->
  div_inv P U k 0 qr ->
  exists Q r, [/\ prep qr.1 Q, reps rep qr.2 r, size r = size P &
    P = Q * U + Poly (take (size U - 1) r)].
Proof.
move=> U0 UP kE [q [r [/= qq rr sq sr [_ PE]]]]; rewrite add0n in PE.
exists (Poly q), r; split=> //; rewrite /poly_rep size_Poly_eq // sq kE.
have Us : (0 < size U)%N by rewrite size_poly_gt0.
have sN : (size (Poly (take (size U - 1) r)) < size U)%N.
  apply: leq_ltn_trans (size_Poly _) _; rewrite size_take; case: (ltnP (size U - 1) (size r)) => ?; slia.
have sQ : size (Poly q * U) = size P.
  rewrite -[Poly q * U](addrK (Poly (take (size U - 1) r))) -PE size_addl //.
  by rewrite size_opp; exact: leq_trans UP.
have Q0 : Poly q != 0.
  by apply: contra_ltnN sN => /eqP q0; move: sQ; rewrite q0 mul0r size_poly0 => h; move: UP; rewrite -h leqn0; slia.
by rewrite -sQ size_mul //; move: Q0; rewrite -size_poly_gt0; slia.
Qed.

Lemma all0_Poly s : all (fun a => a == 0) s -> Poly s = 0.
Proof.
move=> /(all_nthP 0) h; apply/polyP => i; rewrite coef_Poly coef0.
case: (ltnP i (size s)) => [ilt|si]; last exact: nth_default.
exact/eqP/h.
Qed.

Lemma Poly0_all s : Poly s = 0 -> all (fun a => a == 0) s.
Proof.
move=> h; apply/(all_nthP 0) => i _; rewrite -coef_Poly h coef0.
by rewrite eqxx.
Qed.
End Division.

(** *** Exact division *)
Section IDomPart.
Variables (A : IDomAlg E) (S : assoc_struct R).
Hypothesis hI : idom_alg_spec cfg p rep S A.
Let hA := id_ring_ok hI.
Let hC := ri_cm_ok hA.
Local Notation prep := (@poly_rep E R rep).
Implicit Types (P Q U : {poly R}).

Lemma poly_lead x P : prep x P -> P != 0 ->
  ensures p (vget x (size P - 1)) (fun a => rep a (lead_coef P)).
Proof.
rewrite -size_poly_gt0 => xP P0; rewrite /lead_coef -subn1; apply: ensures_vget xP _.
by slia.
Qed.

Lemma poly_try_div_ok x P y U : prep x P -> prep y U -> U != 0 ->
  ensures p (poly_try_div A x y) (fun o => match o with
    | Some z => exists2 Q, prep z Q & P = Q * U
    | None => ~ dvds U P
    end).
Proof.
move=> xP yU U0; rewrite /poly_try_div (reps_size xP) (reps_size yU).
apply: ensures_assert_bind; first by rewrite size_poly_eq0.
case: ifP => szc.
  case: ifP => [/eqP P0|P0]; apply: ensures_ret.
    have P0' : P = 0 by apply/eqP; rewrite -size_poly_eq0 P0.
    by exists 0; rewrite ?mul0r // /poly_rep polyseq0; exact: reps_nil.
  move=> [D DE]; move: szc P0; rewrite DE.
  have [->|D0] := eqVneq D 0; first by rewrite mul0r size_poly0 eqxx.
  by rewrite size_mul // => h _; move: h D0; rewrite -size_poly_gt0; slia.
have UP : (size U <= size P)%N by rewrite leqNgt szc.
apply: ensures_bind (zero_ok hC) _ => z zE.
apply: ensures_bind (poly_lead yU U0) _ => a aE.
apply: ensures_bind (is_zero_ok hC aE) _ => b ->.
apply: ensures_assert_bind; first by rewrite lead_coef_eq0.
set k := (size P - size U + 1)%N.
have -> : size (vresize [::] k z) = k by rewrite /vresize /= subn0 size_nseq.
have start := div_start xP zE UP U0; rewrite -/k in start.
have Us : (0 < size U)%N by rewrite size_poly_gt0.
apply: ensures_bind
  (@ensures_for_rev_ret _ p _ k _ _ (div_inv P U k) (fun o => o = None /\ ~ dvds U P) start _) _.
  move=> i [q rm] ik inv.
  have iP : (i + size U <= size P)%N by move: ik; rewrite /k; slia.
  apply: ensures_bind (div_coef hA U0 iP inv) _ => d [dv dE [dfun ddvd]].
  have lU0 : lead_coef U != 0 by rewrite lead_coef_eq0.
  apply: ensures_bind (try_div_ok (id_id_ok hI) dE aE lU0) _ => -[w [c wc cE]|nd]; last first.
    by apply: ensures_ret; split=> // /ddvd.
  apply: ensures_mono (div_step hA inl (add_assign_ok hC) yU U0 ik iP inv wc (esym cE) dfun) _.
  by move=> _ [qr -> h].
move=> [[qo rm]|o /= [-> nd]]; last exact: ensures_ret.
move=> inv; have [Q [r [/= qQ rr sr PE]]] := div_end U0 UP erefl inv.
apply: ensures_bind (ensures_allM (P := fun a => a == 0) (reps_take _ rr) (is_zero_ok hC)) _ => b' ->.
case: ifP => h; apply: ensures_ret.
  by exists Q => //; rewrite {1}PE (all0_Poly h) addr0.
move=> [D DE]; move/negP: h; apply; apply: Poly0_all.
set N := Poly _ in PE *; have NE : N = (D - Q) * U.
  by rewrite mulrBl -DE {1}PE addrC addKr.
apply/eqP/negPn/negP => N0.
have DQ : D - Q != 0 by apply: contraNneq N0 => h; rewrite NE h mul0r.
have := size_mul DQ U0; rewrite -NE.
have : (size N <= size U - 1)%N.
  apply: leq_trans (size_Poly _) _; rewrite size_take.
  by case: (ltnP (size U - 1) (size r)).
by move: DQ; rewrite -size_poly_gt0; slia.
Qed.

Lemma poly_try_div_zero x P y : prep x P -> prep y 0 -> panics (poly_try_div A x y).
Proof.
move=> xP y0; rewrite /poly_try_div (reps_size y0) size_poly0.
exact: panics_assert_bind.
Qed.

(** Representatives of associates: the leading coefficient is normalised. *)
Definition poly_acoef P : {poly R} := (acoef S (lead_coef P))%:P.

Lemma poly_acoef_unit P : P != 0 -> poly_acoef P \is a GRing.unit.
Proof.
move=> P0; rewrite poly_unitE size_polyC coefC eqxx.
have U := acoef_unit S (a := lead_coef P); rewrite lead_coef_eq0 in U.
have := U P0; case: (eqVneq (acoef S (lead_coef P)) 0) => [->|_ ->//].
by rewrite unitr0.
Qed.

Lemma poly_acoef_mul U P : U \is a GRing.unit -> P != 0 ->
  poly_acoef (U * P) * U = poly_acoef P.
Proof.
rewrite poly_unitE => /andP[/eqP sU U0] P0.
rewrite /poly_acoef {2}(size1_polyC (eq_leq sU)) lead_coefM -polyCM; congr _%:P.
have -> : lead_coef U = U`_0 by rewrite /lead_coef sU.
by rewrite acoef_mul // lead_coef_eq0.
Qed.

Lemma poly_acoef1 : poly_acoef 1 = 1.
Proof. by rewrite /poly_acoef lead_coef1 acoef1. Qed.

Definition poly_assoc : assoc_struct (poly_idomainType R) :=
  @AssocStruct (poly_idomainType R) poly_acoef poly_acoef_unit poly_acoef_mul poly_acoef1.

Lemma poly_associate_repr_ok x P : prep x P ->
  gives p prep (poly_associate_repr A x) (arep poly_assoc P).
Proof.
move=> xP; rewrite /poly_associate_repr (reps_size xP) size_poly_eq0 /arep.
case: eqVneq => P0.
  by apply: ensures_ret; rewrite /poly_rep polyseq0; exact: reps_nil.
apply: ensures_bind (poly_lead xP P0) _ => a aE.
have lP0 : lead_coef P != 0 by rewrite lead_coef_eq0.
apply: ensures_bind (associate_coef_ok (id_id_ok hI) aE lP0) _ => c cE.
have hm y u : rep y u -> ensures p (mul A y c) (fun z => rep z (u * acoef S (lead_coef P))).
  by move=> yu; exact: (mul_ok (mo_sg_ok (ri_mon_ok hA)) yu cE).
apply: ensures_mono (ensures_mapM (g := fun u => u * acoef S (lead_coef P)) xP hm) _ => w.
rewrite /poly_rep /= /poly_acoef mul_polyC.
have c0 : acoef S (lead_coef P) != 0.
  by apply: contraTneq (acoef_unit S lP0) => ->; rewrite unitr0.
have -> : polyseq (acoef S (lead_coef P) *: P) = [seq u * acoef S (lead_coef P) | u <- P].
  apply: (@eq_from_nth _ 0) => [|i]; rewrite size_scale ?size_map //.
  by move=> iP; rewrite coefZ (nth_map 0) // mulrC.
by [].
Qed.

Lemma poly_associate_coef_ok x P : prep x P -> P != 0 ->
  gives p prep (poly_associate_coef A x) (acoef poly_assoc P).
Proof.
move=> xP P0; rewrite /poly_associate_coef (reps_size xP).
apply: ensures_assert_bind; first by rewrite size_poly_eq0.
apply: ensures_bind (poly_lead xP P0) _ => a aE.
have lP0 : lead_coef P != 0 by rewrite lead_coef_eq0.
apply: ensures_bind (associate_coef_ok (id_id_ok hI) aE lP0) _ => c cE.
apply: ensures_ret; rewrite /poly_rep /= /poly_acoef polyseqC.
have -> : acoef S (lead_coef P) != 0.
  by apply: contraTneq (acoef_unit S lP0) => ->; rewrite unitr0.
by apply: reps_cons => //; exact: reps_nil.
Qed.

Lemma PolyIDom_ok : idom_alg_spec cfg p (R := poly_idomainType R) prep poly_assoc (PolyIDom A).
Proof.
have hR := PolyRing_ok hA.
have hD x P y U : prep x P -> prep y U -> decides p
    (default_divisible (is_zero (poly_cmonoid A)) (poly_try_div A) x y) (dvds U P).
  move=> xP yU; apply: (default_divisible_ok _ _ xP yU).
    exact: is_zero_ok (ri_cm_ok hR).
  by move=> U0; exact: (poly_try_div_ok xP yU U0).
split=> //; split=> /=.
- exact: poly_try_div_ok.
- by move=> x P y xP y0; exact: poly_try_div_zero xP y0.
- exact: hD.
- by move=> x P y Q xP yQ; apply: default_associates_ok xP yQ.
- exact: poly_associate_repr_ok.
- exact: poly_associate_coef_ok.
- move=> x x0; rewrite /poly_associate_coef (reps_size x0) size_poly0.
  exact: panics_assert_bind.
Qed.
End IDomPart.
End IDom.

(** ** Euclidean division over a field *)
Section FieldPart.
Variables (cfg : Cfg) (p : Prop) (E : Type) (F : fieldType) (rep : E -> F -> Prop).
Variable A : FieldAlg E.
Hypothesis hF : field_alg_spec cfg p rep A.
Let hI := eu_idom_ok (fi_eucl_ok hF).
Let hA := id_ring_ok hI.
Let hC := ri_cm_ok hA.
Local Notation prep := (@poly_rep E F rep).
Implicit Types (P Q U : {poly F}).

Lemma poly_trim_ok rm (r : seq F) i : reps rep rm r -> (i <= size r)%N ->
  ensures p (poly_trim_index A rm i) (fun j =>
    polyseq (Poly (take i r)) = take j r).
Proof.
move=> rr ir.
pose I j := (j <= i)%N /\ Poly (take j r) = Poly (take i r).
apply: (@ensures_while _ p _ _ I _ id i) => // j [ji jE]; case: ifP => j0; last first.
  apply: ensures_ret; have j0' : j = 0%N by slia.
  by rewrite -jE j0' take0 polyseq0.
have jr : (j - 1 < size r)%N by slia.
apply: ensures_bind (ensures_vget p 0 rr jr) _ => a aE.
apply: ensures_mono (is_zero_ok hC aE) _ => b ->; case: eqVneq => rj.
  apply: ensures_ret; split; last by slia.
  split; first by slia.
  rewrite -jE -[in RHS](subnK j0) addn1 Poly_takeS // rj scale0r addr0.
  by [].
rewrite -jE canon_Poly // /canon size_take.
have -> : (if (j < size r)%N then j else size r) = j by case: (ltnP j (size r)) => // ?; slia.
by rewrite -subn1 nth_take ?subn1 ?ltn_predL // -subn1 rj orbT.
Qed.

Lemma poly_quo_rem_spec x P y U : prep x P -> prep y U -> U != 0 ->
  ensures p (poly_quo_rem A x y) (fun z => exists Q N,
    [/\ prep z.1 Q, prep z.2 N, P = Q * U + N & (size N < size U)%N]).
Proof.
move=> xP yU U0; rewrite /poly_quo_rem (reps_size xP) (reps_size yU).
apply: ensures_assert_bind; first by rewrite size_poly_eq0.
case: ifP => szc.
  apply: ensures_ret; exists 0, P; split=> //.
    by rewrite /poly_rep polyseq0; exact: reps_nil.
  by rewrite mul0r add0r.
have UP : (size U <= size P)%N by rewrite leqNgt szc.
apply: ensures_bind (zero_ok hC) _ => z zE.
apply: ensures_bind (@poly_lead p _ _ rep _ _ yU U0) _ => a aE.
apply: ensures_bind (is_zero_ok hC aE) _ => b ->.
apply: ensures_assert_bind; first by rewrite lead_coef_eq0.
set k := (size P - size U + 1)%N.
have -> : size (vresize [::] k z) = k by rewrite /vresize /= subn0 size_nseq.
have start := div_start xP zE UP U0; rewrite -/k in start.
have Us : (0 < size U)%N by rewrite size_poly_gt0.
apply: ensures_bind (@ensures_for_rev _ p k _ _ (div_inv rep P U k) start _) _.
  move=> i [q rm] ik inv.
  have iP : (i + size U <= size P)%N by move: ik; rewrite /k; slia.
  apply: ensures_bind (div_coef hA U0 iP inv) _ => d [dv dE [dfun ddvd]].
  have lU0 : lead_coef U != 0 by rewrite lead_coef_eq0.
  apply: ensures_bind (fdiv_ok (fi_fi_ok hF) dE aE lU0) _ => w wE.
  apply: ensures_mono (div_step hA id (add_ok hC) yU U0 ik iP inv wE (divfK lU0 _) dfun) _.
  by move=> _ [qr -> h].
move=> [qo rm] inv; have [Q [r [/= qQ rr sr PE]]] := div_end U0 UP erefl inv.
have ir : (size U - 1 <= size r)%N by rewrite sr; slia.
apply: ensures_bind (poly_trim_ok rr ir) _ => j jE; apply: ensures_ret.
exists Q, (Poly (take (size U - 1) r)); split=> //.
  by rewrite /poly_rep jE; exact: reps_take.
apply: leq_ltn_trans (size_Poly _) _; rewrite size_take.
case: (ltnP (size U - 1) (size r)) => ?; slia.
Qed.

Lemma poly_e_div (P U : {poly F}) : U != 0 -> P = divp P U * U + modp P U.
Proof. by move=> _; exact: divp_eq. Qed.
Lemma poly_e_norm (P U : {poly F}) : U != 0 -> modp P U != 0 -> (size (modp P U) < size U)%N.
Proof. by move=> U0 _; rewrite ltn_modp. Qed.
Lemma poly_e_canon (P U Q : {poly F}) : U != 0 -> modp (P + Q * U) U = modp P U.
Proof. by move=> _; rewrite modpD modp_mull addr0. Qed.
Lemma poly_e_rem0 (U : {poly F}) : U != 0 -> modp 0 U = 0 :> {poly F}.
Proof. by move=> _; exact: mod0p. Qed.
Lemma poly_e_rem1 (U : {poly F}) : U != 0 -> U \isn't a GRing.unit -> modp 1 U = 1 :> {poly F}.
Proof.
move=> U0; rewrite poly_unitE unitfE => nu; rewrite modp_small // size_poly1 ltn_neqAle.
rewrite size_poly_gt0 U0 andbT; apply: contraNneq nu => s1.
by rewrite -s1 eqxx /=; move: U0; rewrite {1}(size1_polyC (eq_leq (esym s1))) polyC_eq0.
Qed.
(** Division with remainder of polynomials over a field. *)
Definition poly_estruct : eucl_struct (poly_idomainType F) :=
  @EuclStruct (poly_idomainType F) (fun P U => divp P U) (fun P U => modp P U)
    (fun P => size (P : {poly F})) poly_e_div poly_e_norm poly_e_canon poly_e_rem0 poly_e_rem1.

Lemma poly_quo_rem_ok x P y U : prep x P -> prep y U -> U != 0 ->
  ensures p (poly_quo_rem A x y) (fun z => prep z.1 (divp P U) /\ prep z.2 (modp P U)).
Proof.
move=> xP yU U0; apply: ensures_mono (poly_quo_rem_spec xP yU U0) _.
move=> z [Q [N [zQ zN -> sN]]]; rewrite divp_addl_mul_small // modp_addl_mul_small //.
Qed.

Lemma poly_quo_rem_zero x P y : prep x P -> prep y 0 -> panics (poly_quo_rem A x y).
Proof.
move=> xP y0; rewrite /poly_quo_rem (reps_size y0) size_poly0.
exact: panics_assert_bind.
Qed.

Lemma PolyEucl_ok : eucl_alg_spec cfg p (R := poly_idomainType F) prep
  (poly_assoc (field_assoc F)) poly_estruct (PolyEucl A).
Proof.
have hR := PolyIDom_ok hI.
have hz := is_zero_ok (ri_cm_ok (id_ring_ok hR)).
split=> //.
apply: (eucl_default (S := poly_estruct) hz hR).
- exact: poly_quo_rem_ok.
- exact: poly_quo_rem_zero.
- move=> x P y U xP yU; apply: (default_reduced_ok (S := poly_estruct) hz _ xP yU).
  by move=> U0; exact: (default_quo_ok (S := poly_estruct) poly_quo_rem_ok xP yU U0).
Qed.
End FieldPart.

(** ** Degree, leading coefficient, membership *)
Section Degree.
Variables (cfg : Cfg) (p : Prop) (E : Type) (R : idomainType) (rep : E -> R -> Prop).

Lemma poly_degree_ok x (P : {poly R}) : poly_rep rep x P ->
  poly_degree x = if P == 0 then None else Some (size P).-1.
Proof. by move=> xP; rewrite /poly_degree (reps_size xP) size_poly_eq0 subn1. Qed.

Lemma poly_leading_coef_ok x (P : {poly R}) : poly_rep rep x P ->
  ensures p (poly_leading_coef x) (fun o => match o with
    | None => P = 0
    | Some a => P <> 0 /\ rep a (lead_coef P)
    end).
Proof.
move=> xP; rewrite /poly_leading_coef (reps_size xP) size_poly_eq0.
case: eqVneq => P0; first exact: ensures_ret.
by apply: ensures_bind (poly_lead p xP P0) _ => a aE; apply: ensures_ret; split=> //; exact/eqP.
Qed.

Lemma PolyRing_contains (A : RingAlg E) : ring_alg_spec cfg p rep *%R 1 A ->
  contains_exact p rep A -> contains_exact p (@poly_rep E R rep) (PolyRing A).
Proof.
move=> hA hc v; apply: ensures_mono (PolyAbelian_contains (ring_abelian_ok hA) hc v) _.
move=> b hb; split=> [/hb[s vs]|[P vP]].
  by exists (Poly (fsval s)); rewrite /poly_rep (canon_Poly (fsvalP s)).
by apply/hb; exists (Fsupp (polyseq_canon P)).
Qed.
End Degree.
