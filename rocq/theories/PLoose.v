(** * PLoose.v -- polynomials with superfluous leading zeros. *)

From Coq Require Import ZArith Lia List.
From mathcomp Require Import all_ssreflect all_algebra zify.
From Verif Require Import Rust Traits MInts MConstr RingTac Wp Spec RingSpec PDefaults PEucl.
From Verif Require Import PPolyA PPoly RustFacts LooseSpec.

Set Implicit Arguments.
Unset Strict Implicit.
Unset Printing Implicit Defensive.

Import GRing.Theory.
Local Open Scope ring_scope.

Lemma npow_add_mulrn (V : zmodType) (u : V) n : npow +%R 0 u n = u *+ n.
Proof. by elim: n => //= n ->; rewrite mulrS. Qed.

(** ** Lists of coefficients *)
Section Coefs.
Variable R : ringType.
Implicit Types (s t r : seq R) (P Q : {poly R}).

Lemma size_Poly_le s : (size (Poly s) <= size s)%N.
Proof. exact: size_Poly. Qed.
Lemma Poly_pad s : polyseq (Poly s) ++ nseq (size s - size (Poly s)) 0 = s.
Proof.
have h := size_Poly_le s.
apply: (@eq_from_nth _ 0) => [|i]; first by rewrite size_cat size_nseq subnKC.
rewrite size_cat size_nseq subnKC // => hi; rewrite nth_cat nth_nseq.
case: ltnP => h1; first by rewrite coef_Poly.
have -> : (if (i - size (Poly s) < size s - size (Poly s))%N then 0 else 0) = 0 :> R by case: ifP.
by rewrite -coef_Poly nth_default.
Qed.
Lemma Poly_cat0 s n : Poly (s ++ nseq n 0) = Poly s.
Proof.
apply/polyP => i; rewrite !coef_Poly nth_cat nth_nseq; case: ltnP => // h.
by rewrite [RHS]nth_default //; case: ifP.
Qed.
Lemma canon_pad P n : canon (polyseq P ++ nseq n 0) = (n == 0%N).
Proof.
case: n => [|n]; first by rewrite cats0 polyseq_canon.
by rewrite -addn1 nseqD catA cats1 canon_last eqxx addn1.
Qed.
Lemma canon_eq s : canon s -> polyseq (Poly s) = s.
Proof. exact: canon_Poly. Qed.
Lemma pad_eq P m Q n : (polyseq P ++ nseq m 0 == polyseq Q ++ nseq n 0) = (m == n) && (P == Q).
Proof.
apply/eqP/andP => [h|[/eqP -> /eqP -> //]].
have PQ : P = Q by rewrite -[P]polyseqK -[Q]polyseqK -(Poly_cat0 _ m) h Poly_cat0.
split; last exact/eqP; move/(congr1 size): h; rewrite PQ !size_cat !size_nseq => h.
by apply/eqP; move: h; slia.
Qed.
End Coefs.

(** ** The additive methods on arbitrary vectors *)
Section Additive.
Variables (cfg : Cfg) (p : Prop) (E : Type) (V : zmodType) (rep : E -> V -> Prop).
Variable A : AbelianAlg E.
Hypothesis hA : abelian_alg_spec cfg p rep A.
Let hC := ab_cm_ok hA.
Implicit Types (v u : seq E) (s t r : seq V).

Lemma poly_add_any v s u t : reps rep v s -> reps rep u t ->
  ensures p (poly_add A v u) (fun w => exists r, [/\ reps rep w r,
    (if size s == size t then canon r else size r == maxn (size s) (size t)) &
    forall i, r`_i = s`_i + t`_i]).
Proof.
move=> vs ut; rewrite /poly_add (reps_size vs) (reps_size ut).
case: eqVneq => [sz|sz] /=; last first.
  have main v' s' u' t' : reps rep v' s' -> reps rep u' t' -> (size t' < size s')%N ->
    ensures p (for_loop 0 (size u') (fun i acc =>
      let! x := vget acc i in
      let! y := vget u' i in
      let! a := add A x y in
      vset acc i a) v') (fun w => exists r,
    [/\ reps rep w r, size r = size s' & forall i, r`_i = s'`_i + t'`_i]).
    move=> vs' ut' lt; rewrite (reps_size ut').
    pose I i acc := exists r, [/\ reps rep acc r, size r = size s' &
      forall j, r`_j = s'`_j + (if (j < i)%N then t'`_j else 0)].
    apply: ensures_mono (@ensures_for _ p 0 (size t') _ v' I _ _) _.
    - by exists s'; split=> // j; rewrite addr0.
    - move=> i acc /andP[_ ilt] [r [ar sr rE]].
      have ir : (i < size r)%N by rewrite sr; exact: ltn_trans lt.
      apply: ensures_bind (ensures_vget p 0 ar ir) _ => x xE.
      apply: ensures_bind (ensures_vget p 0 ut' ilt) _ => y yE.
      apply: ensures_bind (add_ok hC xE yE) _ => a aE.
      apply: ensures_mono (ensures_vset p 0 ar aE ir) _ => w wE.
      exists (set_nth 0 r i (r`_i + t'`_i)); split=> //.
        by rewrite size_set_nth sr; apply/maxn_idPr; exact: ltn_trans lt.
      move=> j; rewrite nth_set_nth /= ltnS; case: eqVneq => [->|ji].
        by rewrite leqnn rE ltnn addr0.
      by rewrite rE ltn_neqAle ji /=.
    move=> w [r [wr sr rE]]; exists r; split=> //.
    move=> i; rewrite rE add0n; case: ltnP => // h.
    by rewrite [t'`_i]nth_default.
  case: ltnP => h.
    apply: ensures_mono (main _ _ _ _ vs ut h) _ => w [r [wr sr rE]]; exists r; split=> //.
    by rewrite sr.
  have lt : (size s < size t)%N by rewrite ltn_neqAle sz.
  apply: ensures_mono (main _ _ _ _ ut vs lt) _ => w [r [wr cr rE]].
  exists r; split=> // [|i]; last by rewrite rE addrC.
  by rewrite cr.
pose I i acc := exists r, [/\ reps rep acc r, canon r, (size r <= i)%N &
  forall j, (j < i)%N -> r`_j = s`_j + t`_j].
apply: ensures_mono (@ensures_for _ p 0 (size s) _ [::] I _ _) _.
- by exists [::]; split=> //; exact: reps_nil.
- move=> i acc /andP[_ ilt] [r [ar cr sr rE]].
  apply: ensures_bind (ensures_vget p 0 vs ilt) _ => x xE.
  rewrite add0n sz in ilt.
  apply: ensures_bind (ensures_vget p 0 ut ilt) _ => y yE.
  apply: ensures_bind (add_ok hC xE yE) _ => a aE.
  apply: ensures_bind (is_zero_ok hC aE) _ => b ->; case: eqVneq => a0 /=.
    apply: ensures_ret; exists r; split=> //; first exact: leq_trans sr _.
    move=> j; rewrite ltnS leq_eqVlt => /orP[/eqP ->|]; last exact: rE.
    by rewrite a0 nth_default.
  apply: ensures_bind (zero_ok hC) _ => z zE.
  have := reps_vresize i.+1 ar zE; rewrite (vresize_up _ (leq_trans sr (leqnSn i))).
  set r' := _ ++ _ => hr.
  have szi : size r' = i.+1 by rewrite size_cat size_nseq subnKC // leqW.
  have ii : (i < size r')%N by rewrite szi.
  apply: ensures_mono (ensures_vset p 0 hr aE ii) _ => w wE.
  have hn j : r'`_j = r`_j.
    rewrite nth_cat; case: ltnP => // h; rewrite [r`_j]nth_default // nth_nseq.
    by case: ifP.
  exists (set_nth 0 r' i (s`_i + t`_i)).
  have sz2 : size (set_nth 0 r' i (s`_i + t`_i)) = i.+1.
    by rewrite size_set_nth szi maxnn.
  split=> //.
  + by rewrite /canon sz2 /= nth_set_nth /= eqxx.
  + by rewrite sz2.
  + move=> j; rewrite ltnS leq_eqVlt nth_set_nth /= hn.
    by case: eqVneq => [->|_ /=] // => /rE.
move=> w [r [wr cr sr rE]]; exists r; split=> // i.
case: (ltnP i (size s)) => h; first exact: rE.
rewrite !nth_default ?addr0 // -?sz //; exact: leq_trans sr _.
Qed.
End Additive.

(** ** The methods of a ring *)
Section Ring.
Variables (cfg : Cfg) (p : Prop) (E : Type) (R : ringType) (rep : E -> R -> Prop).
Variable A : RingAlg E.
Hypothesis hA : ring_alg_spec cfg p rep *%R 1 A.
Implicit Types (v u : seq E) (P Q : {poly R}).
Let hB : abelian_alg_spec cfg p rep (ring_abelian A).
Proof. by case: hA => [[hD _ _] hC hA' _]; split. Qed.
Let hS := mo_sg_ok (ri_mon_ok hA).
Let hM := mo_mo_ok (ri_mon_ok hA).

Lemma looseP v P : loose rep v P <-> exists2 s, reps rep v s & P = Poly s.
Proof.
split=> [[n h]|[s h ->]].
  by exists (polyseq P ++ nseq n 0) => //; rewrite Poly_cat0 polyseqK.
by exists (size s - size (Poly s))%N; rewrite /padded Poly_pad.
Qed.
Lemma padded_loose n v P : padded rep n v P -> loose rep v P.
Proof. by move=> h; exists n. Qed.
Lemma poly_of_padded v P : poly_of rep v P <-> padded rep 0 v P.
Proof. by rewrite /padded cats0. Qed.

Lemma loose_add v P u Q : loose rep v P -> loose rep u Q ->
  ensures p (poly_add A v u) (fun w =>
      if size v == size u then poly_of rep w (P + Q)
      else size w = maxn (size v) (size u) /\ loose rep w (P + Q)).
Proof.
move=> /looseP[s vs ->] /looseP[t ut ->]; rewrite (reps_size vs) (reps_size ut).
apply: ensures_mono (poly_add_any hB vs ut) _ => w [r [wr hr rE]].
have PE : Poly s + Poly t = Poly r by apply/polyP => i; rewrite coefD !coef_Poly rE.
case: ifP hr => _ hr; first by rewrite /poly_of PE canon_Poly.
by split; [rewrite (reps_size wr); exact/eqP|apply/looseP; exists r].
Qed.
Lemma loose_add_weak v P u Q : loose rep v P -> loose rep u Q ->
  ensures p (poly_add A v u) (fun w => loose rep w (P + Q)).
Proof.
move=> h1 h2; apply: ensures_mono (loose_add h1 h2) _ => w.
by case: ifP => _ => [/poly_of_padded/padded_loose|[]].
Qed.
Lemma loose_neg n v P : padded rep n v P ->
  ensures p (poly_neg A v) (fun w => padded rep n w (- P)).
Proof.
move=> h; apply: ensures_mono (poly_neg_ok hB h) _ => w wr.
rewrite /padded; suff <- : map -%R (polyseq P ++ nseq n 0) = polyseq (- P) ++ nseq n 0 by [].
apply: (@eq_from_nth _ 0) => [|i]; first by rewrite size_map !size_cat size_opp.
move=> _; rewrite nth_mapN !nth_cat size_opp coefN; case: ifP => // _.
by rewrite nth_nseq; case: ifP; rewrite oppr0.
Qed.
Lemma loose_sub v P u Q : loose rep v P -> loose rep u Q ->
  ensures p (default_sub (poly_neg A) (default_add_assign (poly_add A)) v u) (fun w =>
      if size v == size u then poly_of rep w (P - Q)
      else size w = maxn (size v) (size u) /\ loose rep w (P - Q)).
Proof.
move=> hv [n hu]; apply: ensures_bind (loose_neg hu) _ => u' hu'.
have su : size u' = size u by rewrite (reps_size hu) (reps_size hu') !size_cat size_opp.
apply: ensures_mono (loose_add (padded_loose hu') hv) _ => w.
by rewrite su eq_sym maxnC addrC.
Qed.
Lemma loose_sub_assign v P u Q : loose rep v P -> loose rep u Q ->
  ensures p (default_sub_assign (poly_neg A) (default_add_assign (poly_add A)) v u) (fun w =>
      if size v == size u then poly_of rep w (P - Q)
      else size w = maxn (size v) (size u) /\ loose rep w (P - Q)).
Proof.
move=> hv [n hu]; apply: ensures_bind (loose_neg hu) _ => u' hu'.
have su : size u' = size u by rewrite (reps_size hu) (reps_size hu') !size_cat size_opp.
by apply: ensures_mono (loose_add hv (padded_loose hu')) _ => w; rewrite su.
Qed.

Lemma loose_ring_ok : loose_ring rep cfg p (PolyRing A).
Proof.
split=> //.
- exact: loose_add.
- exact: loose_sub.
- exact: loose_sub_assign.
- by move=> v P h; apply: ensures_mono (loose_add h h) _ => w; rewrite eqxx.
- exact: loose_neg.
- move=> v P u Q /looseP[s vs ->] /looseP[t ut ->].
  apply: ensures_mono (poly_mul_seq hB hS vs ut) _ => w [r [wr sr rE]].
  by rewrite (reps_size wr) (reps_size vs) (reps_size ut); split=> //; apply/looseP; exists r.
- move=> n v P n0 h; rewrite -npow_add_mulrn.
  apply: (@default_ntimes_ok p _ _ (loose rep) +%R 0) => //.
  + exact: addrA.
  + exact: add0r.
  + exact: addr0.
  + exact: loose_add_weak.
  + by move=> x u hx; apply: loose_add_weak.
  + by apply: ensures_ret; exists 0%N; rewrite /padded polyseq0; constructor.
- move=> n v P gn /looseP[s vs ->].
  apply: ensures_mono (poly_ztimes_ok hB gn vs) _ => w [r [wr cr rE]].
  rewrite -/(zmul (Poly s) n).
  suff -> : zmul (Poly s) n = Poly r by rewrite /poly_of canon_Poly.
  apply/polyP => i; rewrite coef_Poly rE -[s`_i]coef_Poly; case: (n) => [|k|k] /=.
  + by rewrite coef0.

  + by rewrite coefMn.
  + by rewrite coefN coefMn.
Qed.

Lemma loose_questions_ok : loose_questions rep p (PolyRing A).
Proof.
have inv n v P : padded rep n v P -> (0 < n)%N -> ensures p (try_inv (PolyRing A) v) (fun o => o = None).
  move=> h n0; rewrite /= /poly_try_inv (reps_size h).
  case: eqVneq => s1; last exact: ensures_ret.
  have i0 : (0 < size (polyseq P ++ nseq n 0%R))%N by rewrite s1.
  apply: ensures_bind (ensures_vget p 0 h i0) _ => a.
  have -> : (polyseq P ++ nseq n 0)`_0 = 0.
    have sP : size P = 0%N by move: s1 n0; rewrite size_cat size_nseq; slia.
    by rewrite nth_cat sP nth_nseq; case: ifP.
  move=> aE; apply: ensures_bind (try_inv_ok hM aE) _ => -[y [b _ []]|_]; last exact: ensures_ret.
  by move/eqP; rewrite mul0r eq_sym oner_eq0.
split=> //.
- by move=> n v P h; rewrite -(canon_pad P n); exact: (poly_contains_ok hB h).
- by move=> m v P n u Q hv hu; rewrite -pad_eq; exact: (poly_equals_ok hB hv hu).
- move=> n v P h; apply: ensures_ret; rewrite (reps_size h) size_cat size_nseq addn_eq0.
  by rewrite andbC size_poly_eq0.
- move=> n v P h; rewrite /= /poly_is_one (reps_size h); case: eqVneq => s1; last first.
    apply: ensures_ret; apply/esym/andP => -[/eqP n0 /eqP P1].
    by rewrite n0 P1 cats0 size_poly1 in s1.
  have i0 : (0 < size (polyseq P ++ nseq n 0%R))%N by rewrite s1.
  apply: ensures_bind (ensures_vget p 0 h i0) _ => a aE.
  apply: ensures_mono (is_one_ok hM aE) _ => b ->.
  case: n {h i0} s1 aE => [|n]; rewrite ?cats0.
    by move=> s1 _; rewrite /= [in RHS](size1_polyC (eq_leq s1)) -[1 in RHS]polyC1 (inj_eq (@polyC_inj R)).
  move=> s1 _; rewrite /=; have sP : size P = 0%N by move: s1; rewrite size_cat size_nseq; slia.
  by rewrite nth_cat sP /= eq_sym oner_eq0.
- move=> n v P h n0; rewrite /= /default_invertible; apply: ensures_bind (inv _ _ _ h n0) _.
  by move=> _ ->; apply: ensures_ret.
Qed.
End Ring.

(** ** Division *)
Section IDom.
Variables (cfg : Cfg) (p : Prop) (E : Type) (R : idomainType) (rep : E -> R -> Prop).

Section Division.
Variable A : RingAlg E.
Hypothesis hA : ring_alg_spec cfg p rep *%R 1 A.
Let hM := mo_mo_ok (ri_mon_ok hA).
Let hS := mo_sg_ok (ri_mon_ok hA).
Let hC := ri_cm_ok hA.
Local Notation prep := (@poly_rep E R rep).
Implicit Types (P Q U D : {poly R}) (s t r q : seq R).

(** The invariant of PPoly.v for a dividend of any length [l]. *)
Definition ldiv_inv l P U (k : nat) (i : nat) (qr : seq E * seq E) : Prop :=
  exists q r, [/\ reps rep qr.1 q, reps rep qr.2 r, size q = k, size r = l &
    (forall j, (j < i)%N -> q`_j = 0) /\
    P = Poly q * U + Poly (take (i + size U - 1) r)].

Lemma ldiv_start s U x z : reps rep x s -> rep z 0 -> (size U <= size s)%N -> U != 0 ->
  ldiv_inv (size s) (Poly s) U (size s - size U + 1) (size s - size U + 1)
    (vresize [::] (size s - size U + 1) z, x).
Proof.
move=> xP z0 UP; rewrite -size_poly_gt0 => U0; exists (nseq (size s - size U + 1) 0), s; split=> //.
- by rewrite /vresize /= subn0; exact: reps_nseq.
- by rewrite size_nseq.
- split=> [j _|]; first by rewrite nth_nseq; case: ifP.
  by rewrite Poly_nseq0 mul0r add0r take_oversize //; slia.
Qed.

Lemma ldiv_step T l P U k i (u qq0 rm : seq E) (x : seq E * seq E -> T) (c d : R) (z : E) (ad : E -> E -> M E) :
  (forall x u y v, rep x u -> rep y v -> gives p rep (ad x y) (u + v)) ->
  prep u U -> U != 0 -> (i < k)%N -> (i + size U <= l)%N ->
  ldiv_inv l P U k i.+1 (qq0, rm) -> rep z c ->
  c * lead_coef U = d ->
  (forall r, reps rep rm r -> r`_(i + size U - 1) = d) ->
  ensures p (let! quo := vset qq0 i z in
     let! b := neg A z in
     let! rem := for_loop 0 (size U - 1) (fun j rem =>
          let! y := vget u j in
          let! c := mul A y b in
          let! d := vget rem (i + j) in
          let! d := ad d c in
          vset rem (i + j) d) rm in
     ret (x (quo, rem))) (fun y => exists2 qr, y = x qr & ldiv_inv l P U k i qr).
Proof.
move=> had uU U0 ik iP [q' [r [/= qq rr sq sr [q0 PE]]]] zc cd hr.
have Us : (0 < size U)%N by rewrite size_poly_gt0.
have iq : (i < size q')%N by rewrite sq.
apply: ensures_bind (ensures_vset p 0 qq zc iq) _ => qn qnE.
apply: ensures_bind (neg_ok (ri_ab_ok hA) zc) _ => b bE.
have ir : (i + size U - 1 <= size r)%N by rewrite sr; slia.
apply: ensures_bind (div_inner hA had uU rr bE Us ir) _ => rm' [r' [rr' sr' rE']].
apply: ensures_ret; exists (qn, rm') => //.
exists (set_nth 0 q' i c), r'; split=> //.
- by rewrite size_set_nth sq; apply/maxn_idPr.
- by rewrite sr' sr.
- split=> [j ji|].
    by rewrite nth_set_nth /= ifN ?q0 ?ltnS 1?ltnW // neq_ltn ji.
  rewrite rE' PE (_ : i.+1 + size U - 1 = (i + size U - 1).+1)%N; last by slia.
  rewrite Poly_takeS; last by rewrite sr; slia.
  have qE : Poly (set_nth 0 q' i c) = Poly q' + c *: 'X^i.
    by rewrite -[RHS]Poly_set_nth // q0 // add0r.
  rewrite (hr r rr) -cd qE mulrDl -!addrA; congr (_ + _).
  have UE : U = Poly (take (size U - 1) U) + lead_coef U *: 'X^(size U - 1).
    rewrite /lead_coef -subn1 -Poly_takeS ?subn1 ?ltn_predL // prednK //.
    by rewrite take_oversize ?polyseqK.
  rewrite [X in _ = _ * X + _]UE mulrDr scale_mul addnBA // [LHS]addrC [RHS]addrC.
  by rewrite [RHS]addrA subrK addrC.
Qed.

Lemma ldiv_coef l P U k i (q rm : seq E) : U != 0 -> (i + size U <= l)%N ->
  ldiv_inv l P U k i.+1 (q, rm) ->
  ensures p (vget rm (i + size U - 1)) (fun x => exists2 d, rep x d &
    (forall r, reps rep rm r -> r`_(i + size U - 1) = d) /\
    (dvds U P -> dvds (lead_coef U) d)).
Proof.
move=> U0 iP [q' [r [/= qq rr sq sr [q0 PE]]]].
have Us : (0 < size U)%N by rewrite size_poly_gt0.
have ir : (i + size U - 1 < size r)%N by rewrite sr; slia.
apply: ensures_mono (ensures_vget p 0 rr ir) _ => x xE.
exists r`_(i + size U - 1) => //; split.
  by move=> r' rr'; rewrite (reps_fun (dom_fun (mo_dom_ok (ri_mon_ok hA))) rr rr').
move=> [D DE]; set N := Poly (take (i.+1 + size U - 1) r).
have NE : N = (D - Poly q') * U.
  by apply: (@addrI _ (Poly q' * U)); rewrite -PE DE mulrBl addrC subrK.
have <- : N`_(i + size U - 1) = r`_(i + size U - 1).
  by rewrite coef_Poly nth_take //; slia.
have sN : (size N <= i + size U)%N.
  apply: leq_trans (size_Poly _) _; rewrite size_take; case: ltnP => ?; slia.
case: (ltnP (size N) (i + size U)) => h.
  rewrite nth_default; first exact: dvds0.
  by slia.
exists (lead_coef (D - Poly q')); rewrite -lead_coefM -NE /lead_coef; congr (_`__).
by slia.
Qed.
End Division.

Variables (A : IDomAlg E) (S : assoc_struct R).
Hypothesis hI : idom_alg_spec cfg p rep S A.
Let hA := id_ring_ok hI.
Let hC := ri_cm_ok hA.

(** A divisor without superfluous zeros. *)
Lemma loose_try_div x P y U : loose rep x P -> poly_of rep y U -> U != 0 ->
  (size y <= size x)%N ->
  ensures p (try_div (PolyIDom A) x y) (fun o => match o with
    | Some z => exists2 Q, loose rep z Q & P = Q * U
    | None => ~ dvds U P
    end).
Proof.
case/looseP=> s xP PE0 yU U0; rewrite /= /poly_try_div (reps_size xP) (reps_size yU) => Us'.
apply: ensures_assert_bind; first by rewrite size_poly_eq0.
rewrite ltnNge Us' /=.
apply: ensures_bind (zero_ok hC) _ => z zE.
apply: ensures_bind (@poly_lead p _ _ rep _ _ yU U0) _ => a aE.
apply: ensures_bind (is_zero_ok hC aE) _ => b ->.
apply: ensures_assert_bind; first by rewrite lead_coef_eq0.
set k := (size s - size U + 1)%N.
have -> : size (vresize [::] k z) = k by rewrite /vresize /= subn0 size_nseq.
have start := ldiv_start xP zE Us' U0; rewrite -/k -PE0 in start.
have Us : (0 < size U)%N by rewrite size_poly_gt0.
apply: ensures_bind
  (@ensures_for_rev_ret _ p _ k _ _ (ldiv_inv (size s) P U k) (fun o => o = None /\ ~ dvds U P) start _) _.
  move=> i [q rm] ik inv.
  have iP : (i + size U <= size s)%N by move: ik; rewrite /k; slia.
  apply: ensures_bind (ldiv_coef hA U0 iP inv) _ => d [dv dE [dfun ddvd]].
  have lU0 : lead_coef U != 0 by rewrite lead_coef_eq0.
  apply: ensures_bind (try_div_ok (id_id_ok hI) dE aE lU0) _ => -[w [c wc cE]|nd]; last first.
    by apply: ensures_ret; split=> // /ddvd.
  apply: ensures_mono (ldiv_step hA inl (add_assign_ok hC) yU U0 ik iP inv wc (esym cE) dfun) _.
  by move=> _ [qr -> h].
move=> [[qo rm]|o /= [-> nd]]; last exact: ensures_ret.
move=> [q [r [/= qq rr sq sr [_ PE]]]]; rewrite add0n in PE.
apply: ensures_bind (ensures_allM (P := fun a => a == 0) (reps_take _ rr) (is_zero_ok hC)) _ => b' ->.
case: ifP => h; apply: ensures_ret.
  by exists (Poly q); [apply/looseP; exists q|rewrite {1}PE (all0_Poly h) addr0].
move=> [D DE]; move/negP: h; apply; apply: Poly0_all.
set N := Poly (take _ r) in PE *; have NE : N = (D - Poly q) * U.
  by rewrite mulrBl -DE {1}PE addrC addKr.
apply/eqP/negPn/negP => N0.
have DQ : D - Poly q != 0 by apply: contraNneq N0 => h; rewrite NE h mul0r.
have := size_mul DQ U0; rewrite -NE.
have : (size N <= size U - 1)%N.
  apply: leq_trans (size_Poly _) _; rewrite size_take.
  by case: (ltnP (size U - 1) (size r)).
by move: DQ; rewrite -size_poly_gt0; slia.
Qed.

Lemma try_div_shorter (x y : seq E) : (size x < size y)%N ->
  returns (try_div (PolyIDom A) x y) (if size x == 0%N then Some [::] else None).
Proof.
move=> h; exists 0%N => k _; rewrite /= /poly_try_div /bind /assert.
by rewrite h (_ : size y == 0%N = false); [case: ifP|case: (size y) h].
Qed.

(** The last entry of a vector with superfluous zeros. *)
Lemma padded_last n y U : padded rep n y U -> (0 < n)%N ->
  ensures p (vget y (size y - 1)) (fun a => rep a 0).
Proof.
move=> h n0; rewrite (reps_size h) size_cat size_nseq.
have hi : (size U + n - 1 < size (polyseq U ++ nseq n 0%R))%N.
  by rewrite size_cat size_nseq; slia.
apply: ensures_mono (ensures_vget p 0 h hi) _ => a; rewrite nth_cat nth_nseq.
by rewrite ltnNge (_ : (size U <= size U + n - 1)%N) /=; [case: ifP|slia].
Qed.
Lemma loose_try_div_panics x n y U : padded rep n y U -> (0 < n)%N -> (size y <= size x)%N ->
  panics (try_div (PolyIDom A) x y).
Proof.
move=> h n0 s; rewrite /= /poly_try_div ltnNge s /=.
have y0 : ~~ (size y == 0%N).
  by rewrite (reps_size h) size_cat size_nseq; case: (n) n0 => // m _; rewrite addnS.
rewrite y0; apply: panics_bind2 (returns_ret tt) _.
apply: panics_ensures (zero_ok hC) _ => z zE.
apply: panics_ensures (padded_last h n0) _ => a aE.
apply: panics_ensures (is_zero_ok hC aE) _ => b ->; rewrite eqxx.
exact: panics_assert_bind.
Qed.
End IDom.

(** ** Division with remainder, gcd *)
Section FieldPart.
Variables (cfg : Cfg) (p : Prop) (E : Type) (F : fieldType) (rep : E -> F -> Prop).
Variable A : FieldAlg E.
Hypothesis hF : field_alg_spec cfg p rep A.
Let hI := eu_idom_ok (fi_eucl_ok hF).
Let hA := id_ring_ok hI.
Let hC := ri_cm_ok hA.
Implicit Types (P Q U : {poly F}).

Lemma quo_rem_shorter (x y : seq E) : (size x < size y)%N ->
  returns (quo_rem (PolyEucl A) x y) ([::], x).
Proof.
move=> h; exists 0%N => k _; rewrite /= /poly_quo_rem /bind /assert.
by rewrite h (_ : size y == 0%N = false) //; case: (size y) h.
Qed.

Lemma loose_quo_rem x P y U : loose rep x P -> poly_of rep y U -> U != 0 ->
  (size y <= size x)%N ->
  ensures p (quo_rem (PolyEucl A) x y) (fun z =>
    loose rep z.1 (divp P U) /\ poly_of rep z.2 (modp P U)).
Proof.
case/looseP=> s xP PE0 yU U0; rewrite /= /poly_quo_rem (reps_size xP) (reps_size yU) => Us'.
apply: ensures_assert_bind; first by rewrite size_poly_eq0.
rewrite ltnNge Us' /=.
apply: ensures_bind (zero_ok hC) _ => z zE.
apply: ensures_bind (@poly_lead p _ _ rep _ _ yU U0) _ => a aE.
apply: ensures_bind (is_zero_ok hC aE) _ => b ->.
apply: ensures_assert_bind; first by rewrite lead_coef_eq0.
set k := (size s - size U + 1)%N.
have -> : size (vresize [::] k z) = k by rewrite /vresize /= subn0 size_nseq.
have start := ldiv_start xP zE Us' U0; rewrite -/k -PE0 in start.
have Us : (0 < size U)%N by rewrite size_poly_gt0.
apply: ensures_bind (@ensures_for_rev _ p k _ _ (ldiv_inv rep (size s) P U k) start _) _.
  move=> i [q rm] ik inv.
  have iP : (i + size U <= size s)%N by move: ik; rewrite /k; slia.
  apply: ensures_bind (ldiv_coef hA U0 iP inv) _ => d [dv dE [dfun ddvd]].
  have lU0 : lead_coef U != 0 by rewrite lead_coef_eq0.
  apply: ensures_bind (fdiv_ok (fi_fi_ok hF) dE aE lU0) _ => w wE.
  apply: ensures_mono (ldiv_step hA id (add_ok hC) yU U0 ik iP inv wE (divfK lU0 _) dfun) _.
  by move=> _ [qr -> h].
move=> [qo rm] [q [r [/= qq rr sq sr [_ PE]]]]; rewrite add0n in PE.
have ir : (size U - 1 <= size r)%N by rewrite sr; slia.
apply: ensures_bind (poly_trim_ok hF rr ir) _ => j jE; apply: ensures_ret.
set N := Poly (take (size U - 1) r) in PE jE.
have sN : (size N < size U)%N.
  apply: leq_ltn_trans (size_Poly _) _; rewrite size_take.
  by case: (ltnP (size U - 1) (size r)) => ?; slia.
rewrite PE divp_addl_mul_small // modp_addl_mul_small //; split; first by apply/looseP; exists q.
by rewrite /poly_of jE; exact: reps_take.
Qed.

Lemma loose_quo_rem_panics x n y U : padded rep n y U -> (0 < n)%N -> (size y <= size x)%N ->
  panics (quo_rem (PolyEucl A) x y).
Proof.
move=> h n0 s; rewrite /= /poly_quo_rem ltnNge s /=.
have y0 : ~~ (size y == 0%N).
  by rewrite (reps_size h) size_cat size_nseq; case: (n) n0 => // m _; rewrite addnS.
rewrite y0; apply: panics_bind2 (returns_ret tt) _.
apply: panics_ensures (zero_ok hC) _ => z zE.
apply: panics_ensures (padded_last p h n0) _ => a aE.
apply: panics_ensures (is_zero_ok hC aE) _ => b ->; rewrite eqxx.
exact: panics_assert_bind.
Qed.

(** The remainder. *)
Lemma rem_shorter (x y : seq E) : (size x < size y)%N -> returns (rem (PolyEucl A) x y) x.
Proof. by move=> h; apply: returns_bind (quo_rem_shorter h) _; exact: returns_ret. Qed.
Lemma loose_rem x P y U : loose rep x P -> poly_of rep y U -> U != 0 -> (size y <= size x)%N ->
  ensures p (rem (PolyEucl A) x y) (fun z => poly_of rep z (modp P U)).
Proof.
move=> xP yU U0 s; apply: ensures_bind (loose_quo_rem xP yU U0 s) _ => z [_ h].
exact: ensures_ret.
Qed.
Lemma loose_rem_panics x n y U : padded rep n y U -> (0 < n)%N -> (size y <= size x)%N ->
  panics (rem (PolyEucl A) x y).
Proof. by move=> h n0 s; apply: panics_bind; exact: loose_quo_rem_panics h n0 s. Qed.

(** The loop of gcd. *)
Local Notation gcds := (gcd (PolyEucl A)).
Lemma gcd_nil (x : seq E) : returns (gcds x [::]) x.
Proof. by exists 1%N => -[|k]. Qed.
Lemma gcd_nil_left (y : seq E) : returns (gcds [::] y) y.
Proof. by case: y => [|b y]; [exact: gcd_nil|exists 2%N => -[|[|k]]]. Qed.

Local Notation cond := (fun s : seq E * seq E => notM (is_zero (poly_cmonoid A) s.2)).
Local Notation body := (fun s : seq E * seq E => let! r := rem (PolyEucl A) s.1 s.2 in ret (s.2, r)).
Lemma gcd_cond (x y : seq E) : (0 < size y)%N -> returns (cond (x, y)) true.
Proof. by case: y => // b y _; exists 0%N. Qed.

Definition gcd_state (G : {poly F}) (s : seq E * seq E) : Prop := exists P Q,
  eqp (gcdp P Q) G /\
  [\/ poly_of rep s.1 P /\ poly_of rep s.2 Q,
      [/\ loose rep s.1 P, poly_of rep s.2 Q, Q != 0 & (size s.2 <= size s.1)%N] |
      [/\ poly_of rep s.1 P, P != 0, loose rep s.2 Q & (size s.1 < size s.2)%N]].

Lemma poly_of_loose x P : poly_of rep x P -> loose rep x P.
Proof. by move=> h; exists 0%N; rewrite /padded cats0. Qed.

Lemma gcd_good x y G : gcd_state G (x, y) ->
  ensures p (gcds x y) (fun z => exists2 D, poly_of rep z D & eqp D G).
Proof.
move=> h; apply: (@ensures_bind _ _ _ _ _ (fun s => exists2 D, poly_of rep s.1 D & eqp D G)); last first.
  by move=> s hs; exact: ensures_ret.
apply: (@ensures_while _ p cond body (gcd_state G) _ (fun s => size s.2)) => // -[u v] /= {x y h}.
move=> [P [Q [hG hs]]]; apply: ensures_ret; case: (posnP (size v)) => sv.
  rewrite sv /=; case: hs => [[uP vQ]|[_ vQ Q0 _]|[_ _ _]]; last by rewrite sv.
    exists P => //; move: hG; have -> : Q = 0.
      by apply/eqP; rewrite -size_poly_eq0 -(reps_size vQ) sv.
    by rewrite gcdp0.
  by move: Q0; rewrite -size_poly_eq0 -(reps_size vQ) sv.
rewrite /=.
have step : poly_of rep v Q -> loose rep u P -> (size v <= size u)%N ->
    ensures p (let! r := rem (PolyEucl A) u v in ret (v, r))
      (fun s' => gcd_state G s' /\ (size s'.2 < size v)%N).
  move=> vQ uP s; have Q0 : Q != 0 by rewrite -size_poly_eq0 -(reps_size vQ) -lt0n.
  apply: ensures_bind (loose_rem uP vQ Q0 s) _ => r hr; apply: ensures_ret => /=; split.
    exists Q, (modp P Q); split; last by constructor 1.
    by apply: eqp_trans hG; apply: eqp_trans (gcdp_modr _ _) (gcdpC _ _).
  by rewrite (reps_size hr) (reps_size vQ) ltn_modp.
have swap : (size u < size v)%N -> loose rep v Q -> poly_of rep u P ->
    P != 0 \/ poly_of rep v Q ->
    ensures p (let! r := rem (PolyEucl A) u v in ret (v, r))
      (fun s' => gcd_state G s' /\ (size s'.2 < size v)%N).
  move=> s vQ uP hc; apply: (@ensures_bind _ _ _ _ _ (fun r => r = u)).
    exact: ensures_returns (rem_shorter s) _.
  move=> _ ->; apply: ensures_ret => /=.
  split=> //; exists Q, P; split; first exact: eqp_trans (gcdpC _ _) hG.
  by case: hc => h; [constructor 2; split=> //; exact: ltnW|constructor 1].
case: hs => [[uP vQ]|[uP vQ Q0 s]|[uP P0 vQ s]].
- case: (leqP (size v) (size u)) => s; first exact: step vQ (poly_of_loose uP) s.
  by apply: swap s (poly_of_loose vQ) uP _; right.
- exact: step vQ uP s.
- by apply: swap s vQ uP _; left.
Qed.

Lemma gcd_bad x m P y n Q : padded rep m x P -> padded rep n y Q ->
  (0 < size x)%N -> (0 < size y)%N ->
  (0 < (if (size y <= size x)%N then n else m))%N -> panics (gcds x y).
Proof.
move=> hx hy x0 y0 k0; apply: panics_bind; apply: run_panics; move: k0; case: (leqP (size y) (size x)) => s k0.
  apply: run_body; first exact: gcd_cond.
  by apply: panics_bind; exact: (loose_rem_panics hy k0 s).
apply: run_step (gcd_cond _ y0) _ _.
  by apply: (returns_bind (rem_shorter s)); exact: returns_ret.
apply: run_body; first exact: gcd_cond.
by apply: panics_bind; exact: (loose_rem_panics hx k0 (ltnW s)).
Qed.
Lemma loose_gcd x m P y n Q : padded rep m x P -> padded rep n y Q ->
  (0 < size x)%N -> (0 < size y)%N ->
  if (if (size y <= size x)%N then n else m) == 0%N then
    ensures p (gcds x y) (fun z => exists2 D, poly_of rep z D & eqp D (gcdp P Q))
  else panics (gcds x y).
Proof.
move=> hx hy x0 y0; case: ifP => [/eqP|/negbT]; last by rewrite -lt0n; exact: gcd_bad hx hy x0 y0.
move=> k0; apply: gcd_good; exists P, Q; split; first exact: eqpxx.
move: k0; case: (leqP (size y) (size x)) => s k0.
  rewrite {}k0 in hy; move/poly_of_padded: hy => hy; constructor 2; split=> //.
    exact: padded_loose hx.
  by rewrite -size_poly_eq0 -(reps_size hy) -lt0n.
rewrite {}k0 in hx; move/poly_of_padded: hx => hx; constructor 3; split=> //.
  by rewrite -size_poly_eq0 -(reps_size hx) -lt0n.
exact: padded_loose hy.
Qed.
End FieldPart.
