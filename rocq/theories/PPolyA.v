(** * PPolyA.v -- the additive structure of PolynomialAlgebra over any abelian group. *)

From Coq Require Import ZArith Lia List.
From mathcomp Require Import all_ssreflect all_algebra zify.
From Verif Require Import Rust Traits MInts MConstr RingTac Wp Spec PDefaults.

Set Implicit Arguments.
Unset Strict Implicit.
Unset Printing Implicit Defensive.

Import GRing.Theory.
Local Open Scope ring_scope.

(** ** Canonical coefficient lists: the last coefficient is not zero *)
Section Canon.
Variable V : zmodType.
Implicit Types s t : seq V.

Definition canon s : bool := (size s == 0%N) || (s`_(size s).-1 != 0).

Lemma canon_uniq s t : canon s -> canon t -> (forall i, s`_i = t`_i) -> s = t.
Proof.
have h s' t' : canon t' -> (forall i, s'`_i = t'`_i) -> (size t' <= size s')%N.
  move=> ct h; rewrite leqNgt; apply/negP => lt; move: ct; rewrite /canon -h.
  rewrite nth_default ?eqxx ?orbF; last by rewrite -ltnS (ltn_predK lt).
  by move/eqP => t0; rewrite t0 in lt.
move=> cs ct e; apply: (@eq_from_nth _ 0) => [|i _]; last exact: e.
by apply/eqP; rewrite eqn_leq !h // => i; rewrite e.
Qed.

Lemma canon_last s x : canon (rcons s x) = (x != 0).
Proof. by rewrite /canon size_rcons /= nth_rcons ltnn eqxx. Qed.
End Canon.

Lemma nth_take_full (T : Type) (x0 : T) n (s : seq T) i :
  nth x0 (take n s) i = if (i < n)%N then nth x0 s i else x0.
Proof.
case: ltnP => h; first by rewrite nth_take.
by rewrite nth_default // size_take; case: ltnP => // h2; apply: leq_trans h2 h.
Qed.

Lemma vresize_up (T : Type) (s : seq T) n x : (size s <= n)%N ->
  vresize s n x = s ++ nseq (n - size s) x.
Proof. by move=> h; rewrite /vresize take_oversize. Qed.
Lemma vresize_down (T : Type) (s : seq T) n x : (n <= size s)%N ->
  vresize s n x = take n s.
Proof. by move=> h; rewrite /vresize (eqP h) cats0. Qed.

(** ** Addition, negation, multiples *)
Section Additive.
Variables (cfg : Cfg) (p : Prop) (E : Type) (V : zmodType) (rep : E -> V -> Prop).
Variable A : AbelianAlg E.
Hypothesis hA : abelian_alg_spec cfg p rep A.
Let hD := ab_dom_ok hA.
Let hC := ab_cm_ok hA.
Let hG := ab_ab_ok hA.
Implicit Types (v u : seq E) (s t r : seq V).

Lemma poly_equals_ok v s u t : reps rep v s -> reps rep u t ->
  answers p (poly_equals A v u) (s == t).
Proof.
move=> vs ut; rewrite /poly_equals (reps_size vs) (reps_size ut).
case: eqVneq => [sz|sz] /=; last first.
  by apply: ensures_ret; apply/esym/negP => /eqP st; rewrite st eqxx in sz.
apply: ensures_mono (ensures_all2M vs ut sz (equals_ok hD)) _ => b ->.
by rewrite -eqseq_all; apply/idP/idP.
Qed.

Lemma poly_contains_ok v s : reps rep v s -> answers p (poly_contains A v) (canon s).
Proof.
move=> vs; rewrite /poly_contains /canon (reps_size vs).
case: eqVneq => [_|sz]; first exact: ensures_ret.
have h := ensures_allM (P := xpredT) vs (contains_ok hD).
apply: ensures_bind h _ => b ->; rewrite all_predT /=.
have h2 : (size s - 1 < size s)%N by rewrite subn1 ltn_predL lt0n.
apply: ensures_bind (ensures_vget p 0 vs h2) _ => x xE.
by rewrite -subn1; exact: (ensures_notM (is_zero_ok hC xE)).
Qed.

Lemma poly_add_ok v s u t : reps rep v s -> reps rep u t -> canon s -> canon t ->
  ensures p (poly_add A v u) (fun w => exists r,
    [/\ reps rep w r, canon r & forall i, r`_i = s`_i + t`_i]).
Proof.
move=> vs ut cs ct; rewrite /poly_add (reps_size vs) (reps_size ut).
case: eqVneq => [sz|sz] /=; last first.
  have main v' s' u' t' : reps rep v' s' -> reps rep u' t' -> canon s' ->
    (size t' < size s')%N ->
    ensures p (for_loop 0 (size u') (fun i acc =>
      let! x := vget acc i in
      let! y := vget u' i in
      let! a := add A x y in
      vset acc i a) v') (fun w => exists r,
    [/\ reps rep w r, canon r & forall i, r`_i = s'`_i + t'`_i]).
    move=> vs' ut' cs' lt; rewrite (reps_size ut').
    pose I i acc := exists r, [/\ reps rep acc r, size r = size s' &
      forall j, r`_j = s'`_j + (if (j < i)%N then t'`_j else 0)].
    apply: ensures_mono (@ensures_for _ p 0 (size t') _ v' I _ _) _.
    - by exists s'; split=> // j; rewrite addr0.
    - move=> i acc /andP[_ ilt] [r [ar sr rE]].
      have ir : (i < size r)%N by rewrite sr; exact: ltn_trans lt.
      apply: ensures_bind (ensures_vget p 0 ar ir) _ => x xE.
      apply: ensures_bind (ensures_vget p 0 ut' ilt) _ => y yE.
      apply: ensures_bind (add_ok hC xE yE) _ => a aE.
      apply: ensures_mono (ensures_vset p 0 ar aE ir) _ => w wE.
      exists (set_nth 0 r i (r`_i + t'`_i)); split=> //.
        by rewrite size_set_nth sr; apply/maxn_idPr; exact: ltn_trans lt.
      move=> j; rewrite nth_set_nth /= ltnS; case: eqVneq => [->|ji].
        by rewrite leqnn rE ltnn addr0.
      by rewrite rE ltn_neqAle ji /=.
    move=> w [r [wr sr rE]]; exists r; split=> //.
      move: cs'; rewrite /canon sr => /orP[->//|h]; apply/orP; right.
      by rewrite rE add0n ifN ?addr0 // -leqNgt -ltnS (ltn_predK lt).
    move=> i; rewrite rE add0n; case: ltnP => // h.
    by rewrite [t'`_i]nth_default.
  case: ltnP => h.
    exact: main vs ut cs h.
  have lt : (size s < size t)%N by rewrite ltn_neqAle sz.
  apply: ensures_mono (main _ _ _ _ ut vs ct lt) _ => w [r [wr cr rE]].
  by exists r; split=> // i; rewrite rE addrC.
pose I i acc := exists r, [/\ reps rep acc r, canon r, (size r <= i)%N &
  forall j, (j < i)%N -> r`_j = s`_j + t`_j].
apply: ensures_mono (@ensures_for _ p 0 (size s) _ [::] I _ _) _.
- by exists [::]; split=> //; exact: reps_nil.
- move=> i acc /andP[_ ilt] [r [ar cr sr rE]].
  apply: ensures_bind (ensures_vget p 0 vs ilt) _ => x xE.
  rewrite add0n sz in ilt.
  apply: ensures_bind (ensures_vget p 0 ut ilt) _ => y yE.
  apply: ensures_bind (add_ok hC xE yE) _ => a aE.
  apply: ensures_bind (is_zero_ok hC aE) _ => b ->; case: eqVneq => a0 /=.
    apply: ensures_ret; exists r; split=> //; first exact: leq_trans sr _.
    move=> j; rewrite ltnS leq_eqVlt => /orP[/eqP ->|]; last exact: rE.
    by rewrite a0 nth_default.
  apply: ensures_bind (zero_ok hC) _ => z zE.
  have := reps_vresize i.+1 ar zE; rewrite (vresize_up _ (leq_trans sr (leqnSn i))).
  set r' := _ ++ _ => hr.
  have szi : size r' = i.+1 by rewrite size_cat size_nseq subnKC // leqW.
  have ii : (i < size r')%N by rewrite szi.
  apply: ensures_mono (ensures_vset p 0 hr aE ii) _ => w wE.
  have hn j : r'`_j = r`_j.
    rewrite nth_cat; case: ltnP => // h; rewrite [r`_j]nth_default // nth_nseq.
    by case: ifP.
  exists (set_nth 0 r' i (s`_i + t`_i)).
  have sz2 : size (set_nth 0 r' i (s`_i + t`_i)) = i.+1.
    by rewrite size_set_nth szi maxnn.
  split=> //.
  + by rewrite /canon sz2 /= nth_set_nth /= eqxx.
  + by rewrite sz2.
  + move=> j; rewrite ltnS leq_eqVlt nth_set_nth /= hn.
    by case: eqVneq => [->|_ /=] // => /rE.
move=> w [r [wr cr sr rE]]; exists r; split=> // i.
case: (ltnP i (size s)) => h; first exact: rE.
rewrite !nth_default ?addr0 // -?sz //; exact: leq_trans sr _.
Qed.

Lemma poly_neg_ok v s : reps rep v s ->
  ensures p (poly_neg A v) (fun w => reps rep w (map -%R s)).
Proof. by move=> vs; exact: (ensures_mapM vs (neg_ok hG)). Qed.

Lemma canon_opp s : canon s -> canon (map -%R s).
Proof.
rewrite /canon size_map => /orP[-> //|h].
case: (eqVneq (size s) 0%N) => //= s0; rewrite (nth_map 0) ?oppr_eq0 //.
by rewrite ltn_predL lt0n.
Qed.

Lemma nth_mapN s i : (map -%R s)`_i = - s`_i.
Proof.
case: (ltnP i (size s)) => h; first by rewrite (nth_map 0).
by rewrite !nth_default ?oppr0 // size_map.
Qed.

Lemma poly_ztimes_ok n v s : good_isize cfg n -> reps rep v s ->
  ensures p (poly_ztimes A n v) (fun w => exists r,
    [/\ reps rep w r, canon r & forall i, r`_i = zmul s`_i n]).
Proof.
move=> gn vs.
have h0 := ensures_mapM vs (fun x a => @ztimes_ok _ _ _ _ _ _ hG n x a gn).
apply: ensures_bind h0 _ => e; set t := map _ s => et.
have tE i : t`_i = zmul s`_i n.
  case: (ltnP i (size s)) => h; first by rewrite (nth_map 0).
  by rewrite !nth_default ?size_map // zmul0.
pose Q w := exists r, [/\ reps rep w r, canon r & forall i, r`_i = t`_i].
pose I i (_ : unit) := forall j, (i <= j)%N -> t`_j = 0.
rewrite (reps_size et).
have h1 : ensures p (for_rev_ret (size t) (fun i (_ : unit) =>
    let! x := vget e i in
    let! b := is_zero A x in
    if ~~ b then
      let! z := zero A in
      ret (inr (vresize e i.+1 z))
    else ret (inl tt)) tt) (sumP (I 0%N) Q).
  apply: ensures_for_rev_ret => [j sj|i w it hI]; first by rewrite nth_default.
  apply: ensures_bind (ensures_vget p 0 et it) _ => x xE.
  apply: ensures_bind (is_zero_ok hC xE) _ => b ->; case: eqVneq => t0 /=.
    apply: ensures_ret => j; rewrite leq_eqVlt => /orP[/eqP <- //|]; exact: hI.
  apply: ensures_bind (zero_ok hC) _ => z zE; apply: ensures_ret.
  exists (take i.+1 t); split.
  - by rewrite vresize_down ?(reps_size et) //; exact: reps_take.
  - by rewrite /canon size_takel // nth_take //= t0.
  - by move=> j; rewrite nth_take_full; case: ltnP => // h; rewrite hI.
apply: ensures_bind h1 _ => -[w h|w [r [wr cr rE]]]; apply: ensures_ret.
  exists [::]; split=> // i.
  by rewrite nth_nil -tE (h i).
by exists r; split=> // i; rewrite rE.
Qed.

(** ** The abelian group of polynomials *)
Section Group.
Variables (W : zmodType) (cf : W -> seq V).
Hypotheses (cf_canon : forall a, canon (cf a)) (cf_inj : injective cf).
Hypotheses (cf0 : cf 0 = [::]) (cfD : forall a b i, (cf (a + b))`_i = (cf a)`_i + (cf b)`_i).
Hypothesis cfN : forall a i, (cf (- a))`_i = - (cf a)`_i.
Let prep (v : seq E) (a : W) : Prop := reps rep v (cf a).

Lemma cf_eq0 a : (size (cf a) == 0%N) = (a == 0).
Proof. by rewrite size_eq0 -cf0 (inj_eq cf_inj). Qed.

Lemma cf_zmul a n i : (cf (zmul a n))`_i = zmul (cf a)`_i n.
Proof.
have hn b k : (cf (b *+ k))`_i = (cf b)`_i *+ k.
  by elim: k => [|k IH]; rewrite ?cf0 ?nth_nil // !mulrS cfD IH.
by case: n => [|k|k] /=; rewrite ?cf0 ?nth_nil ?cfN ?hn.
Qed.

Lemma cf_canon_eq a s : canon s -> (forall i, s`_i = (cf a)`_i) -> s = cf a.
Proof. by move=> cs h; apply: canon_uniq. Qed.

Lemma pab_domain : domain_spec p prep (poly_domain A).
Proof.
split=> /=.
- by move=> x u v xu xv; apply: cf_inj; exact: (reps_fun (dom_fun hD) xu xv).
- move=> x v xv; apply: ensures_mono (poly_contains_ok xv) _ => b ->.
  exact: cf_canon.
- move=> x u y v xu yv; apply: ensures_mono (poly_equals_ok xu yv) _ => b ->.
  by rewrite (inj_eq cf_inj).
Qed.

Lemma pab_add (x : seq E) (u : W) (y : seq E) (v : W) : prep x u -> prep y v -> gives p prep (poly_add A x y) (u + v).
Proof.
move=> xu yv; apply: ensures_mono (poly_add_ok xu yv (cf_canon _) (cf_canon _)) _.
by move=> w [r [wr cr rE]]; rewrite /prep -(cf_canon_eq cr) // => i; rewrite rE cfD.
Qed.

Lemma pab_neg (x : seq E) (u : W) : prep x u -> gives p prep (poly_neg A x) (- u).
Proof.
move=> xu; apply: ensures_mono (poly_neg_ok xu) _ => w wE.
rewrite /prep -(cf_canon_eq (canon_opp (cf_canon u))) // => i.
by rewrite nth_mapN cfN.
Qed.

Lemma pab_cmonoid : cmonoid_spec p prep +%R 0 (poly_cmonoid A).
Proof.
apply: (cmonoid_default (@addrA _) (@add0r _) (@addr0 _)).
- by apply: ensures_ret; rewrite /prep cf0; exact: reps_nil.
- by move=> x u xu; apply: ensures_ret; rewrite (reps_size xu) cf_eq0.
- exact: pab_add.
Qed.

Lemma pab_ztimes n (x : seq E) (u : W) : good_isize cfg n -> prep x u ->
  gives p prep (poly_ztimes A n x) (zmul u n).
Proof.
move=> gn xu; apply: ensures_mono (poly_ztimes_ok gn xu) _ => w [r [wr cr rE]].
by rewrite /prep -(cf_canon_eq cr) // => i; rewrite rE cf_zmul.
Qed.

Lemma pab_abelian : abelian_spec cfg p prep (poly_abelian A).
Proof.
split=> /=; try exact: pab_neg.
- move=> x u y v xu yv; apply: default_sub_ok xu yv; first exact: pab_neg.
  exact: pab_add.
- move=> x u y v xu yv; apply: default_sub_assign_ok xu yv; first exact: pab_neg.
  exact: pab_add.
- exact: pab_ztimes.
Qed.

Lemma pab_alg : abelian_alg_spec cfg p prep (PolyAbelian A).
Proof. by split; [exact: pab_domain|exact: pab_cmonoid|exact: pab_abelian]. Qed.
End Group.
End Additive.

(** ** The mathematical group of finitely supported sequences
    The elements are the canonical lists; the operations are coefficientwise. *)
Section FinSupp.
Variable V : zmodType.
Implicit Types s t : seq V.

Record fsupp := Fsupp { fsval : seq V; fsvalP : canon fsval }.
Canonical fsupp_subType := [subType for fsval].
Definition fsupp_eqMixin := Eval hnf in [eqMixin of fsupp by <:].
Canonical fsupp_eqType := Eval hnf in EqType fsupp fsupp_eqMixin.
Definition fsupp_choiceMixin := [choiceMixin of fsupp by <:].
Canonical fsupp_choiceType := Eval hnf in ChoiceType fsupp fsupp_choiceMixin.

Definition trim s : seq V := foldr (fun x r => if (x == 0) && (r == [::]) then [::] else x :: r) [::] s.

Lemma canon_cons x s : canon (x :: s) = if s is [::] then x != 0 else canon s.
Proof. by case: s. Qed.
Lemma trim_canon s : canon (trim s).
Proof.
elim: s => //= x s IH; case: (eqVneq x 0) => x0 /=; last first.
  by rewrite canon_cons; case: (trim s) IH.
by case: eqVneq => // r0; rewrite canon_cons; case: (trim s) r0 IH.
Qed.
Lemma nth_trim s i : (trim s)`_i = s`_i.
Proof.
elim: s i => //= x s IH i; case: ifP => [/andP[/eqP -> /eqP r0]|_].
  by case: i => [|i] //=; rewrite -IH r0 nth_nil.
by case: i.
Qed.

Definition fs (s : seq V) : fsupp := Fsupp (trim_canon s).
Definition fscoef (a : fsupp) (i : nat) : V := (fsval a)`_i.
Lemma fsP (a b : fsupp) : (forall i, fscoef a i = fscoef b i) -> a = b.
Proof. by move=> h; apply: val_inj; apply: canon_uniq h; exact: fsvalP. Qed.

Definition fsadd (a b : fsupp) : fsupp :=
  fs (mkseq (fun i => fscoef a i + fscoef b i) (maxn (size (fsval a)) (size (fsval b)))).
Definition fsopp (a : fsupp) : fsupp := fs (map -%R (fsval a)).

Lemma fsaddE a b i : fscoef (fsadd a b) i = fscoef a i + fscoef b i.
Proof.
rewrite /fscoef nth_trim; case: (ltnP i (maxn (size (fsval a)) (size (fsval b)))) => h.
  by rewrite nth_mkseq.
rewrite nth_default ?size_mkseq //; move: h; rewrite geq_max => /andP[ha hb].
by rewrite !nth_default ?addr0.
Qed.
Lemma fsoppE a i : fscoef (fsopp a) i = - fscoef a i.
Proof. by rewrite /fscoef nth_trim nth_mapN. Qed.
Lemma fs0E i : fscoef (fs [::]) i = 0.
Proof. by rewrite /fscoef nth_nil. Qed.

Lemma fsaddA : associative fsadd.
Proof. by move=> a b c; apply: fsP => i; rewrite !fsaddE addrA. Qed.
Lemma fsaddC : commutative fsadd.
Proof. by move=> a b; apply: fsP => i; rewrite !fsaddE addrC. Qed.
Lemma fsadd0 : left_id (fs [::]) fsadd.
Proof. by move=> a; apply: fsP => i; rewrite fsaddE fs0E add0r. Qed.
Lemma fsaddN : left_inverse (fs [::]) fsopp fsadd.
Proof. by move=> a; apply: fsP => i; rewrite fsaddE fsoppE fs0E addNr. Qed.
Definition fsupp_zmodMixin := ZmodMixin fsaddA fsaddC fsadd0 fsaddN.
Canonical fsupp_zmodType := Eval hnf in ZmodType fsupp fsupp_zmodMixin.
End FinSupp.

(** PolynomialAlgebra over an abelian group is the group of finitely supported
    sequences. *)
Definition fs_rep (E : Type) (V : zmodType) (rep : E -> V -> Prop) (v : seq E)
    (a : fsupp V) : Prop := reps rep v (fsval a).

Lemma PolyAbelian_ok cfg p (E : Type) (V : zmodType) (rep : E -> V -> Prop)
    (A : AbelianAlg E) : abelian_alg_spec cfg p rep A ->
  abelian_alg_spec cfg p (fs_rep rep) (PolyAbelian A).
Proof.
move=> hA; apply: (pab_alg hA (cf := @fsval V)) => //.
- exact: fsvalP.
- exact: val_inj.
- by move=> a b i; exact: fsaddE.
- by move=> a i; exact: fsoppE.
Qed.

Lemma PolyAbelian_contains cfg p (E : Type) (V : zmodType) (rep : E -> V -> Prop)
    (A : AbelianAlg E) : abelian_alg_spec cfg p rep A -> contains_exact p rep A ->
  contains_exact p (fs_rep rep) (PolyAbelian A).
Proof.
move=> hA hc v /=; rewrite /poly_contains.
case: (eqVneq (size v) 0%N) => [/size0nil ->|sv].
  by apply: ensures_ret; split=> // _; exists 0; exact: reps_nil.
have h : ensures p (allM (contains A) v) (fun b => b <-> exists s, reps rep v s).
  elim: v {sv} => [|x v IH] /=.
    by apply: ensures_ret; split=> // _; exists [::]; exact: reps_nil.
  apply: ensures_bind (hc x) _ => -[] hx; last first.
    by apply: ensures_ret; split=> // -[s vs]; inversion vs; apply: hx.2; eexists; eassumption.
  apply: ensures_mono IH _ => b hb; split.
    move=> /hb [s vs]; have [a xa] := hx.1 isT.
    by exists (a :: s); exact: reps_cons.
  by move=> [s vs]; apply/hb; inversion vs; eexists; eassumption.
apply: ensures_bind h _ => -[] /= hb; last first.
  by apply: ensures_ret; split=> // -[a va]; apply: hb.2; eexists; exact: va.
have [s vs] := hb.1 isT.
have i : (size v - 1 < size s)%N by rewrite -(reps_size vs) subn1 ltn_predL lt0n.
apply: ensures_bind (ensures_vget p 0 vs i) _ => x xE.
apply: ensures_mono (ensures_notM (is_zero_ok (ab_cm_ok hA) xE)) _ => b ->.
rewrite (reps_size vs) subn1; split=> [s0|[a va]].
  have cs : canon s by rewrite /canon s0 orbT.
  by exists (Fsupp cs).
have -> : s = fsval a by exact: (reps_fun (dom_fun (ab_dom_ok hA)) vs va).
have := fsvalP a; rewrite /canon; case: eqP => // a0 _.
by rewrite -(reps_size va) in a0; rewrite a0 eqxx in sv.
Qed.
