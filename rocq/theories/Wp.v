(** * Wp.v -- reasoning rules for [ensures]: one rule per construct of Rust.v. *)

From Coq Require Import ZArith List.
From mathcomp Require Import all_ssreflect.
From Verif Require Import Rust.

Set Implicit Arguments.
Unset Strict Implicit.
Unset Printing Implicit Defensive.

(** ** Outcomes are unique *)

Section Basic.
Variables (A B : Type).
Implicit Types (m : M A) (p q : Prop).

Lemma returns_det m v w : returns m v -> returns m w -> v = w.
Proof.
move=> [n1 h1] [n2 h2]; have := h1 (maxn n1 n2) (leq_maxl _ _).
by rewrite (h2 _ (leq_maxr _ _)) => -[].
Qed.

Lemma returns_panics m v : returns m v -> panics m -> False.
Proof.
move=> [n1 h1] [n2 h2]; have := h1 (maxn n1 n2) (leq_maxl _ _).
by rewrite (h2 _ (leq_maxr _ _)).
Qed.

Lemma returns_diverges m v : returns m v -> diverges m -> False.
Proof. by move=> [n h] d; have := h n (leqnn n); rewrite d. Qed.

Lemma returns_ret (v : A) : returns (ret v) v.
Proof. by exists 0. Qed.

Lemma panics_panic : panics (@panic A).
Proof. by exists 0. Qed.

Lemma returns_bind m (f : A -> M B) v w :
  returns m v -> returns (f v) w -> returns (bind m f) w.
Proof.
move=> [n1 h1] [n2 h2]; exists (maxn n1 n2) => k; rewrite geq_max => /andP[k1 k2].
by rewrite /bind h1 // h2.
Qed.

Lemma panics_bind m (f : A -> M B) : panics m -> panics (bind m f).
Proof. by move=> [n h]; exists n => k nk; rewrite /bind h. Qed.

Lemma panics_bind2 m (f : A -> M B) v :
  returns m v -> panics (f v) -> panics (bind m f).
Proof.
move=> [n1 h1] [n2 h2]; exists (maxn n1 n2) => k; rewrite geq_max => /andP[k1 k2].
by rewrite /bind h1 // h2.
Qed.

(** ** Rules for [ensures] *)

Lemma ensures_ret p (v : A) (Q : A -> Prop) : Q v -> ensures p (ret v) Q.
Proof. by left; exists v; split=> //; exact: returns_ret. Qed.

Lemma ensures_panic p Q : p -> ensures p (@panic A) Q.
Proof. by right; split=> //; exact: panics_panic. Qed.

Lemma ensures_bind p m (f : A -> M B) (R : A -> Prop) (Q : B -> Prop) :
  ensures p m R -> (forall v, R v -> ensures p (f v) Q) ->
  ensures p (bind m f) Q.
Proof.
move=> [[v [mv Rv]]|[pp mp]] h; last by right; split=> //; exact: panics_bind.
case: (h v Rv) => [[w [fw Qw]]|[pp fp]]; [left|right].
  by exists w; split=> //; apply: returns_bind mv fw.
by split=> //; apply: panics_bind2 mv fp.
Qed.

Lemma ensures_mono p m (Q R : A -> Prop) :
  ensures p m Q -> (forall v, Q v -> R v) -> ensures p m R.
Proof.
move=> [[v [mv Qv]]|h] i; last by right.
by left; exists v; split=> //; apply: i.
Qed.

Lemma ensures_weaken p q m Q : (p -> q) -> ensures p m Q -> ensures q m Q.
Proof. by move=> pq [h|[pp h]]; [left|right; split=> //; apply: pq]. Qed.

Lemma ensures_returns p m (Q : A -> Prop) v : returns m v -> Q v -> ensures p m Q.
Proof. by move=> h1 h2; left; exists v. Qed.

Lemma ensures_value p m Q v : ensures p m Q -> returns m v -> Q v.
Proof.
move=> [[w [mw Qw]]|[_ mp]] mv; first by rewrite -(returns_det mw mv).
by case: (returns_panics mv mp).
Qed.

Lemma ensures_False m Q : ensures False m Q -> exists v, returns m v /\ Q v.
Proof. by case=> // -[]. Qed.

Lemma ensures_nopanic p m Q : ensures p m Q -> ~ panics m -> ensures False m Q.
Proof. by move=> [h|[_ h]] np; [left|case: (np h)]. Qed.

Lemma ensures_total p m Q R :
  ensures p m Q -> ensures False m R -> ensures False m (fun v => Q v /\ R v).
Proof.
move=> h1 /ensures_False[v [mv Rv]]; left; exists v; split=> //; split=> //.
exact: ensures_value h1 mv.
Qed.

Lemma ensures_and p m Q R :
  ensures p m Q -> ensures p m R -> ensures p m (fun v => Q v /\ R v).
Proof.
move=> [[v [mv Qv]]|h1] h2; last by right.
by left; exists v; split=> //; split=> //; apply: ensures_value h2 mv.
Qed.

(** A call never diverges when it is known to return or panic. *)
Lemma ensures_terminates p m Q : ensures p m Q -> ~ diverges m.
Proof.
move=> [[v [mv _]]|[_ [n h]]] d; first exact: returns_diverges mv d.
by have := h n (leqnn n); rewrite d.
Qed.

Lemma ensures_eq p m m' Q : m = m' -> ensures p m' Q -> ensures p m Q.
Proof. by move=> ->. Qed.

Lemma bind_ret (v : A) (f : A -> M B) : bind (ret v) f = f v.
Proof. by []. Qed.

Lemma ensures_bret p (v : A) (f : A -> M B) Q :
  ensures p (f v) Q -> ensures p (bind (ret v) f) Q.
Proof. by []. Qed.
End Basic.

Lemma panics_ensures A B p (m : M A) (f : A -> M B) (R : A -> Prop) :
  ensures p m R -> (forall v, R v -> panics (f v)) -> panics (bind m f).
Proof.
move=> [[v [mv Rv]]|[pp mp]] h; last exact: panics_bind.
exact: panics_bind2 mv (h v Rv).
Qed.

Lemma ensures_assert p (b : bool) (Q : unit -> Prop) :
  b -> Q tt -> ensures p (assert b) Q.
Proof. by move=> -> ?; apply: ensures_ret. Qed.

Lemma ensures_assert_bind A p (b : bool) (m : M A) Q :
  b -> ensures p m Q -> ensures p (bind (assert b) (fun _ => m)) Q.
Proof. by move=> ->. Qed.

Lemma panics_assert_bind A (b : bool) (m : M A) :
  ~~ b -> panics (bind (assert b) (fun _ => m)).
Proof. by move=> /negbTE ->; exact: panics_bind (@panics_panic _). Qed.

Lemma panics_assert (b : bool) : ~~ b -> panics (assert b).
Proof. by move=> /negbTE ->; exact: panics_panic. Qed.

Lemma ensures_debug p cfg (m : M bool) (Q : unit -> Prop) :
  ensures p m (fun b => b = true) -> Q tt -> ensures p (debug_assert cfg m) Q.
Proof.
move=> h q; rewrite /debug_assert; case: (debug_assertions cfg); last exact: ensures_ret.
by apply: ensures_bind h _ => b ->; apply: ensures_ret.
Qed.

Lemma ensures_andM p m1 m2 (b1 b2 : bool) :
  ensures p m1 (fun b => b = b1) -> (b1 -> ensures p m2 (fun b => b = b2)) ->
  ensures p (andM m1 m2) (fun b => b = b1 && b2).
Proof.
move=> h1 h2; apply: ensures_bind h1 _ => b ->; case: b1 h2 => h2; first exact: h2.
exact: ensures_ret.
Qed.

Lemma ensures_orM p m1 m2 (b1 b2 : bool) :
  ensures p m1 (fun b => b = b1) -> (~~ b1 -> ensures p m2 (fun b => b = b2)) ->
  ensures p (orM m1 m2) (fun b => b = b1 || b2).
Proof.
move=> h1 h2; apply: ensures_bind h1 _ => b ->; case: b1 h2 => h2; last exact: h2.
exact: ensures_ret.
Qed.

Lemma ensures_notM p m (b1 : bool) :
  ensures p m (fun b => b = b1) -> ensures p (notM m) (fun b => b = ~~ b1).
Proof. by move=> h1; apply: ensures_bind h1 _ => b ->; apply: ensures_ret. Qed.

Lemma ensures_unwrap A p (o : option A) v (Q : A -> Prop) :
  o = Some v -> Q v -> ensures p (unwrap o) Q.
Proof. by move=> -> q; apply: ensures_ret. Qed.

(** ** Loops *)

Section Loops.
Variables (S : Type) (p : Prop).

(** [for i in lo..lo+cnt] with the invariant [I i s]. *)
Lemma ensures_for lo cnt body s (I : nat -> S -> Prop) :
  I lo s ->
  (forall i s, lo <= i < lo + cnt -> I i s -> ensures p (body i s) (I i.+1)) ->
  ensures p (for_loop lo cnt body s) (I (lo + cnt)).
Proof.
elim: cnt lo s => [|c IH] lo s Is h /=; first by rewrite addn0; apply: ensures_ret.
apply: (@ensures_bind _ _ _ _ _ (I lo.+1)).
  by apply: h => //; rewrite leqnn /= -[X in X < _]addn0 ltn_add2l.
move=> s' Is'; rewrite -addSnnS; apply: IH => // i s'' /andP[li lt] Ii.
by apply: h => //; rewrite (ltnW li) /= -addSnnS.
Qed.

(** [for i in (0..cnt).rev()] with the invariant [I i s] before the body with
    index [i - 1]. *)
Lemma ensures_for_rev cnt body s (I : nat -> S -> Prop) :
  I cnt s ->
  (forall i s, i < cnt -> I i.+1 s -> ensures p (body i s) (I i)) ->
  ensures p (for_rev cnt body s) (I 0).
Proof.
elim: cnt s => [|c IH] s Is h /=; first by apply: ensures_ret.
apply: (@ensures_bind _ _ _ _ _ (I c)); first exact: h.
by move=> s' Is'; apply: IH => // i s'' ic; apply: h; apply: ltnW.
Qed.

Definition sumP {R} (I : S -> Prop) (Q : R -> Prop) (x : S + R) : Prop :=
  match x with inl s => I s | inr r => Q r end.

Lemma ensures_for_ret R lo cnt body s (I : nat -> S -> Prop) (Q : R -> Prop) :
  I lo s ->
  (forall i s, lo <= i < lo + cnt -> I i s ->
     ensures p (body i s) (sumP (I i.+1) Q)) ->
  ensures p (for_loop_ret lo cnt body s) (sumP (I (lo + cnt)) Q).
Proof.
elim: cnt lo s => [|c IH] lo s Is h /=; first by rewrite addn0; apply: ensures_ret.
apply: (@ensures_bind _ _ _ _ _ (sumP (I lo.+1) Q)).
  by apply: h => //; rewrite leqnn /= -[X in X < _]addn0 ltn_add2l.
move=> [s' Is'|r Qr]; last exact: ensures_ret.
rewrite -addSnnS; apply: IH => // i s'' /andP[li lt] Ii.
by apply: h => //; rewrite (ltnW li) /= -addSnnS.
Qed.

Lemma ensures_for_rev_ret R cnt body s (I : nat -> S -> Prop) (Q : R -> Prop) :
  I cnt s ->
  (forall i s, i < cnt -> I i.+1 s -> ensures p (body i s) (sumP (I i) Q)) ->
  ensures p (for_rev_ret cnt body s) (sumP (I 0) Q).
Proof.
elim: cnt s => [|c IH] s Is h /=; first by apply: ensures_ret.
apply: (@ensures_bind _ _ _ _ _ (sumP (I c) Q)); first exact: h.
move=> [s' Is'|r Qr]; last exact: ensures_ret.
by apply: IH => // i s'' ic; apply: h; apply: ltnW.
Qed.

Lemma ensures_findM lo cnt f (P : pred nat) :
  (forall i, lo <= i < lo + cnt -> ensures p (f i) (fun b => b = P i)) ->
  ensures p (findM lo cnt f) (fun o =>
    match o with
    | Some i => [/\ lo <= i, i < lo + cnt, P i & forall j, lo <= j < i -> ~~ P j]
    | None => forall i, lo <= i < lo + cnt -> ~~ P i
    end).
Proof.
elim: cnt lo => [|c IH] lo h /=.
  by apply: ensures_ret => i; rewrite addn0 ltnNge; case: (lo <= i).
have lol : lo <= lo < lo + c.+1 by rewrite leqnn /= -[X in X < _]addn0 ltn_add2l.
apply: ensures_bind (h lo lol) _ => b ->; case: ifP => Pl.
  apply: ensures_ret; case/andP: lol => h1 h2; split=> // j /andP[h3 h4].
  by move: (leq_ltn_trans h3 h4); rewrite ltnn.
apply: ensures_mono (IH lo.+1 _) _.
  by move=> i /andP[li lt]; apply: h; rewrite (ltnW li) /= -addSnnS.
move=> [i [li ic Pi hj]|h2 i].
  rewrite -addSnnS; split=> //; [exact: ltnW|move=> j /andP[]].
  by rewrite leq_eqVlt => /orP[/eqP <- _|lj ji]; rewrite ?Pl // hj // lj.
by rewrite leq_eqVlt => /andP[/orP[/eqP <- _|li lt]]; rewrite ?Pl // h2 // li addSnnS.
Qed.

(** [while]: an invariant indexed by a natural number that decreases. *)
Lemma ensures_while_index (cond : S -> M bool) (body : S -> M S)
    (I : nat -> S -> Prop) (Q : S -> Prop) n s :
  I n s ->
  (forall n s, I n s -> ensures p (cond s) (fun b =>
     if b then ensures p (body s) (fun s' => exists2 n', n' < n & I n' s')
     else Q s)) ->
  ensures p (while_loop cond body s) Q.
Proof.
move=> Is h; have [k leqk] := ubnP n.
suff: (exists v n, (forall f k, n <= f -> n <= k ->
                    while_fuel f cond body s k = Done v) /\ Q v) \/
      (p /\ exists n, forall f k, n <= f -> n <= k ->
                    while_fuel f cond body s k = Panicked).
  move=> [[v [m [h1 Qv]]]|[pp [m h1]]]; [left; exists v; split=> //|right; split=> //];
  by exists m => k' nk'; apply: h1.
elim: k n s Is leqk => // k IH n s Is; rewrite ltnS => leqk.
case: (h n s Is) => [[b [[n1 cb] bQ]]|[pp [n1 cp]]]; last first.
  right; split=> //; exists n1.+1 => -[//|f] k' nf nk'.
  by rewrite /= /bind cp // ltnW.
case: b cb bQ => cb bQ; last first.
  left; exists s, n1.+1; split=> // -[//|f] k' nf nk'.
  by rewrite /= /bind cb // ltnW.
case: bQ => [[s' [[n2 bs'] [n' lts' Is']]]|[pp [n2 bp]]]; last first.
  right; split=> //; exists (maxn n1 n2).+1 => -[//|f] k' nf /ltnW.
  by rewrite geq_max => /andP[nk1 nk2]; rewrite /= /bind cb // bp.
case: (IH n' s' Is' (leq_trans lts' leqk)) => [[v [m [h1 Qv]]]|[pp [m h1]]].
  left; exists v, (maxn m (maxn n1 n2)).+1; split=> // -[//|f] k'.
  rewrite ltnS => nf /ltnW; move: nf.
  rewrite !geq_max => /andP[f1 /andP[f2 f3]] /andP[k1 /andP[k2 k3]].
  by rewrite /= /bind cb // bs' // h1.
right; split=> //; exists (maxn m (maxn n1 n2)).+1 => -[//|f] k'.
rewrite ltnS => nf /ltnW; move: nf.
rewrite !geq_max => /andP[f1 /andP[f2 f3]] /andP[k1 /andP[k2 k3]].
by rewrite /= /bind cb // bs' // h1.
Qed.

Lemma ensures_while (cond : S -> M bool) (body : S -> M S)
    (I Q : S -> Prop) (mu : S -> nat) s :
  I s ->
  (forall s, I s -> ensures p (cond s) (fun b =>
     if b then ensures p (body s) (fun s' => I s' /\ mu s' < mu s) else Q s)) ->
  ensures p (while_loop cond body s) Q.
Proof.
move=> Is h.
apply: (@ensures_while_index cond body (fun n s => I s /\ n = mu s) Q (mu s)) => //.
move=> n s' [Is' ->]; apply: ensures_mono (h s' Is') _ => -[] // hb.
by apply: ensures_mono hb _ => s'' [Is'' lt]; exists (mu s'').
Qed.
End Loops.

(** ** Vectors *)

(** [reps rep v s]: the vector [v] has the length of [s] and its entries
    represent those of [s]. *)
Definition reps {E V : Type} (rep : E -> V -> Prop) (v : seq E) (s : seq V) : Prop :=
  Forall2 rep v s.

Section Vectors.
Variables (E V : Type) (rep : E -> V -> Prop).
Implicit Types (v : seq E) (s : seq V).

Lemma vgetE x0 v i : i < size v -> vget v i = ret (nth x0 v i).
Proof. by move=> iv; rewrite /vget (drop_nth x0 iv). Qed.

Lemma vsetE x0 v i x : i < size v -> vset v i x = ret (set_nth x0 v i x).
Proof.
rewrite /vset => iv; rewrite iv; congr ret.
elim: v i iv => [//|a v IH] [|i] /= iv; first by rewrite drop0.
by rewrite IH.
Qed.

Lemma vget_panics v i : size v <= i -> panics (vget v i).
Proof. by move=> iv; rewrite /vget drop_oversize //; exact: panics_panic. Qed.

Lemma vset_panics v i x : size v <= i -> panics (vset v i x).
Proof. by move=> iv; rewrite /vset ltnNge iv; exact: panics_panic. Qed.

Lemma reps_size v s : reps rep v s -> size v = size s.
Proof. by elim=> //= ? ? ? ? _ _ ->. Qed.

Lemma reps_nil : reps rep [::] [::].
Proof. exact: Forall2_nil. Qed.

Lemma reps_cons x v a s : rep x a -> reps rep v s -> reps rep (x :: v) (a :: s).
Proof. exact: Forall2_cons. Qed.

Lemma reps_consE x v a s :
  reps rep (x :: v) (a :: s) <-> rep x a /\ reps rep v s.
Proof. by split=> [h|[h1 h2]]; [inversion h|exact: reps_cons]. Qed.

Lemma reps_nth x0 a0 v s i :
  reps rep v s -> i < size s -> rep (nth x0 v i) (nth a0 s i).
Proof. by move=> h; elim: h i => //= x a {}v {}s xa _ IH [//|i]; apply: IH. Qed.

Lemma reps_nthP x0 a0 v s :
  size v = size s -> (forall i, i < size s -> rep (nth x0 v i) (nth a0 s i)) ->
  reps rep v s.
Proof.
elim: v s => [|x v IH] [|a s] //=; first by move=> *; exact: reps_nil.
move=> [sz] h; apply: reps_cons; first exact: (h 0).
by apply: IH => // i si; apply: (h i.+1).
Qed.

Lemma reps_cat v s v' s' :
  reps rep v s -> reps rep v' s' -> reps rep (v ++ v') (s ++ s').
Proof. by move=> h h'; elim: h => //= *; apply: reps_cons. Qed.

Lemma reps_rcons v s x a : reps rep v s -> rep x a -> reps rep (rcons v x) (rcons s a).
Proof.
move=> h xa; rewrite -!cats1; apply: reps_cat => //.
exact/reps_cons/reps_nil.
Qed.

Lemma reps_take n v s : reps rep v s -> reps rep (take n v) (take n s).
Proof.
move=> h; elim: h n => [|x a {}v {}s xa _ IH] [|n] /=; try exact: reps_nil.
exact: reps_cons.
Qed.

Lemma reps_drop n v s : reps rep v s -> reps rep (drop n v) (drop n s).
Proof.
by move=> h; elim: h n => [|x a {}v {}s xa ? IH] [|n] //=; try exact: reps_nil; apply: reps_cons.
Qed.

Lemma reps_nseq n x a : rep x a -> reps rep (nseq n x) (nseq n a).
Proof. by move=> xa; elim: n => [|n IH] /=; [exact: reps_nil|exact: reps_cons]. Qed.

Lemma reps_set_nth x0 a0 v s i x a :
  reps rep v s -> rep x a -> i < size s ->
  reps rep (set_nth x0 v i x) (set_nth a0 s i a).
Proof.
by move=> h xa; elim: h i => //= y b {}v {}s yb vs IH [|i] //= si;
  apply: reps_cons => //; apply: IH.
Qed.

Lemma reps_vget a0 v s i : reps rep v s -> i < size s ->
  exists2 x, vget v i = ret x & rep x (nth a0 s i).
Proof.
move=> vs si; have sz := reps_size vs; case: v vs sz => [_ sz|x0 v vs sz].
  by move: si; rewrite -sz.
exists (nth x0 (x0 :: v) i); last exact: reps_nth.
by apply: vgetE; rewrite sz.
Qed.

Lemma ensures_vget p a0 v s i : reps rep v s -> i < size s ->
  ensures p (vget v i) (fun x => rep x (nth a0 s i)).
Proof. by move=> vs si; case: (reps_vget a0 vs si) => x -> h; apply: ensures_ret. Qed.

Lemma ensures_vset p a0 v s i x a : reps rep v s -> rep x a -> i < size s ->
  ensures p (vset v i x) (fun v' => reps rep v' (set_nth a0 s i a)).
Proof.
move=> vs xa si; rewrite (@vsetE x v i x) ?(reps_size vs) //.
by apply: ensures_ret; apply: reps_set_nth.
Qed.

Lemma reps_vresize v s n x a : reps rep v s -> rep x a ->
  reps rep (vresize v n x) (vresize s n a).
Proof.
move=> vs xa; rewrite /vresize (reps_size vs).
by apply: reps_cat; [exact: reps_take|exact: reps_nseq].
Qed.

Lemma reps_impl (rep' : E -> V -> Prop) v s :
  (forall x a, rep x a -> rep' x a) -> reps rep v s -> reps rep' v s.
Proof. by move=> h; elim=> [|x a {}v {}s xa _ IH]; constructor; auto. Qed.

Lemma reps_fun v s t :
  (forall x a b, rep x a -> rep x b -> a = b) ->
  reps rep v s -> reps rep v t -> s = t.
Proof.
move=> h vs; elim: vs t => [|x a {}v {}s xa _ IH] t vt; inversion vt => //.
by subst; congr cons; [exact: h xa _|exact: IH].
Qed.
End Vectors.

Lemma reps_map E E' V V' (rep : E -> V -> Prop) (rep' : E' -> V' -> Prop) f g v s :
  (forall x a, rep x a -> rep' (f x) (g a)) ->
  reps rep v s -> reps rep' (map f v) (map g s).
Proof. by move=> h; elim=> [|x a {}v {}s xa _ IH] /=; constructor; auto. Qed.

Lemma ensures_mapM E E' V V' p (rep : E -> V -> Prop) (rep' : E' -> V' -> Prop) f g v s :
  reps rep v s ->
  (forall x a, rep x a -> ensures p (f x) (fun y => rep' y (g a))) ->
  ensures p (mapM f v) (fun z => reps rep' z (map g s)).
Proof.
move=> vs h; elim: vs => [|x a {}v {}s xa _ IH] /=; first exact/ensures_ret/reps_nil.
apply: ensures_bind (h _ _ xa) _ => y ya; apply: ensures_bind IH _ => ys ysa.
exact/ensures_ret/reps_cons.
Qed.

Definition map2 {A B C} (f : A -> B -> C) (s : seq A) (t : seq B) : seq C :=
  [seq f x.1 x.2 | x <- zip s t].

Lemma ensures_map2M E1 E2 E3 V1 V2 V3 p (rep1 : E1 -> V1 -> Prop)
    (rep2 : E2 -> V2 -> Prop) (rep3 : E3 -> V3 -> Prop) f g v s w t :
  reps rep1 v s -> reps rep2 w t ->
  (forall x a y b, rep1 x a -> rep2 y b -> ensures p (f x y) (fun z => rep3 z (g a b))) ->
  ensures p (map2M f v w) (fun z => reps rep3 z (map2 g s t)).
Proof.
move=> vs wt h; elim: vs w t wt => [|x a {}v {}s xa _ IH] w t wt /=.
  by apply: ensures_ret; case: wt => *; exact: reps_nil.
case: wt => [|y b w' t' yb wt] /=; first exact/ensures_ret/reps_nil.
apply: ensures_bind (h _ _ _ _ xa yb) _ => z zab.
apply: ensures_bind (IH _ _ wt) _ => zs zsab.
exact/ensures_ret/reps_cons.
Qed.

Lemma ensures_allM E V p (rep : E -> V -> Prop) f (P : pred V) v s :
  reps rep v s ->
  (forall x a, rep x a -> ensures p (f x) (fun b => b = P a)) ->
  ensures p (allM f v) (fun b => b = all P s).
Proof.
move=> vs h; elim: vs => [|x a {}v {}s xa _ IH] /=; first exact: ensures_ret.
by apply: ensures_andM => [|_]; [exact: h|exact: IH].
Qed.

Lemma ensures_all2M E1 E2 V1 V2 p (rep1 : E1 -> V1 -> Prop) (rep2 : E2 -> V2 -> Prop)
    f (P : V1 -> V2 -> bool) v s w t :
  reps rep1 v s -> reps rep2 w t -> size s = size t ->
  (forall x a y b, rep1 x a -> rep2 y b -> ensures p (f x y) (fun b' => b' = P a b)) ->
  ensures p (all2M f v w) (fun b => b = all2 P s t).
Proof.
move=> vs wt sz h; elim: vs w t wt sz => [|x a {}v {}s xa _ IH] w t wt /=.
  by case: wt => // *; apply: ensures_ret.
case: wt => [|y b w' t' yb wt] //= [sz].
by apply: ensures_andM => [|_]; [exact: h|exact: IH].
Qed.

Lemma size_map2 A B C (f : A -> B -> C) s t :
  size (map2 f s t) = minn (size s) (size t).
Proof. by rewrite size_map size_zip. Qed.

Lemma nth_map2 A B C (f : A -> B -> C) a0 b0 c0 s t i :
  size s = size t -> i < size s ->
  nth c0 (map2 f s t) i = f (nth a0 s i) (nth b0 t i).
Proof.
move=> sz si; rewrite (nth_map (a0, b0)) ?size_zip ?sz ?minnn -?sz //.
by rewrite nth_zip.
Qed.
