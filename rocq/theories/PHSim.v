(** * PHSim.v -- calls that come to an end: the lemmas of PGSim.v for [halts]. *)

From Coq Require Import ZArith Lia.
From mathcomp Require Import all_ssreflect zify ssrZ.
From Verif Require Import Rust Traits Wp PSim HaltSpec.

Set Implicit Arguments.
Unset Strict Implicit.
Unset Printing Implicit Defensive.

Local Notation hsim := halts.

Lemma haltsE T (Q : T -> Prop) m m' : halts Q m m' <-> ensures True m Q.
Proof. by split=> [[h|h]|[h|[_ h]]]; [left|right|left|right]. Qed.

Section Sim.
Context {A B : Type}.

Lemma hsim_ret (Q : A -> Prop) v m : Q v -> hsim Q (ret v) m.
Proof. by move=> Qv; apply/haltsE; exact: ensures_ret. Qed.
Lemma hsim_panic (Q : A -> Prop) m : hsim Q panic m.
Proof. by apply/haltsE; exact: ensures_panic. Qed.
Lemma hsim_mono (P Q : A -> Prop) m1 m2 : hsim P m1 m2 -> (forall v, P v -> Q v) ->
  hsim Q m1 m2.
Proof. by move=> /haltsE h PQ; apply/haltsE; exact: ensures_mono h PQ. Qed.
Lemma hsim_bind (Q : A -> Prop) (R : B -> Prop) m1 m2 f1 f2 : hsim Q m1 m2 ->
  (forall v, Q v -> hsim R (f1 v) (f2 v)) -> hsim R (bind m1 f1) (bind m2 f2).
Proof.
move=> /haltsE h hf; apply/haltsE; apply: ensures_bind h _ => v Qv.
by apply/haltsE; exact: hf v Qv.
Qed.
Lemma hsim_if (Q : A -> Prop) (b : bool) m1 m2 n1 n2 :
  (b -> hsim Q m1 n1) -> (b = false -> hsim Q m2 n2) ->
  hsim Q (if b then m1 else m2) (if b then n1 else n2).
Proof. by case: b => h1 h2; [exact: h1|exact: h2]. Qed.
Lemma hsim_unwrap (Q : A -> Prop) o : (forall v, o = Some v -> Q v) ->
  hsim Q (unwrap o) (unwrap o).
Proof. by case: o => [a h|_]; [apply: hsim_ret; exact: h|exact: hsim_panic]. Qed.
End Sim.

Lemma hsim_assert (b : bool) : hsim (fun _ => b) (assert b) (assert b).
Proof. by case: b; [exact: hsim_ret|exact: hsim_panic]. Qed.
Lemma hsim_andM m1 m2 n1 n2 : hsim any m1 n1 -> hsim any m2 n2 ->
  hsim any (andM m1 m2) (andM n1 n2).
Proof. by move=> h1 h2; apply: hsim_bind h1 _ => -[] _ //; exact: hsim_ret. Qed.
Lemma hsim_orM m1 m2 n1 n2 : hsim any m1 n1 -> hsim any m2 n2 ->
  hsim any (orM m1 m2) (orM n1 n2).
Proof. by move=> h1 h2; apply: hsim_bind h1 _ => -[] _ //; exact: hsim_ret. Qed.
Lemma hsim_notM m n : hsim any m n -> hsim any (notM m) (notM n).
Proof. by move=> h; apply: hsim_bind h _ => b _; exact: hsim_ret. Qed.

Section Loops.
Context {S : Type} (I : S -> Prop).

(** An invariant that may mention the loop counter. *)
Lemma hsim_for lo cnt b1 b2 (J : nat -> S -> Prop) s :
  (forall i s, lo <= i < lo + cnt -> J i s -> hsim (J i.+1) (b1 i s) (b2 i s)) ->
  J lo s -> hsim (J (lo + cnt)) (for_loop lo cnt b1 s) (for_loop lo cnt b2 s).
Proof.
elim: cnt lo s => [|c IH] lo s hb Js /=; first by rewrite addn0; exact: hsim_ret.
apply: hsim_bind (hb lo s _ Js) _ => [|s' Js']; first by rewrite leqnn addnS ltnS leq_addr.
rewrite addnS -addSn; apply: IH Js' => i s0 /andP[h1 h2]; apply: hb.
by rewrite (ltnW h1) addnS -addSn.
Qed.
Lemma hsim_rev cnt b1 b2 (J : nat -> S -> Prop) s :
  (forall i s, i < cnt -> J i.+1 s -> hsim (J i) (b1 i s) (b2 i s)) ->
  J cnt s -> hsim (J 0) (for_rev cnt b1 s) (for_rev cnt b2 s).
Proof.
elim: cnt s => [|c IH] s hb Js /=; first exact: hsim_ret.
apply: hsim_bind (hb c s (ltnSn c) Js) _ => s' Js'.
by apply: IH Js' => i s0 ic; apply: hb; exact: ltnW.
Qed.
Lemma hsim_for_ret {R} (Q : R -> Prop) lo cnt b1 b2 (J : nat -> S -> Prop) s :
  (forall i s, lo <= i < lo + cnt -> J i s ->
     hsim (fun x => match x with inl s' => J i.+1 s' | inr r => Q r end) (b1 i s) (b2 i s)) ->
  J lo s ->
  hsim (fun x => match x with inl s' => J (lo + cnt) s' | inr r => Q r end)
    (for_loop_ret lo cnt b1 s) (for_loop_ret lo cnt b2 s).
Proof.
elim: cnt lo s => [|c IH] lo s hb Js /=; first by rewrite addn0; exact: hsim_ret.
apply: hsim_bind (hb lo s _ Js) _ => [|[s'|r] h]; last exact: hsim_ret.
  by rewrite leqnn addnS ltnS leq_addr.
rewrite addnS -addSn; apply: IH h => i s0 /andP[h1 h2]; apply: hb.
by rewrite (ltnW h1) addnS -addSn.
Qed.
Lemma hsim_rev_ret {R} (Q : R -> Prop) cnt b1 b2 (J : nat -> S -> Prop) s :
  (forall i s, i < cnt -> J i.+1 s ->
     hsim (fun x => match x with inl s' => J i s' | inr r => Q r end) (b1 i s) (b2 i s)) ->
  J cnt s ->
  hsim (fun x => match x with inl s' => J 0 s' | inr r => Q r end)
    (for_rev_ret cnt b1 s) (for_rev_ret cnt b2 s).
Proof.
elim: cnt s => [|c IH] s hb Js /=; first exact: hsim_ret.
apply: hsim_bind (hb c s (ltnSn c) Js) _ => -[s'|r] h; last exact: hsim_ret.
by apply: IH h => i s0 ic; apply: hb; exact: ltnW.
Qed.
End Loops.

Lemma hsim_findM lo cnt f1 f2 :
  (forall i, lo <= i < lo + cnt -> hsim any (f1 i) (f2 i)) ->
  hsim (fun o => if o is Some i then lo <= i < lo + cnt else true)
    (findM lo cnt f1) (findM lo cnt f2).
Proof.
elim: cnt lo => [|c IH] lo h /=; first exact: hsim_ret.
apply: hsim_bind (h lo _) _ => [|[] _]; first by rewrite leqnn addnS ltnS leq_addr.
  by apply: hsim_ret; rewrite leqnn addnS ltnS leq_addr.
rewrite addnS -addSn; apply: hsim_mono (IH lo.+1 _) _ => [i /andP[h1 h2]|].
  by apply: h; rewrite (ltnW h1) addnS -addSn.
by case=> // i /andP[h1 ->]; rewrite (ltnW h1).
Qed.

Section Every.
Context {A : Type} (Q : A -> Prop).
Lemma hsim_vget v i : every Q v -> hsim Q (vget v i) (vget v i).
Proof.
move=> Qv; rewrite /vget; have := every_drop i Qv.
case: (drop i v) => [|x s] /=; first by move=> _; exact: hsim_panic.
by move=> [Qx _]; exact: hsim_ret.
Qed.
Lemma hsim_vset v i x : every Q v -> Q x -> hsim (every Q) (vset v i x) (vset v i x).
Proof.
move=> Qv Qx; rewrite /vset; case: ifP => _; last exact: hsim_panic.
apply: hsim_ret.
apply/every_cat; split; first exact: every_take.
by split=> //; exact: every_drop.
Qed.
Lemma hsim_vswap v i j : every Q v -> hsim (every Q) (vswap v i j) (vswap v i j).
Proof.
move=> Qv; rewrite /vswap; apply: hsim_bind (hsim_vget _ Qv) _ => x Qx.
apply: hsim_bind (hsim_vget _ Qv) _ => y Qy.
by apply: hsim_bind (hsim_vset _ Qv Qy) _ => v1 Qv1; exact: hsim_vset.
Qed.
End Every.

Lemma hsim_mapM {A B} (Q : A -> Prop) (R : B -> Prop) f1 f2 s :
  (forall x, Q x -> hsim R (f1 x) (f2 x)) -> every Q s ->
  hsim (every R) (mapM f1 s) (mapM f2 s).
Proof.
move=> h; elim: s => [|x s IH] /=; first by move=> _; exact: hsim_ret.
move=> [Qx Qs]; apply: hsim_bind (h _ Qx) _ => y Ry.
by apply: hsim_bind (IH Qs) _ => ys Rys; exact: hsim_ret.
Qed.
Lemma hsim_map2M {A B C} (Q : A -> Prop) (P : B -> Prop) (R : C -> Prop) f1 f2 s t :
  (forall x y, Q x -> P y -> hsim R (f1 x y) (f2 x y)) -> every Q s -> every P t ->
  hsim (every R) (map2M f1 s t) (map2M f2 s t).
Proof.
move=> h; elim: s t => [|x s IH] [|y t] /=; try by move=> *; exact: hsim_ret.
move=> [Qx Qs] [Py Pt]; apply: hsim_bind (h _ _ Qx Py) _ => z Rz.
by apply: hsim_bind (IH _ Qs Pt) _ => zs Rzs; exact: hsim_ret.
Qed.
Lemma hsim_allM {A} (Q : A -> Prop) f1 f2 s :
  (forall x, Q x -> hsim any (f1 x) (f2 x)) -> every Q s ->
  hsim any (allM f1 s) (allM f2 s).
Proof.
move=> h; elim: s => [|x s IH] /=; first by move=> _; exact: hsim_ret.
by move=> [Qx Qs]; apply: hsim_andM (h _ Qx) (IH Qs).
Qed.
Lemma hsim_all2M {A B} (Q : A -> Prop) (P : B -> Prop) f1 f2 s t :
  (forall x y, Q x -> P y -> hsim any (f1 x y) (f2 x y)) -> every Q s -> every P t ->
  hsim any (all2M f1 s t) (all2M f2 s t).
Proof.
move=> h; elim: s t => [|x s IH] [|y t] /=; try by move=> *; exact: hsim_ret.
by move=> [Qx Qs] [Py Pt]; apply: hsim_andM (h _ _ Qx Py) (IH _ Qs Pt).
Qed.

(** ** Default methods *)
Section Defaults.
Context {E : Type} (Q : E -> Prop).
Definition hsim1 (f g : E -> M E) := forall x, Q x -> hsim Q (f x) (g x).
Definition hsim2 (f g : E -> E -> M E) := forall x y, Q x -> Q y -> hsim Q (f x y) (g x y).
Definition hsim1b (f g : E -> M bool) := forall x, Q x -> hsim any (f x) (g x).
Definition hsim2b (f g : E -> E -> M bool) := forall x y, Q x -> Q y -> hsim any (f x y) (g x y).
Definition hsim1o (f g : E -> M (option E)) := forall x, Q x -> hsim (oQ Q) (f x) (g x).
Definition hsim2o (f g : E -> E -> M (option E)) :=
  forall x y, Q x -> Q y -> hsim (oQ Q) (f x y) (g x y).
Definition hsim2p (f g : E -> E -> M (E * E)) :=
  forall x y, Q x -> Q y -> hsim (both2 Q) (f x y) (g x y).

Lemma hsim_power_loop o1 o2 d1 d2 num x r : hsim2 o1 o2 -> hsim1 d1 d2 -> Q x -> Q r ->
  hsim (fun s => Q s.1.2 /\ Q s.2) (power_loop o1 d1 num x r) (power_loop o2 d2 num x r).
Proof.
move=> ho hd Qx Qr; apply/haltsE.
apply: (@ensures_while _ _ _ _ (fun s : Z * E * E => Q s.1.2 /\ Q s.2) _
  (fun s => Z.to_nat s.1.1)) => //.
move=> [[n e] s] [/= Qe Qs]; apply: ensures_ret; case: Z.gtb_spec => // n0.
apply: (@ensures_bind _ _ _ _ _ Q) => [|s' Qs'].
  case: ifP => _; [exact: ensures_ret|apply/haltsE; exact: ho].
apply: (@ensures_bind _ _ _ _ _ Q) => [|e' Qe']; first by apply/haltsE; exact: hd.
apply: ensures_ret; split=> //=.
have := Z.quot_lt n 2 ltac:(lia) ltac:(lia); have := Z.quot_pos n 2 ltac:(lia) ltac:(lia); lia.
Qed.
Lemma hsim_ntimes z1 z2 a1 a2 d1 d2 n x : hsim Q z1 z2 -> hsim2 a1 a2 -> hsim1 d1 d2 -> Q x ->
  hsim Q (default_ntimes z1 a1 d1 n x) (default_ntimes z2 a2 d2 n x).
Proof.
move=> hz ha hd Qx; apply: hsim_bind hz _ => r Qr.
by apply: hsim_bind (hsim_power_loop _ ha hd Qx Qr) _ => s [_ h]; exact: hsim_ret.
Qed.

Lemma hsim_is_zero e1 e2 z1 z2 : hsim2b e1 e2 -> hsim Q z1 z2 ->
  hsim1b (default_is_zero e1 z1) (default_is_zero e2 z2).
Proof. by move=> he hz x Qx; apply: hsim_bind hz _ => z Qz; exact: he. Qed.
Lemma hsim_invertible t1 t2 : hsim1o t1 t2 ->
  hsim1b (default_invertible t1) (default_invertible t2).
Proof. by move=> h x Qx; apply: hsim_bind (h x Qx) _ => o _; exact: hsim_ret. Qed.
Lemma hsim_sub n1 n2 a1 a2 : hsim1 n1 n2 -> hsim2 a1 a2 ->
  hsim2 (default_sub n1 a1) (default_sub n2 a2).
Proof. by move=> hn ha x y Qx Qy; apply: hsim_bind (hn y Qy) _ => z Qz; exact: ha. Qed.
Lemma hsim_sub_assign n1 n2 a1 a2 : hsim1 n1 n2 -> hsim2 a1 a2 ->
  hsim2 (default_sub_assign n1 a1) (default_sub_assign n2 a2).
Proof. by move=> hn ha x y Qx Qy; apply: hsim_bind (hn y Qy) _ => z Qz; exact: ha. Qed.
Lemma hsim_divisible z1 z2 t1 t2 : hsim1b z1 z2 -> hsim2o t1 t2 ->
  hsim2b (default_divisible z1 t1) (default_divisible z2 t2).
Proof.
move=> hz ht x y Qx Qy; apply: hsim_bind (hz y Qy) _ => -[] _; first exact: hz.
by apply: hsim_bind (ht x y Qx Qy) _ => o _; exact: hsim_ret.
Qed.
Lemma hsim_associates d1 d2 : hsim2b d1 d2 ->
  hsim2b (default_associates d1) (default_associates d2).
Proof. by move=> h x y Qx Qy; apply: hsim_andM; apply: h. Qed.
Lemma hsim_quo q1 q2 : hsim2p q1 q2 -> hsim2 (default_quo q1) (default_quo q2).
Proof. by move=> h x y Qx Qy; apply: hsim_bind (h x y Qx Qy) _ => z []; intros; exact: hsim_ret. Qed.
Lemma hsim_rem q1 q2 : hsim2p q1 q2 -> hsim2 (default_rem q1) (default_rem q2).
Proof. by move=> h x y Qx Qy; apply: hsim_bind (h x y Qx Qy) _ => z []; intros; exact: hsim_ret. Qed.
Lemma hsim_reduced z1 z2 q1 q2 : hsim1b z1 z2 -> hsim2 q1 q2 ->
  hsim2b (default_reduced z1 q1) (default_reduced z2 q2).
Proof.
move=> hz hq x y Qx Qy; apply: hsim_orM; first exact: hz.
by apply: hsim_bind (hq x y Qx Qy) _ => q Qq; exact: hz.
Qed.

(** Euclid's algorithm ends if each remainder is zero or smaller than the divisor. *)
Definition zero_or_less (z : E -> M bool) (mu : E -> nat) (r y : E) :=
  returns (z r) true \/ mu r < mu y.
Definition descends (z : E -> M bool) (q : E -> E -> M (E * E)) (mu : E -> nat) :=
  forall x y, Q x -> Q y -> ensures True (q x y)
    (fun qr => both2 Q qr /\ zero_or_less z mu qr.2 y).
Lemma hsim_gcd z1 z2 q1 r2 mu : hsim1b z1 z2 -> descends z1 q1 mu ->
  hsim2 (default_gcd z1 (default_rem q1)) (default_gcd z2 r2).
Proof.
move=> hz hd x y Qx Qy; apply: (@hsim_bind _ _ (both2 Q)); last first.
  by move=> z [Qz _]; exact: hsim_ret.
apply/haltsE; apply: (@ensures_while_index _ _ _ _
  (fun n s => both2 Q s /\ (returns (z1 s.2) true \/ mu s.2 < n)) _ (mu y).+1).
  by split=> //; right.
move=> n [a b] [[/= Qa Qb] [hb|lt]].
  apply: (@ensures_bind _ _ _ _ _ (fun b => is_true b)); first exact: ensures_returns hb _.
  by move=> b' ->; exact: ensures_ret.
have /haltsE hzb := hz b Qb; apply: ensures_bind hzb _ => -[] _; apply: ensures_ret => //=.
apply: (@ensures_bind _ _ _ _ _ (fun r => Q r /\ zero_or_less z1 mu r b)).
  by apply: ensures_bind (hd a b Qa Qb) _ => qr [[_ Q2] h]; exact: ensures_ret.
move=> r [Qr [hr|hr]]; apply: ensures_ret; last by exists (mu b) => //; split=> //; right.
by exists 0; [exact: (leq_ltn_trans (leq0n _) lt)|split=> //; left].
Qed.
Lemma hsim_lcm z1 z2 m1 m2 q1 q2 g1 g2 : hsim1b z1 z2 -> hsim2 m1 m2 -> hsim2 q1 q2 ->
  hsim2 g1 g2 -> hsim2 (default_lcm z1 m1 q1 g1) (default_lcm z2 m2 q2 g2).
Proof.
move=> hz hm hq hg x y Qx Qy; apply: hsim_bind (hg x y Qx Qy) _ => g Qg.
apply: hsim_bind (hz g Qg) _ => -[] _; first exact: hsim_ret.
by apply: hsim_bind (hq x g Qx Qg) _ => q Qq; exact: hm.
Qed.
Lemma hsim_extended_gcd z1 z2 o1 o2 ze1 ze2 m1 m2 s1 s2 q1 q2 mu x y :
  hsim1b z1 z2 -> hsim Q o1 o2 -> hsim Q ze1 ze2 -> hsim2 m1 m2 -> hsim2 s1 s2 ->
  descends z1 q1 mu -> Q x -> Q y ->
  hsim (both3 Q) (default_extended_gcd z1 o1 ze1 m1 s1 q1 x y)
    (default_extended_gcd z2 o2 ze2 m2 s2 q2 x y).
Proof.
move=> hz ho hze hm hs hd Qx Qy.
suff h n : forall x y, Q x -> Q y -> returns (z1 y) true \/ mu y < n ->
    (exists v l, (forall f k, l <= f -> l <= k ->
       extended_gcd_fuel f z1 o1 ze1 m1 s1 q1 x y k = Done v) /\ both3 Q v) \/
    (exists l, forall f k, l <= f -> l <= k ->
       extended_gcd_fuel f z1 o1 ze1 m1 s1 q1 x y k = Panicked).
  have [[v [l [hl Qv]]]|[l hl]] := h (mu y).+1 x y Qx Qy (or_intror (leqnn _)).
    by left; exists v; split=> //; exists l => k lk; exact: hl.
  by right; exists l => k lk; exact: hl.
have hend a b : Q a -> Q b -> returns (z1 b) true ->
    (exists v l, (forall f k, l <= f -> l <= k ->
       extended_gcd_fuel f z1 o1 ze1 m1 s1 q1 a b k = Done v) /\ both3 Q v) \/
    (exists l, forall f k, l <= f -> l <= k ->
       extended_gcd_fuel f z1 o1 ze1 m1 s1 q1 a b k = Panicked).
  move=> Qa Qb [l1 h1]; case: ho => [[o [[l2 h2] Qo]]|[l2 h2]]; last first.
    right; exists (maxn l1 l2).+1 => -[//|f] k _ /ltnW; rewrite geq_max => /andP[k1 k2].
    by rewrite /= /bind h1 // h2.
  case: hze => [[z [[l3 h3] Qz]]|[l3 h3]]; last first.
    right; exists (maxn l1 (maxn l2 l3)).+1 => -[//|f] k _ /ltnW.
    by rewrite !geq_max => /and3P[k1 k2 k3]; rewrite /= /bind h1 // h2 // h3.
  left; exists (a, o, z), (maxn l1 (maxn l2 l3)).+1; split=> // -[//|f] k _ /ltnW.
  by rewrite !geq_max => /and3P[k1 k2 k3]; rewrite /= /bind h1 // h2 // h3.
elim: n {x y Qx Qy} => [|n IH] x y Qx Qy [hb|lt] //; try exact: hend.
case: (hz y Qy) => [[b [[l1 h1] _]]|[l1 h1]]; last first.
  by right; exists l1.+1 => -[//|f] k _ /ltnW k1; rewrite /= /bind h1.
case: b h1 => h1; first by apply: hend => //; exists l1.
case: (hd x y Qx Qy) => [[[q r] [[l2 h2] [[/= Qq Qr] hr]]]|[_ [l2 h2]]]; last first.
  right; exists (maxn l1 l2).+1 => -[//|f] k _ /ltnW; rewrite geq_max => /andP[k1 k2].
  by rewrite /= /bind h1 // h2.
have hr' : returns (z1 r) true \/ mu r < n.
  by case: hr => [hr|hr]; [left|right; exact: leq_trans hr lt].
case: (IH y r Qy Qr hr') => [[[[g u] w] [l3 [h3 [[/= Qg Qu] Qw]]]]|[l3 h3]]; last first.
  right; exists (maxn l1 (maxn l2 l3)).+1 => -[//|f] k lf /ltnW.
  rewrite !geq_max => /and3P[k1 k2 k3]; rewrite /= /bind h1 // h2 // h3 //.
  by move: lf; rewrite ltnS !geq_max => /and3P[].
case: (hm w q Qw Qq) => [[a [[l4 h4] Qa]]|[l4 h4]]; last first.
  right; exists (maxn l1 (maxn l2 (maxn l3 l4))).+1 => -[//|f] k lf /ltnW.
  rewrite !geq_max => /and4P[k1 k2 k3 k4]; rewrite /= /bind h1 // h2 // h3 // ?h4 //.
  by move: lf; rewrite ltnS !geq_max => /and4P[].
case: (hs u a Qu Qa) => [[c [[l5 h5] Qc]]|[l5 h5]]; last first.
  right; exists (maxn l1 (maxn l2 (maxn l3 (maxn l4 l5)))).+1 => -[//|f] k lf /ltnW.
  rewrite !geq_max => /and5P[k1 k2 k3 k4 k5]; rewrite /= /bind h1 // h2 // h3 // ?h4 // ?h5 //.
  by move: lf; rewrite ltnS !geq_max => /and5P[].
left; exists (g, w, c), (maxn l1 (maxn l2 (maxn l3 (maxn l4 l5)))).+1; split=> //.
move=> [//|f] k lf /ltnW.
rewrite !geq_max => /and5P[k1 k2 k3 k4 k5]; rewrite /= /bind h1 // h2 // h3 // ?h4 // ?h5 //.
by move: lf; rewrite ltnS !geq_max => /and5P[].
Qed.
Lemma hsim_relative_primes i1 i2 g1 g2 : hsim1b i1 i2 -> hsim2 g1 g2 ->
  hsim2b (default_relative_primes i1 g1) (default_relative_primes i2 g2).
Proof. by move=> hi hg x y Qx Qy; apply: hsim_bind (hg x y Qx Qy) _ => g Qg; exact: hi. Qed.
End Defaults.
