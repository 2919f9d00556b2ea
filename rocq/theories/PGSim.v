(** * PGSim.v -- comparing two runs, with or without their panics: the lemmas of
    PSim.v for a relation that can be tightened to equality. *)

From Coq Require Import ZArith.
From mathcomp Require Import all_ssreflect.
From Verif Require Import Rust Traits Wp PSim.

Set Implicit Arguments.
Unset Strict Implicit.
Unset Printing Implicit Defensive.

Section Strict.
Variable st : Prop.

(** If [m1] returns [v] then so does [m2], and [Q v]; and if [st] then the two runs
    are the same. *)
Definition gsim {A} (Q : A -> Prop) (m1 m2 : M A) : Prop :=
  sim Q m1 m2 /\ (st -> forall k, m1 k = m2 k).

Section Sim.
Context {A B : Type}.

Lemma gsim_ret (Q : A -> Prop) v : Q v -> gsim Q (ret v) (ret v).
Proof. by move=> Qv; split=> //; exact: sim_ret. Qed.
Lemma gsim_panic (Q : A -> Prop) : gsim Q panic panic.
Proof. by split. Qed.
Lemma gsim_refl m : gsim any m (m : M A).
Proof. by split=> //; exact: sim_refl. Qed.
Lemma gsim_mono (P Q : A -> Prop) m1 m2 : gsim P m1 m2 -> (forall v, P v -> Q v) ->
  gsim Q m1 m2.
Proof. by case=> h1 h2 PQ; split=> //; exact: sim_mono h1 PQ. Qed.
Lemma gsim_bind (Q : A -> Prop) (R : B -> Prop) m1 m2 f1 f2 : gsim Q m1 m2 ->
  (forall v, Q v -> gsim R (f1 v) (f2 v)) -> gsim R (bind m1 f1) (bind m2 f2).
Proof.
case=> h e hf; split; first by apply: sim_bind h _ => v /hf[].
move=> t k; rewrite /bind -(e t); case E1: (m1 k) => [a||] //.
by have [_ /hf[_ ->]] := h _ _ E1.
Qed.
Lemma gsim_if (Q : A -> Prop) (b : bool) m1 m2 n1 n2 :
  (b -> gsim Q m1 n1) -> (b = false -> gsim Q m2 n2) ->
  gsim Q (if b then m1 else m2) (if b then n1 else n2).
Proof. by case: b => h1 h2; [exact: h1|exact: h2]. Qed.
Lemma gsim_unwrap (Q : A -> Prop) o : (forall v, o = Some v -> Q v) ->
  gsim Q (unwrap o) (unwrap o).
Proof. by case: o => [a h|_]; [apply: gsim_ret; exact: h|exact: gsim_panic]. Qed.
End Sim.

Lemma gsim_assert (b : bool) : gsim (fun _ => b) (assert b) (assert b).
Proof. by case: b; [exact: gsim_ret|exact: gsim_panic]. Qed.
Lemma gsim_andM m1 m2 n1 n2 : gsim any m1 n1 -> gsim any m2 n2 ->
  gsim any (andM m1 m2) (andM n1 n2).
Proof. by move=> h1 h2; apply: gsim_bind h1 _ => -[] _ //; exact: gsim_refl. Qed.
Lemma gsim_orM m1 m2 n1 n2 : gsim any m1 n1 -> gsim any m2 n2 ->
  gsim any (orM m1 m2) (orM n1 n2).
Proof. by move=> h1 h2; apply: gsim_bind h1 _ => -[] _ //; exact: gsim_refl. Qed.
Lemma gsim_notM m n : gsim any m n -> gsim any (notM m) (notM n).
Proof. by move=> h; apply: gsim_bind h _ => b _; exact: gsim_refl. Qed.

Section Loops.
Context {S : Type} (I : S -> Prop).

Lemma gsim_while c1 c2 b1 b2 s :
  (forall s, I s -> gsim any (c1 s) (c2 s)) ->
  (forall s, I s -> gsim I (b1 s) (b2 s)) ->
  I s -> gsim I (while_loop c1 b1 s) (while_loop c2 b2 s).
Proof.
move=> hc hb Is; split.
  by apply: sim_while Is => s' Is'; [have [] := hc _ Is'|have [] := hb _ Is'].
move=> t k; rewrite /while_loop.
move: {1 3}k => f; elim: f s Is => // f IH s Is; rewrite /= /bind.
have [_ <-] := hc _ Is => //; case: (c1 s k) => [[]||] //.
have [hs <-] := hb _ Is => //; case E1: (b1 s k) => [s'||] //.
by have [_ Is'] := hs _ _ E1; exact: IH.
Qed.
(** An invariant that may mention the loop counter. *)
Lemma gsim_for lo cnt b1 b2 (J : nat -> S -> Prop) s :
  (forall i s, lo <= i < lo + cnt -> J i s -> gsim (J i.+1) (b1 i s) (b2 i s)) ->
  J lo s -> gsim (J (lo + cnt)) (for_loop lo cnt b1 s) (for_loop lo cnt b2 s).
Proof.
elim: cnt lo s => [|c IH] lo s hb Js /=; first by rewrite addn0; exact: gsim_ret.
apply: gsim_bind (hb lo s _ Js) _ => [|s' Js']; first by rewrite leqnn addnS ltnS leq_addr.
rewrite addnS -addSn; apply: IH Js' => i s0 /andP[h1 h2]; apply: hb.
by rewrite (ltnW h1) addnS -addSn.
Qed.
Lemma gsim_rev cnt b1 b2 (J : nat -> S -> Prop) s :
  (forall i s, i < cnt -> J i.+1 s -> gsim (J i) (b1 i s) (b2 i s)) ->
  J cnt s -> gsim (J 0) (for_rev cnt b1 s) (for_rev cnt b2 s).
Proof.
elim: cnt s => [|c IH] s hb Js /=; first exact: gsim_ret.
apply: gsim_bind (hb c s (ltnSn c) Js) _ => s' Js'.
by apply: IH Js' => i s0 ic; apply: hb; exact: ltnW.
Qed.
Lemma gsim_for_ret {R} (Q : R -> Prop) lo cnt b1 b2 (J : nat -> S -> Prop) s :
  (forall i s, lo <= i < lo + cnt -> J i s ->
     gsim (fun x => match x with inl s' => J i.+1 s' | inr r => Q r end) (b1 i s) (b2 i s)) ->
  J lo s ->
  gsim (fun x => match x with inl s' => J (lo + cnt) s' | inr r => Q r end)
    (for_loop_ret lo cnt b1 s) (for_loop_ret lo cnt b2 s).
Proof.
elim: cnt lo s => [|c IH] lo s hb Js /=; first by rewrite addn0; exact: gsim_ret.
apply: gsim_bind (hb lo s _ Js) _ => [|[s'|r] h]; last exact: gsim_ret.
  by rewrite leqnn addnS ltnS leq_addr.
rewrite addnS -addSn; apply: IH h => i s0 /andP[h1 h2]; apply: hb.
by rewrite (ltnW h1) addnS -addSn.
Qed.
Lemma gsim_rev_ret {R} (Q : R -> Prop) cnt b1 b2 (J : nat -> S -> Prop) s :
  (forall i s, i < cnt -> J i.+1 s ->
     gsim (fun x => match x with inl s' => J i s' | inr r => Q r end) (b1 i s) (b2 i s)) ->
  J cnt s ->
  gsim (fun x => match x with inl s' => J 0 s' | inr r => Q r end)
    (for_rev_ret cnt b1 s) (for_rev_ret cnt b2 s).
Proof.
elim: cnt s => [|c IH] s hb Js /=; first exact: gsim_ret.
apply: gsim_bind (hb c s (ltnSn c) Js) _ => -[s'|r] h; last exact: gsim_ret.
by apply: IH h => i s0 ic; apply: hb; exact: ltnW.
Qed.
End Loops.

Lemma gsim_findM lo cnt f1 f2 :
  (forall i, lo <= i < lo + cnt -> gsim any (f1 i) (f2 i)) ->
  gsim (fun o => if o is Some i then lo <= i < lo + cnt else true)
    (findM lo cnt f1) (findM lo cnt f2).
Proof.
elim: cnt lo => [|c IH] lo h /=; first exact: gsim_ret.
apply: gsim_bind (h lo _) _ => [|[] _]; first by rewrite leqnn addnS ltnS leq_addr.
  by apply: gsim_ret; rewrite leqnn addnS ltnS leq_addr.
rewrite addnS -addSn; apply: gsim_mono (IH lo.+1 _) _ => [i /andP[h1 h2]|].
  by apply: h; rewrite (ltnW h1) addnS -addSn.
by case=> // i /andP[h1 ->]; rewrite (ltnW h1).
Qed.

Section Every.
Context {A : Type} (Q : A -> Prop).
Lemma gsim_vget v i : every Q v -> gsim Q (vget v i) (vget v i).
Proof.
move=> Qv; rewrite /vget; have := every_drop i Qv.
by case: (drop i v) => [|x s] //= [Qx _]; exact: gsim_ret.
Qed.
Lemma gsim_vset v i x : every Q v -> Q x -> gsim (every Q) (vset v i x) (vset v i x).
Proof.
move=> Qv Qx; rewrite /vset; case: ifP => // _; apply: gsim_ret.
apply/every_cat; split; first exact: every_take.
by split=> //; exact: every_drop.
Qed.
Lemma gsim_vswap v i j : every Q v -> gsim (every Q) (vswap v i j) (vswap v i j).
Proof.
move=> Qv; rewrite /vswap; apply: gsim_bind (gsim_vget _ Qv) _ => x Qx.
apply: gsim_bind (gsim_vget _ Qv) _ => y Qy.
by apply: gsim_bind (gsim_vset _ Qv Qy) _ => v1 Qv1; exact: gsim_vset.
Qed.
End Every.

Lemma gsim_mapM {A B} (Q : A -> Prop) (R : B -> Prop) f1 f2 s :
  (forall x, Q x -> gsim R (f1 x) (f2 x)) -> every Q s ->
  gsim (every R) (mapM f1 s) (mapM f2 s).
Proof.
move=> h; elim: s => [|x s IH] /=; first by move=> _; exact: gsim_ret.
move=> [Qx Qs]; apply: gsim_bind (h _ Qx) _ => y Ry.
by apply: gsim_bind (IH Qs) _ => ys Rys; exact: gsim_ret.
Qed.
Lemma gsim_map2M {A B C} (Q : A -> Prop) (P : B -> Prop) (R : C -> Prop) f1 f2 s t :
  (forall x y, Q x -> P y -> gsim R (f1 x y) (f2 x y)) -> every Q s -> every P t ->
  gsim (every R) (map2M f1 s t) (map2M f2 s t).
Proof.
move=> h; elim: s t => [|x s IH] [|y t] /=; try by move=> *; exact: gsim_ret.
move=> [Qx Qs] [Py Pt]; apply: gsim_bind (h _ _ Qx Py) _ => z Rz.
by apply: gsim_bind (IH _ Qs Pt) _ => zs Rzs; exact: gsim_ret.
Qed.
Lemma gsim_allM {A} (Q : A -> Prop) f1 f2 s :
  (forall x, Q x -> gsim any (f1 x) (f2 x)) -> every Q s ->
  gsim any (allM f1 s) (allM f2 s).
Proof.
move=> h; elim: s => [|x s IH] /=; first by move=> _; exact: gsim_ret.
by move=> [Qx Qs]; apply: gsim_andM (h _ Qx) (IH Qs).
Qed.
Lemma gsim_all2M {A B} (Q : A -> Prop) (P : B -> Prop) f1 f2 s t :
  (forall x y, Q x -> P y -> gsim any (f1 x y) (f2 x y)) -> every Q s -> every P t ->
  gsim any (all2M f1 s t) (all2M f2 s t).
Proof.
move=> h; elim: s t => [|x s IH] [|y t] /=; try by move=> *; exact: gsim_ret.
by move=> [Qx Qs] [Py Pt]; apply: gsim_andM (h _ _ Qx Py) (IH _ Qs Pt).
Qed.

(** ** Default methods *)
Section Defaults.
Context {E : Type} (Q : E -> Prop).
Definition gsim1 (f g : E -> M E) := forall x, Q x -> gsim Q (f x) (g x).
Definition gsim2 (f g : E -> E -> M E) := forall x y, Q x -> Q y -> gsim Q (f x y) (g x y).
Definition gsim1b (f g : E -> M bool) := forall x, Q x -> gsim any (f x) (g x).
Definition gsim2b (f g : E -> E -> M bool) := forall x y, Q x -> Q y -> gsim any (f x y) (g x y).
Definition gsim1o (f g : E -> M (option E)) := forall x, Q x -> gsim (oQ Q) (f x) (g x).
Definition gsim2o (f g : E -> E -> M (option E)) :=
  forall x y, Q x -> Q y -> gsim (oQ Q) (f x y) (g x y).
Definition gsim2p (f g : E -> E -> M (E * E)) :=
  forall x y, Q x -> Q y -> gsim (both2 Q) (f x y) (g x y).

Lemma gsim_power_loop o1 o2 d1 d2 num x r : gsim2 o1 o2 -> gsim1 d1 d2 -> Q x -> Q r ->
  gsim (fun s => Q s.1.2 /\ Q s.2) (power_loop o1 d1 num x r) (power_loop o2 d2 num x r).
Proof.
move=> ho hd Qx Qr.
apply: (@gsim_while _ (fun s : Z * E * E => Q s.1.2 /\ Q s.2)) => //.
move=> [[n e] s] [/= Qe Qs]; apply: (@gsim_bind _ _ Q) => [|s' Qs'].
  by apply: gsim_if => _; [exact: gsim_ret|exact: ho].
by apply: gsim_bind (hd _ Qe) _ => e' Qe'; exact: gsim_ret.
Qed.
Lemma gsim_ntimes z1 z2 a1 a2 d1 d2 n x : gsim Q z1 z2 -> gsim2 a1 a2 -> gsim1 d1 d2 -> Q x ->
  gsim Q (default_ntimes z1 a1 d1 n x) (default_ntimes z2 a2 d2 n x).
Proof.
move=> hz ha hd Qx; apply: gsim_bind hz _ => r Qr.
by apply: gsim_bind (gsim_power_loop _ ha hd Qx Qr) _ => s [_ h]; exact: gsim_ret.
Qed.

Lemma gsim_is_zero e1 e2 z1 z2 : gsim2b e1 e2 -> gsim Q z1 z2 ->
  gsim1b (default_is_zero e1 z1) (default_is_zero e2 z2).
Proof. by move=> he hz x Qx; apply: gsim_bind hz _ => z Qz; exact: he. Qed.
Lemma gsim_invertible t1 t2 : gsim1o t1 t2 ->
  gsim1b (default_invertible t1) (default_invertible t2).
Proof. by move=> h x Qx; apply: gsim_bind (h x Qx) _ => o _; exact: gsim_refl. Qed.
Lemma gsim_sub n1 n2 a1 a2 : gsim1 n1 n2 -> gsim2 a1 a2 ->
  gsim2 (default_sub n1 a1) (default_sub n2 a2).
Proof. by move=> hn ha x y Qx Qy; apply: gsim_bind (hn y Qy) _ => z Qz; exact: ha. Qed.
Lemma gsim_sub_assign n1 n2 a1 a2 : gsim1 n1 n2 -> gsim2 a1 a2 ->
  gsim2 (default_sub_assign n1 a1) (default_sub_assign n2 a2).
Proof. by move=> hn ha x y Qx Qy; apply: gsim_bind (hn y Qy) _ => z Qz; exact: ha. Qed.
Lemma gsim_divisible z1 z2 t1 t2 : gsim1b z1 z2 -> gsim2o t1 t2 ->
  gsim2b (default_divisible z1 t1) (default_divisible z2 t2).
Proof.
move=> hz ht x y Qx Qy; apply: gsim_bind (hz y Qy) _ => -[] _; first exact: hz.
by apply: gsim_bind (ht x y Qx Qy) _ => o _; exact: gsim_refl.
Qed.
Lemma gsim_associates d1 d2 : gsim2b d1 d2 ->
  gsim2b (default_associates d1) (default_associates d2).
Proof. by move=> h x y Qx Qy; apply: gsim_andM; apply: h. Qed.
Lemma gsim_quo q1 q2 : gsim2p q1 q2 -> gsim2 (default_quo q1) (default_quo q2).
Proof. by move=> h x y Qx Qy; apply: gsim_bind (h x y Qx Qy) _ => z []; intros; exact: gsim_ret. Qed.
Lemma gsim_rem q1 q2 : gsim2p q1 q2 -> gsim2 (default_rem q1) (default_rem q2).
Proof. by move=> h x y Qx Qy; apply: gsim_bind (h x y Qx Qy) _ => z []; intros; exact: gsim_ret. Qed.
Lemma gsim_reduced z1 z2 q1 q2 : gsim1b z1 z2 -> gsim2 q1 q2 ->
  gsim2b (default_reduced z1 q1) (default_reduced z2 q2).
Proof.
move=> hz hq x y Qx Qy; apply: gsim_orM; first exact: hz.
by apply: gsim_bind (hq x y Qx Qy) _ => q Qq; exact: hz.
Qed.
Lemma gsim_gcd z1 z2 r1 r2 : gsim1b z1 z2 -> gsim2 r1 r2 ->
  gsim2 (default_gcd z1 r1) (default_gcd z2 r2).
Proof.
move=> hz hr x y Qx Qy.
apply: (@gsim_bind _ _ (both2 Q)); last by move=> z [Qz _]; exact: gsim_ret.
apply: gsim_while => // s [Q1 Q2]; first by apply: gsim_notM; exact: hz.
by apply: gsim_bind (hr _ _ Q1 Q2) _ => r Qr; exact: gsim_ret.
Qed.
Lemma gsim_lcm z1 z2 m1 m2 q1 q2 g1 g2 : gsim1b z1 z2 -> gsim2 m1 m2 -> gsim2 q1 q2 ->
  gsim2 g1 g2 -> gsim2 (default_lcm z1 m1 q1 g1) (default_lcm z2 m2 q2 g2).
Proof.
move=> hz hm hq hg x y Qx Qy; apply: gsim_bind (hg x y Qx Qy) _ => g Qg.
apply: gsim_bind (hz g Qg) _ => -[] _; first exact: gsim_ret.
by apply: gsim_bind (hq x g Qx Qg) _ => q Qq; exact: hm.
Qed.
Lemma gsim_extended_gcd z1 z2 o1 o2 ze1 ze2 m1 m2 s1 s2 q1 q2 x y :
  gsim1b z1 z2 -> gsim Q o1 o2 -> gsim Q ze1 ze2 -> gsim2 m1 m2 -> gsim2 s1 s2 ->
  gsim2p q1 q2 -> Q x -> Q y ->
  gsim (both3 Q) (default_extended_gcd z1 o1 ze1 m1 s1 q1 x y)
    (default_extended_gcd z2 o2 ze2 m2 s2 q2 x y).
Proof.
move=> hz ho hze hm hs hq Qx Qy; split.
  apply: sim_extended_gcd => //; try by [case: ho|case: hze].
  - by move=> a Qa; case: (hz a Qa).
  - by move=> a b Qa Qb; case: (hm a b Qa Qb).
  - by move=> a b Qa Qb; case: (hs a b Qa Qb).
  - by move=> a b Qa Qb; case: (hq a b Qa Qb).
move=> t k; rewrite /default_extended_gcd.
suff h f : forall x y, Q x -> Q y ->
    extended_gcd_fuel f z1 o1 ze1 m1 s1 q1 x y k =
      extended_gcd_fuel f z2 o2 ze2 m2 s2 q2 x y k /\
    (forall v, extended_gcd_fuel f z1 o1 ze1 m1 s1 q1 x y k = Done v -> both3 Q v).
  by have [] := h k x y Qx Qy.
elim: f {x y Qx Qy} => // f IH x y Qx Qy; rewrite /= /bind.
have [_ <-] := hz _ Qy => //; case: (z1 y k) => [[]||] //.
  have [h1 <-] := ho => //; case E1: (o1 k) => [a||] //.
  have [h2 <-] := hze => //; case E2: (ze1 k) => [c||] //.
  by split=> // v [<-]; have [_ Qa] := h1 _ _ E1; have [_ Qc] := h2 _ _ E2.
have [h1 <-] := hq _ _ Qx Qy => //; case E1: (q1 x y k) => [qr||] //.
have [_ [Q1 Q2]] := h1 _ _ E1; have [<- h2] := IH _ _ Qy Q2.
case E2: (extended_gcd_fuel f z1 o1 ze1 m1 s1 q1 y qr.2 k) => [[[g u] w]||] //.
have [[/= Qg Qu] Qw] := h2 _ E2.
have [h3 <-] := hm _ _ Qw Q1 => //; case E3: (m1 w qr.1 k) => [a||] //.
have [_ Qa] := h3 _ _ E3.
have [h4 <-] := hs _ _ Qu Qa => //; case E4: (s1 u a k) => [c||] //.
by have [_ Qc] := h4 _ _ E4; split=> // v [<-].
Qed.
Lemma gsim_relative_primes i1 i2 g1 g2 : gsim1b i1 i2 -> gsim2 g1 g2 ->
  gsim2b (default_relative_primes i1 g1) (default_relative_primes i2 g2).
Proof. by move=> hi hg x y Qx Qy; apply: gsim_bind (hg x y Qx Qy) _ => g Qg; exact: hi. Qed.
End Defaults.
End Strict.
Arguments gsim st [A] Q m1 m2.
