(** * PSim.v -- comparing two runs: whenever the first returns, the second one
    returns the same value. *)

From Coq Require Import ZArith.
From mathcomp Require Import all_ssreflect.
From Verif Require Import Rust Traits Wp.

Set Implicit Arguments.
Unset Strict Implicit.
Unset Printing Implicit Defensive.

(** [sim Q m1 m2]: if [m1] returns [v] then so does [m2], and [Q v]. *)
Definition sim {A} (Q : A -> Prop) (m1 m2 : M A) : Prop :=
  forall k v, m1 k = Done v -> m2 k = Done v /\ Q v.
Notation any := (fun _ => True).

Section Sim.
Context {A B : Type}.

Lemma sim_returns (Q : A -> Prop) m1 m2 v : sim Q m1 m2 -> returns m1 v ->
  returns m2 v /\ Q v.
Proof.
move=> h [n hn]; split; last by have [] := h _ _ (hn n (leqnn n)).
by exists n => k nk; have [] := h _ _ (hn k nk).
Qed.
Lemma sim_ensures p (Q : A -> Prop) m1 m2 (P : A -> Prop) : sim Q m1 m2 ->
  ensures p m1 P -> ensures p m1 (fun v => [/\ P v, returns m2 v & Q v]).
Proof.
move=> h [[v [hv Pv]]|hp]; last by right.
by left; exists v; have [h1 h2] := sim_returns h hv.
Qed.
Lemma sim_ret (Q : A -> Prop) v : Q v -> sim Q (ret v) (ret v).
Proof. by move=> Qv k u [<-]. Qed.
Lemma sim_panic (Q : A -> Prop) m : sim Q panic m.
Proof. by []. Qed.
Lemma sim_refl m : sim any m (m : M A).
Proof. by move=> k v ->. Qed.
Lemma sim_mono (P Q : A -> Prop) m1 m2 : sim P m1 m2 -> (forall v, P v -> Q v) ->
  sim Q m1 m2.
Proof. by move=> h PQ k v /h[-> /PQ]. Qed.
Lemma sim_bind (Q : A -> Prop) (R : B -> Prop) m1 m2 f1 f2 : sim Q m1 m2 ->
  (forall v, Q v -> sim R (f1 v) (f2 v)) -> sim R (bind m1 f1) (bind m2 f2).
Proof.
move=> h hf k v; rewrite /bind; case E1: (m1 k) => [a||] // E2.
by have [-> Qa] := h _ _ E1; exact: hf Qa _ _ E2.
Qed.
(** The first run may have extra checks. *)
Lemma sim_skip (R : B -> Prop) (m1 : M A) (m : M B) m2 :
  sim R m m2 -> sim R (bind m1 (fun _ => m)) m2.
Proof. by move=> h k v; rewrite /bind; case: (m1 k) => // _; exact: h. Qed.
Lemma sim_if (Q : A -> Prop) (b : bool) m1 m2 n1 n2 :
  (b -> sim Q m1 n1) -> (b = false -> sim Q m2 n2) ->
  sim Q (if b then m1 else m2) (if b then n1 else n2).
Proof. by case: b => h1 h2; [exact: h1|exact: h2]. Qed.
Lemma sim_unwrap (Q : A -> Prop) o : (forall v, o = Some v -> Q v) ->
  sim Q (unwrap o) (unwrap o).
Proof. by case: o => // a h; apply: sim_ret; exact: h. Qed.
End Sim.

Lemma sim_assert (b : bool) : sim (fun _ => b) (assert b) (assert b).
Proof. by case: b => //; exact: sim_ret. Qed.
Lemma sim_andM m1 m2 n1 n2 : sim any m1 n1 -> sim any m2 n2 ->
  sim any (andM m1 m2) (andM n1 n2).
Proof. by move=> h1 h2; apply: sim_bind h1 _ => -[] _ //; exact: sim_refl. Qed.
Lemma sim_orM m1 m2 n1 n2 : sim any m1 n1 -> sim any m2 n2 ->
  sim any (orM m1 m2) (orM n1 n2).
Proof. by move=> h1 h2; apply: sim_bind h1 _ => -[] _ //; exact: sim_refl. Qed.
Lemma sim_notM m n : sim any m n -> sim any (notM m) (notM n).
Proof. by move=> h; apply: sim_bind h _ => b _; exact: sim_refl. Qed.

Section Loops.
Context {S : Type} (I : S -> Prop).

Lemma sim_while c1 c2 b1 b2 s :
  (forall s, I s -> sim any (c1 s) (c2 s)) ->
  (forall s, I s -> sim I (b1 s) (b2 s)) ->
  I s -> sim I (while_loop c1 b1 s) (while_loop c2 b2 s).
Proof.
move=> hc hb Is k v; rewrite /while_loop.
move: {1 3}k => f; elim: f s Is => // f IH s Is; rewrite /= /bind.
case E1: (c1 s k) => [b||] //; have [-> _] := hc _ Is _ _ E1.
case: b {E1} => [|[<-]] //.
by case E2: (b1 s k) => [s'||] //; have [-> Is'] := hb _ Is _ _ E2; exact: IH.
Qed.
(** An invariant that may mention the loop counter. *)
Lemma sim_for lo cnt b1 b2 (J : nat -> S -> Prop) s :
  (forall i s, lo <= i < lo + cnt -> J i s -> sim (J i.+1) (b1 i s) (b2 i s)) ->
  J lo s -> sim (J (lo + cnt)) (for_loop lo cnt b1 s) (for_loop lo cnt b2 s).
Proof.
elim: cnt lo s => [|c IH] lo s hb Js /=; first by rewrite addn0; exact: sim_ret.
apply: sim_bind (hb lo s _ Js) _ => [|s' Js']; first by rewrite leqnn addnS ltnS leq_addr.
rewrite addnS -addSn; apply: IH Js' => i s0 /andP[h1 h2]; apply: hb.
by rewrite (ltnW h1) addnS -addSn.
Qed.
Lemma sim_rev cnt b1 b2 (J : nat -> S -> Prop) s :
  (forall i s, i < cnt -> J i.+1 s -> sim (J i) (b1 i s) (b2 i s)) ->
  J cnt s -> sim (J 0) (for_rev cnt b1 s) (for_rev cnt b2 s).
Proof.
elim: cnt s => [|c IH] s hb Js /=; first exact: sim_ret.
apply: sim_bind (hb c s (ltnSn c) Js) _ => s' Js'.
by apply: IH Js' => i s0 ic; apply: hb; exact: ltnW.
Qed.
Lemma sim_for_ret {R} (Q : R -> Prop) lo cnt b1 b2 (J : nat -> S -> Prop) s :
  (forall i s, lo <= i < lo + cnt -> J i s ->
     sim (fun x => match x with inl s' => J i.+1 s' | inr r => Q r end) (b1 i s) (b2 i s)) ->
  J lo s ->
  sim (fun x => match x with inl s' => J (lo + cnt) s' | inr r => Q r end)
    (for_loop_ret lo cnt b1 s) (for_loop_ret lo cnt b2 s).
Proof.
elim: cnt lo s => [|c IH] lo s hb Js /=; first by rewrite addn0; exact: sim_ret.
apply: sim_bind (hb lo s _ Js) _ => [|[s'|r] h]; last exact: sim_ret.
  by rewrite leqnn addnS ltnS leq_addr.
rewrite addnS -addSn; apply: IH h => i s0 /andP[h1 h2]; apply: hb.
by rewrite (ltnW h1) addnS -addSn.
Qed.
Lemma sim_rev_ret {R} (Q : R -> Prop) cnt b1 b2 (J : nat -> S -> Prop) s :
  (forall i s, i < cnt -> J i.+1 s ->
     sim (fun x => match x with inl s' => J i s' | inr r => Q r end) (b1 i s) (b2 i s)) ->
  J cnt s ->
  sim (fun x => match x with inl s' => J 0 s' | inr r => Q r end)
    (for_rev_ret cnt b1 s) (for_rev_ret cnt b2 s).
Proof.
elim: cnt s => [|c IH] s hb Js /=; first exact: sim_ret.
apply: sim_bind (hb c s (ltnSn c) Js) _ => -[s'|r] h; last exact: sim_ret.
by apply: IH h => i s0 ic; apply: hb; exact: ltnW.
Qed.
End Loops.

Lemma sim_findM lo cnt f1 f2 :
  (forall i, lo <= i < lo + cnt -> sim any (f1 i) (f2 i)) ->
  sim (fun o => if o is Some i then lo <= i < lo + cnt else true)
    (findM lo cnt f1) (findM lo cnt f2).
Proof.
elim: cnt lo => [|c IH] lo h /=; first exact: sim_ret.
apply: sim_bind (h lo _) _ => [|[] _]; first by rewrite leqnn addnS ltnS leq_addr.
  by apply: sim_ret; rewrite leqnn addnS ltnS leq_addr.
rewrite addnS -addSn; apply: sim_mono (IH lo.+1 _) _ => [i /andP[h1 h2]|].
  by apply: h; rewrite (ltnW h1) addnS -addSn.
by case=> // i /andP[h1 ->]; rewrite (ltnW h1).
Qed.

(** Every element of a vector. *)
Fixpoint every {A} (Q : A -> Prop) (s : seq A) : Prop :=
  if s is x :: s' then Q x /\ every Q s' else True.
Section Every.
Context {A : Type} (Q : A -> Prop).
Lemma every_cat s t : every Q (s ++ t) <-> every Q s /\ every Q t.
Proof. by elim: s => [|x s IH] /=; [tauto|rewrite IH; tauto]. Qed.
Lemma every_rev s : every Q s -> every Q (rev s).
Proof.
elim: s => // x s IH [Qx Qs]; rewrite rev_cons -cats1.
by apply/every_cat; split; [exact: IH|].
Qed.
Lemma every_nseq n x : Q x -> every Q (nseq n x).
Proof. by move=> Qx; elim: n => //= n IH. Qed.
Lemma every_take n s : every Q s -> every Q (take n s).
Proof. by elim: s n => [|x s IH] [|n] //= [Qx Qs]; split=> //; exact: IH. Qed.
Lemma every_drop n s : every Q s -> every Q (drop n s).
Proof. by elim: s n => [|x s IH] [|n] //= [Qx Qs]; exact: IH. Qed.
Lemma every_last x s : Q x -> every Q s -> Q (last x s).
Proof. by elim: s x => // y s IH x _ [Qy Qs]; exact: IH. Qed.
Lemma sim_vget v i : every Q v -> sim Q (vget v i) (vget v i).
Proof.
move=> Qv; rewrite /vget; have := every_drop i Qv.
by case: (drop i v) => [|x s] //= [Qx _]; exact: sim_ret.
Qed.
Lemma sim_vset v i x : every Q v -> Q x -> sim (every Q) (vset v i x) (vset v i x).
Proof.
move=> Qv Qx; rewrite /vset; case: ifP => // _; apply: sim_ret.
apply/every_cat; split; first exact: every_take.
by split=> //; exact: every_drop.
Qed.
Lemma sim_vswap v i j : every Q v -> sim (every Q) (vswap v i j) (vswap v i j).
Proof.
move=> Qv; rewrite /vswap; apply: sim_bind (sim_vget Qv) _ => x Qx.
apply: sim_bind (sim_vget Qv) _ => y Qy.
by apply: sim_bind (sim_vset Qv Qy) _ => v1 Qv1; exact: sim_vset.
Qed.
Lemma every_vresize v n x : every Q v -> Q x -> every Q (vresize v n x).
Proof.
by move=> Qv Qx; apply/every_cat; split; [exact: every_take|exact: every_nseq].
Qed.
End Every.
Lemma every_True {A} (s : seq A) : every any s.
Proof. by elim: s => //= x s IH. Qed.

Lemma sim_mapM {A B} (Q : A -> Prop) (R : B -> Prop) f1 f2 s :
  (forall x, Q x -> sim R (f1 x) (f2 x)) -> every Q s ->
  sim (every R) (mapM f1 s) (mapM f2 s).
Proof.
move=> h; elim: s => [|x s IH] /=; first by move=> _; exact: sim_ret.
move=> [Qx Qs]; apply: sim_bind (h _ Qx) _ => y Ry.
by apply: sim_bind (IH Qs) _ => ys Rys; exact: sim_ret.
Qed.
Lemma sim_map2M {A B C} (Q : A -> Prop) (P : B -> Prop) (R : C -> Prop) f1 f2 s t :
  (forall x y, Q x -> P y -> sim R (f1 x y) (f2 x y)) -> every Q s -> every P t ->
  sim (every R) (map2M f1 s t) (map2M f2 s t).
Proof.
move=> h; elim: s t => [|x s IH] [|y t] /=; try by move=> *; exact: sim_ret.
move=> [Qx Qs] [Py Pt]; apply: sim_bind (h _ _ Qx Py) _ => z Rz.
by apply: sim_bind (IH _ Qs Pt) _ => zs Rzs; exact: sim_ret.
Qed.
Lemma sim_allM {A} (Q : A -> Prop) f1 f2 s :
  (forall x, Q x -> sim any (f1 x) (f2 x)) -> every Q s ->
  sim any (allM f1 s) (allM f2 s).
Proof.
move=> h; elim: s => [|x s IH] /=; first by move=> _; exact: sim_ret.
by move=> [Qx Qs]; apply: sim_andM (h _ Qx) (IH Qs).
Qed.
Lemma sim_all2M {A B} (Q : A -> Prop) (P : B -> Prop) f1 f2 s t :
  (forall x y, Q x -> P y -> sim any (f1 x y) (f2 x y)) -> every Q s -> every P t ->
  sim any (all2M f1 s t) (all2M f2 s t).
Proof.
move=> h; elim: s t => [|x s IH] [|y t] /=; try by move=> *; exact: sim_ret.
by move=> [Qx Qs] [Py Pt]; apply: sim_andM (h _ _ Qx Py) (IH _ Qs Pt).
Qed.

(** ** Default methods *)
Definition oQ {A} (Q : A -> Prop) (o : option A) : Prop := if o is Some v then Q v else True.
Section Defaults.
Context {E : Type} (Q : E -> Prop).
Definition sim1 (f g : E -> M E) := forall x, Q x -> sim Q (f x) (g x).
Definition sim2 (f g : E -> E -> M E) := forall x y, Q x -> Q y -> sim Q (f x y) (g x y).
Definition sim1b (f g : E -> M bool) := forall x, Q x -> sim any (f x) (g x).
Definition sim2b (f g : E -> E -> M bool) := forall x y, Q x -> Q y -> sim any (f x y) (g x y).
Definition sim1o (f g : E -> M (option E)) := forall x, Q x -> sim (oQ Q) (f x) (g x).
Definition sim2o (f g : E -> E -> M (option E)) :=
  forall x y, Q x -> Q y -> sim (oQ Q) (f x y) (g x y).
Definition both2 (z : E * E) := Q z.1 /\ Q z.2.
Definition both3 (z : E * E * E) := both2 z.1 /\ Q z.2.
Definition sim2p (f g : E -> E -> M (E * E)) :=
  forall x y, Q x -> Q y -> sim both2 (f x y) (g x y).

Lemma sim_power_loop o1 o2 d1 d2 num x r : sim2 o1 o2 -> sim1 d1 d2 -> Q x -> Q r ->
  sim (fun s => Q s.1.2 /\ Q s.2) (power_loop o1 d1 num x r) (power_loop o2 d2 num x r).
Proof.
move=> ho hd Qx Qr.
apply: (@sim_while _ (fun s : Z * E * E => Q s.1.2 /\ Q s.2)) => //.
move=> [[n e] s] [/= Qe Qs]; apply: (@sim_bind _ _ Q) => [|s' Qs'].
  by apply: sim_if => _; [exact: sim_ret|exact: ho].
by apply: sim_bind (hd _ Qe) _ => e' Qe'; exact: sim_ret.
Qed.
Lemma sim_ntimes z1 z2 a1 a2 d1 d2 n x : sim Q z1 z2 -> sim2 a1 a2 -> sim1 d1 d2 -> Q x ->
  sim Q (default_ntimes z1 a1 d1 n x) (default_ntimes z2 a2 d2 n x).
Proof.
move=> hz ha hd Qx; apply: sim_bind hz _ => r Qr.
by apply: sim_bind (sim_power_loop ha hd Qx Qr) _ => s [_ h]; exact: sim_ret.
Qed.

Lemma sim_is_zero e1 e2 z1 z2 : sim2b e1 e2 -> sim Q z1 z2 ->
  sim1b (default_is_zero e1 z1) (default_is_zero e2 z2).
Proof. by move=> he hz x Qx; apply: sim_bind hz _ => z Qz; exact: he. Qed.
Lemma sim_invertible t1 t2 : sim1o t1 t2 ->
  sim1b (default_invertible t1) (default_invertible t2).
Proof. by move=> h x Qx; apply: sim_bind (h x Qx) _ => o _; exact: sim_refl. Qed.
Lemma sim_sub n1 n2 a1 a2 : sim1 n1 n2 -> sim2 a1 a2 ->
  sim2 (default_sub n1 a1) (default_sub n2 a2).
Proof. by move=> hn ha x y Qx Qy; apply: sim_bind (hn y Qy) _ => z Qz; exact: ha. Qed.
Lemma sim_sub_assign n1 n2 a1 a2 : sim1 n1 n2 -> sim2 a1 a2 ->
  sim2 (default_sub_assign n1 a1) (default_sub_assign n2 a2).
Proof. by move=> hn ha x y Qx Qy; apply: sim_bind (hn y Qy) _ => z Qz; exact: ha. Qed.
Lemma sim_divisible z1 z2 t1 t2 : sim1b z1 z2 -> sim2o t1 t2 ->
  sim2b (default_divisible z1 t1) (default_divisible z2 t2).
Proof.
move=> hz ht x y Qx Qy; apply: sim_bind (hz y Qy) _ => -[] _; first exact: hz.
by apply: sim_bind (ht x y Qx Qy) _ => o _; exact: sim_refl.
Qed.
Lemma sim_associates d1 d2 : sim2b d1 d2 ->
  sim2b (default_associates d1) (default_associates d2).
Proof. by move=> h x y Qx Qy; apply: sim_andM; apply: h. Qed.
Lemma sim_quo q1 q2 : sim2p q1 q2 -> sim2 (default_quo q1) (default_quo q2).
Proof. by move=> h x y Qx Qy; apply: sim_bind (h x y Qx Qy) _ => z []; intros; exact: sim_ret. Qed.
Lemma sim_rem q1 q2 : sim2p q1 q2 -> sim2 (default_rem q1) (default_rem q2).
Proof. by move=> h x y Qx Qy; apply: sim_bind (h x y Qx Qy) _ => z []; intros; exact: sim_ret. Qed.
Lemma sim_reduced z1 z2 q1 q2 : sim1b z1 z2 -> sim2 q1 q2 ->
  sim2b (default_reduced z1 q1) (default_reduced z2 q2).
Proof.
move=> hz hq x y Qx Qy; apply: sim_orM; first exact: hz.
by apply: sim_bind (hq x y Qx Qy) _ => q Qq; exact: hz.
Qed.
Lemma sim_gcd z1 z2 r1 r2 : sim1b z1 z2 -> sim2 r1 r2 ->
  sim2 (default_gcd z1 r1) (default_gcd z2 r2).
Proof.
move=> hz hr x y Qx Qy.
apply: (@sim_bind _ _ both2); last by move=> z [Qz _]; exact: sim_ret.
apply: sim_while => // s [Q1 Q2]; first by apply: sim_notM; exact: hz.
by apply: sim_bind (hr _ _ Q1 Q2) _ => r Qr; exact: sim_ret.
Qed.
Lemma sim_lcm z1 z2 m1 m2 q1 q2 g1 g2 : sim1b z1 z2 -> sim2 m1 m2 -> sim2 q1 q2 ->
  sim2 g1 g2 -> sim2 (default_lcm z1 m1 q1 g1) (default_lcm z2 m2 q2 g2).
Proof.
move=> hz hm hq hg x y Qx Qy; apply: sim_bind (hg x y Qx Qy) _ => g Qg.
apply: sim_bind (hz g Qg) _ => -[] _; first exact: sim_ret.
by apply: sim_bind (hq x g Qx Qg) _ => q Qq; exact: hm.
Qed.
Lemma sim_extended_gcd z1 z2 o1 o2 ze1 ze2 m1 m2 s1 s2 q1 q2 x y :
  sim1b z1 z2 -> sim Q o1 o2 -> sim Q ze1 ze2 -> sim2 m1 m2 -> sim2 s1 s2 ->
  sim2p q1 q2 -> Q x -> Q y ->
  sim both3 (default_extended_gcd z1 o1 ze1 m1 s1 q1 x y)
    (default_extended_gcd z2 o2 ze2 m2 s2 q2 x y).
Proof.
move=> hz ho hze hm hs hq Qx Qy k v; rewrite /default_extended_gcd.
move: {1 3}k => f; elim: f x y Qx Qy v => // f IH x y Qx Qy v /=.
rewrite /bind; case E1: (z1 y k) => [b||] //; have [-> _] := hz _ Qy _ _ E1.
case: b {E1}.
  case E1: (o1 k) => [a||] //; have [-> Qa] := ho _ _ E1.
  case E2: (ze1 k) => [c||] //; have [-> Qc] := hze _ _ E2.
  by case=> <-.
case E1: (q1 x y k) => [qr||] //; have [-> [Q1 Q2]] := hq _ _ Qx Qy _ _ E1.
case E2: (extended_gcd_fuel f z1 o1 ze1 m1 s1 q1 y qr.2 k) => [[[g u] w]||] //.
have [-> [[/= Qg Qu] Qw]] := IH _ _ Qy Q2 _ E2.
case E3: (m1 w qr.1 k) => [a||] //; have [-> Qa] := hm _ _ Qw Q1 _ _ E3.
case E4: (s1 u a k) => [c||] //; have [-> Qc] := hs _ _ Qu Qa _ _ E4.
by case=> <-.
Qed.
Lemma sim_relative_primes i1 i2 g1 g2 : sim1b i1 i2 -> sim2 g1 g2 ->
  sim2b (default_relative_primes i1 g1) (default_relative_primes i2 g2).
Proof. by move=> hi hg x y Qx Qy; apply: sim_bind (hg x y Qx Qy) _ => g Qg; exact: hi. Qed.
End Defaults.
