(** * POps2.v -- counting the calls of the base. *)

From Coq Require Import ZArith Lia.
From mathcomp Require Import all_ssreflect zify.
From Verif Require Import Rust Traits MConstr MOps OpsSpec POps.

Set Implicit Arguments.
Unset Strict Implicit.
Unset Printing Implicit Defensive.

Section Between.
Variable p : op -> bool.
Local Notation btw := (between p).

Lemma between_weak A (w : W A) l h l' h' : btw l h w -> l' <= l -> h <= h' -> btw l' h' w.
Proof. by move=> b ll hh k a t /b /andP [h1 h2]; rewrite (leq_trans ll h1) (leq_trans h2 hh). Qed.
Lemma between_ret A (a : A) : btw 0 0 (wret a).
Proof. by move=> k b t [_ <-]. Qed.
Lemma between_call A o (m : M A) : btw (p o) (p o) (call o m).
Proof. by move=> k a t; rewrite /call /bind; case: (m k) => //= b [_ <-] /=; rewrite addn0 leqnn. Qed.
Lemma between_free A (m : M A) : btw 0 0 (free m).
Proof. by move=> k a t; rewrite /free /bind; case: (m k) => //= b [_ <-]. Qed.
Lemma wbind_done A B (w : W A) (f : A -> W B) k b t : wbind w f k = Done (b, t) ->
  exists a t1 t2, [/\ w k = Done (a, t1), f a k = Done (b, t2) & t = t1 ++ t2].
Proof.
rewrite /wbind /bind; case: (w k) => [[a t1]||] //=; case e: (f a k) => [[c t2]||] //= [<- <-].
by exists a, t1, t2.
Qed.
Lemma between_bind A B (w : W A) (f : A -> W B) l1 h1 l2 h2 : btw l1 h1 w ->
  (forall a, btw l2 h2 (f a)) -> btw (l1 + l2) (h1 + h2) (wbind w f).
Proof.
move=> b1 b2 k b t e; have [a [t1 [t2 [e1 e2 ->]]]] := wbind_done e.
have /andP [a1 a2] := b1 _ _ _ e1; have /andP [a3 a4] := b2 _ _ _ _ e2.
by rewrite count_cat !leq_add.
Qed.
Lemma between_assert A (c : bool) (f : unit -> W A) l h : (c -> btw l h (f tt)) ->
  btw l h (wbind (free (assert c)) f).
Proof.
move=> b k a t e; have [[] [t1 [t2 [e1 e2 ->]]]] := wbind_done e; move: {e} e1; rewrite /assert.
by case: c b => //= b [<-]; exact: (b isT _ _ _ e2).
Qed.
Lemma between_if A (c : bool) (w1 w2 : W A) l h : (c -> btw l h w1) -> (~~ c -> btw l h w2) ->
  btw l h (if c then w1 else w2).
Proof. by case: c => h1 h2; [exact: h1|exact: h2]. Qed.
Lemma between_not w l h : btw l h w -> btw l h (w_not w).
Proof.
move=> b; apply: between_weak (between_bind b _) _ _; first by move=> a; exact: between_ret.
  by rewrite addn0.
by rewrite addn0.
Qed.
Lemma between_map A B (f : A -> W B) l h s : (forall x, btw l h (f x)) ->
  btw (size s * l) (size s * h) (w_map f s).
Proof.
move=> b; elim: s => [|x s IH] /=; first exact: between_ret.
rewrite !mulSn -(addn0 (l + _)) -(addn0 (h + _)) -!addnA; apply: between_bind => // y.
by apply: between_bind => // ys; exact: between_ret.
Qed.
Lemma between_map2 A B C (f : A -> B -> W C) l h s t : (forall x y, btw l h (f x y)) ->
  btw (minn (size s) (size t) * l) (minn (size s) (size t) * h) (w_map2 f s t).
Proof.
move=> b; elim: s t => [|x s IH] [|y t] /=; rewrite ?min0n ?minn0; try exact: between_ret.
rewrite minnSS !mulSn -(addn0 (l + _)) -(addn0 (h + _)) -!addnA; apply: between_bind => // z.
by apply: between_bind => // zs; exact: between_ret.
Qed.
Lemma between_and w1 w2 h1 h2 : btw 0 h1 w1 -> btw 0 h2 w2 -> btw 0 (h1 + h2) (w_and w1 w2).
Proof.
move=> b1 b2; rewrite -(addn0 0); apply: between_bind => // a; apply: between_if => // _.
by refine (between_weak (@between_ret _ false) _ _).
Qed.
Lemma between_all A (f : A -> W bool) h s : (forall x, btw 0 h (f x)) ->
  btw 0 (size s * h) (w_all f s).
Proof.
move=> b; elim: s => [|x s IH] /=; first exact: between_ret.
by rewrite mulSn; exact: between_and.
Qed.
Lemma between_all2 A B (f : A -> B -> W bool) h s t : (forall x y, btw 0 h (f x y)) ->
  btw 0 (minn (size s) (size t) * h) (w_all2 f s t).
Proof.
move=> b; elim: s t => [|x s IH] [|y t] /=; rewrite ?min0n ?minn0; try exact: between_ret.
by rewrite minnSS mulSn; exact: between_and.
Qed.
Lemma between_for_sum S (f : nat -> S -> W S) l h lo c s :
  (forall i s, lo <= i < lo + c -> btw (l i) (h i) (f i s)) ->
  btw (\sum_(lo <= i < lo + c) l i) (\sum_(lo <= i < lo + c) h i) (w_for lo c f s).
Proof.
elim: c lo s => [|c IH] lo s b /=; first by rewrite addn0 !big_geq //; exact: between_ret.
have lt : lo < lo + c.+1 by rewrite addnS ltnS leq_addr.
rewrite !(big_ltn lt); apply: between_bind => [|a].
  by apply: b; rewrite leqnn lt.
rewrite addnS -addSn; apply: IH => i t /andP [h1 h2]; apply: b.
by rewrite (ltnW h1) addnS -addSn.
Qed.
Lemma between_for S (f : nat -> S -> W S) l h lo c s :
  (forall i s, btw l h (f i s)) -> btw (c * l) (c * h) (w_for lo c f s).
Proof.
move=> b; elim: c lo s => [|c IH] lo s /=; first exact: between_ret.
by rewrite !mulSn; apply: between_bind.
Qed.
Lemma between_for_rev S (f : nat -> S -> W S) l h c s :
  (forall i s, btw l h (f i s)) -> btw (c * l) (c * h) (w_for_rev c f s).
Proof.
move=> b; elim: c s => [|c IH] s /=; first exact: between_ret.
by rewrite !mulSn; apply: between_bind.
Qed.
(** A loop that may be left early: at most the calls of all iterations, and at least those of
    one iteration each if it is not left. *)
Lemma for_ret_makes S R (f : nat -> S -> W (S + R)) l (h : nat -> nat) lo c s :
  (forall i s, lo <= i < lo + c -> makes (f i s) (fun x t =>
     (if x is inl _ then l else 0) <= count p t <= h i)) ->
  makes (w_for_ret lo c f s) (fun x t =>
    (if x is inl _ then c * l else 0) <= count p t <= \sum_(lo <= i < lo + c) h i).
Proof.
elim: c lo s => [|c IH] lo s b k x t /=; first by case=> <- <-.
move=> e; have [y [t1 [t2 [e1 e2 ->]]]] := wbind_done e; have lt : lo < lo + c.+1 by rewrite addnS ltnS leq_addr.
rewrite (big_ltn lt) count_cat.
have /(_ _)/andP := b _ _ _ _ _ _ e1; rewrite leqnn lt => /(_ isT) [a1 a2].
case: y a1 e1 e2 => [s'|r] a1 e1 e2.
  have bs i s0 : lo.+1 <= i < lo.+1 + c -> makes (f i s0) (fun x t =>
      (if x is inl _ then l else 0) <= count p t <= h i).
    by move=> /andP [i1 i2]; apply: b; rewrite (ltnW i1); move: i2; clear; lia.
  have := IH lo.+1 s' bs _ _ _ e2; rewrite addSn -addnS => /andP [a3 a4].
  rewrite leq_add // andbT; case: x {e2 e} a3 => [x|x] a3 //.
  by rewrite mulSn leq_add.
by move: e2 => -[<- <-] /=; rewrite addn0 (leq_trans a2) // leq_addr.
Qed.
Lemma for_rev_ret_makes S R (f : nat -> S -> W (S + R)) l h c s :
  (forall i s, makes (f i s) (fun x t => (if x is inl _ then l else 0) <= count p t <= h)) ->
  makes (w_for_rev_ret c f s) (fun x t =>
    (if x is inl _ then c * l else 0) <= count p t <= c * h).
Proof.
move=> b; elim: c s => [|c IH] s k x t /=; first by case=> <- <-.
move=> e; have [y [t1 [t2 [e1 e2 ->]]]] := wbind_done e; rewrite count_cat.
have /andP [a1 a2] := b _ _ _ _ _ e1.
case: y a1 e1 e2 => [s'|r] a1 e1 e2; last first.
  by move: e2 => -[<- <-] /=; rewrite addn0 (leq_trans a2) // mulSn leq_addr.
have /andP [a3 a4] := IH _ _ _ _ e2; rewrite !mulSn leq_add // andbT.
by case: x {e e2} a3 => [x|x] a3 //; rewrite ?mulSn leq_add.
Qed.
Lemma between_find f h lo c : (forall i, btw 0 h (f i)) -> btw 0 (c * h) (w_find lo c f).
Proof.
move=> b; elim: c lo => [|c IH] lo /=; first exact: between_ret.
rewrite mulSn -(addn0 0); apply: between_bind => // a; apply: between_if => // _.
by refine (between_weak (@between_ret _ (Some lo)) _ _).
Qed.
End Between.
