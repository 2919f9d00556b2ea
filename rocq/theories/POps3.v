(** * POps3.v -- the numbers of calls of the base. *)

From Coq Require Import ZArith Lia.
From mathcomp Require Import all_ssreflect zify.
From Verif Require Import Rust RustFacts Traits MConstr MOps OpsSpec POps POps2.

Set Implicit Arguments.
Unset Strict Implicit.
Unset Printing Implicit Defensive.

Ltac cnt1 := first
  [ simple eapply between_ret | simple eapply between_call | simple eapply between_free
  | simple eapply between_not | simple eapply between_map; intro
  | simple eapply between_map2; intros ? ? | simple eapply between_for; intros ? ?
  | simple eapply between_for_rev; intros ? ? | simple eapply between_bind; [|intro] ].
Ltac cnt := repeat cnt1.

Section Count.
Variables (p : op -> bool) (E : Type).
Local Notation btw := (between p).
Implicit Types (x y : E) (v u : seq E).

(** ** Vectors *)
Lemma vector1_count n o f v : btw (n * p o) (n * p o) (w_vector1 n o f v).
Proof.
apply: between_assert => /eqP <-; cnt.
Qed.
Lemma vector2_count n o f v u : btw (n * p o) (n * p o) (w_vector2 n o f v u).
Proof.
apply: between_assert => /andP [/eqP <- /eqP e].
apply: between_weak; first by cnt.
  by rewrite e minnn.
by rewrite e minnn.
Qed.

(** ** Polynomials *)
Lemma poly_mul_count A S v u :
  btw (size v * size u * (p Mul + p Add)) (size v * size u * (p Mul + p Add) + p Const)
    (w_poly_mul A S v u).
Proof.
apply: between_if => [/orP [/eqP -> |/eqP ->]|_].
- by rewrite mul0n; refine (between_weak (@between_ret _ _ _) _ _).
- by rewrite muln0 mul0n; refine (between_weak (@between_ret _ _ _) _ _).
apply: between_weak; first by cnt.
  all: by rewrite ?(addn0, add0n) -mulnA; lia.
Qed.
Lemma poly_neg_count A v : btw (size v * p Neg) (size v * p Neg) (w_poly_neg A v).
Proof. by rewrite /w_poly_neg; cnt. Qed.
Lemma poly_add_count A v u :
  btw (minn (size v) (size u) * p Add)
    (minn (size v) (size u) * (p Add + p Test + p Const)) (w_poly_add A v u).
Proof.
apply: between_if => [ne|/negbNE/eqP e].
  case: (ltnP (size u) (size v)) => h.
    apply: between_weak; first by cnt.
      by rewrite !add0n addn0.
    by rewrite !add0n addn0 leq_mul2l -addnA leq_addr orbT.
  apply: between_weak; first by cnt.
    by rewrite !add0n addn0.
  by rewrite !add0n addn0 leq_mul2l -addnA leq_addr orbT.
rewrite e minnn; apply: between_for => i s.
apply: (between_weak (l := 0 + (0 + (p Add + (p Test + 0))))
  (h := 0 + (0 + (p Add + (p Test + p Const))))); try by case: (p Test); lia.
apply: between_bind; [by cnt|move=> x]; apply: between_bind; [by cnt|move=> y].
apply: between_bind; [by cnt|move=> a]; apply: between_bind; [by cnt|move=> b].
apply: between_if => _; last by refine (between_weak (@between_ret _ _ _) _ _).
by apply: between_weak; [by cnt| |rewrite addn0].
Qed.
Lemma trim_makes A v i : makes (w_poly_trim_index A v i) (fun j t => j <= i /\ count p t <= i * p Test).
Proof.
move=> k; rewrite /w_poly_trim_index /w_while; move: {1}k => f.
elim: f i => [|f IH] i j t //= e; have [b [t1 [t2 [e1 e2 ->]]]] := wbind_done e.
rewrite count_cat; case: i {e} e1 e2 => [|i] /=.
  by case=> <- <- [<- <-].
move=> e1 e2; have c1 : count p t1 <= p Test.
  have [x [s1 [s2 [f1 f2 ->]]]] := wbind_done e1; rewrite count_cat.
  have /andP [_ h1] := @between_free p _ _ _ _ _ f1.
  have /andP [_ h2] := @between_call p _ _ _ _ _ _ f2.
  by move: h1; rewrite leqn0 => /eqP ->.
case: b {e1} e2 => [e2|[<- <-]]; last 
  by rewrite addn0 mulSn (leq_trans c1) // leq_addr.
have [x [s1 [s2 [[<- <-] f2 ->]]]] := wbind_done e2.
by rewrite subSS subn0 in f2; have [h1 h2] := IH _ _ _ f2; rewrite mulSn leq_add // (leqW h1).
Qed.
(** Division: the remainder is shorter than the divisor. *)
Definition quo_rem_cost (a b : nat) : nat :=
  (a - b + 1) * (p Inv + p Neg + (b - 1) * (p Mul + p Add)).
Lemma poly_quo_rem_count A v u : makes (w_poly_quo_rem A v u) (fun r t =>
  0 < size u /\
  if size v < size u then r = ([::], v) /\ t = [::] else
  size r.2 < size u /\
  quo_rem_cost (size v) (size u) <= count p t <=
    quo_rem_cost (size v) (size u) + p Const + size u * p Test).
Proof.
move=> k r t e; have [[] [t1 [t2 [e1 e2 ->]]]] := wbind_done e.
have u0 : 0 < size u by move: e1; rewrite /assert; case: (size u).
have {e1 e} -> : t1 = [::] by move: e1; rewrite /assert; case: (~~ _) => //= -[<-].
split=> //=; case: ltnP e2 => _; first by case=> <- <-.
move=> e; have [z [{}t1 [t3 [e1 e2 ->]]]] := wbind_done e; have {e e1} c1 := @between_call p _ _ _ _ _ _ e1.
have [a [t4 [t5 [e3 e4 ->]]]] := wbind_done e2; have {e2 e3} c2 := @between_free p _ _ _ _ _ e3.
have [b [t6 [t7 [e5 e6 ->]]]] := wbind_done e4; have {e4 e5} c3 := @between_call p _ _ _ _ _ _ e5.
have [[] [t8 [t9 [e7 e8 ->]]]] := wbind_done e6; have {e6 e7} c4 := @between_free p _ _ _ _ _ e7.
have [[quo rem] [s1 [s2 [f1 f2 ->]]]] := wbind_done e8.
have c5 : quo_rem_cost (size v) (size u) <= count p s1 <= quo_rem_cost (size v) (size u).
  apply: (_ : btw _ _ _) f1; apply: between_weak.
  - apply: between_for_rev => i [q w]; cnt.
  - by rewrite resize_size; apply: leq_mul => //; rewrite ?(addn0, add0n) addnA.
  by rewrite resize_size; apply: leq_mul => //; rewrite ?(addn0, add0n) addnA.
have [i [s3 [s4 [f3 [<- <-] ->]]]] := wbind_done f2; have [h1 h2] := trim_makes f3.
split=> /=.
  by rewrite size_take; case: ifP => h; lia.
rewrite !count_cat /= addn0.
have h3 : (size u - 1) * p Test + p Test = size u * p Test by rewrite -mulSnr; congr (_ * _); lia.
lia.
Qed.
(** Euclid's algorithm on polynomials: every bound that has room for one
division and for the rest is a bound of the whole. *)
Lemma poly_gcd_count A v u (g : nat -> nat -> nat) :
  (forall a b, a <= b -> g b a <= g a b) ->
  (forall a b c, c < b <= a ->
    quo_rem_cost a b + p Const + b * p Test + g b c <= g a b) ->
  btw 0 (g (size v) (size u)) (w_poly_gcd A v u).
Proof.
move=> sym step; rewrite -(addn0 0) -(addn0 (g _ _)); apply: between_bind; last by move=> s; exact: between_ret.
move=> k; rewrite /w_while; move: {1}k => f.
have -> : size v = size (v, u).1 by []; have -> : size u = size (v, u).2 by [].
elim: f (v, u) => [|f IH] s r t //= e; have [b [t1 [t2 [[<- <-] e2 ->]]]] := wbind_done e.
case: eqP e2 => [s0 [_ <-]|/eqP s0 e2] //=.
have [q [t3 [t4 [e3 e4 ->]]]] := wbind_done e2; rewrite count_cat.
have /= h := IH _ _ _ e4.
have [x [t5 [t6 [e5 [e6 <-] t56]]]] := wbind_done e3.
have [x' [t7 [t8 [e7 [x'x <-] t78]]]] := wbind_done e5; rewrite {}t56 {}t78 !cats0.
have [_ c] := poly_quo_rem_count e7.
case: ltnP c => [lt [rv ->]|le [lt /andP [_ c]]].
  by move: h; rewrite -e6 /= -x'x rv /= => h; rewrite (leq_trans h) // sym // ltnW.
move: h; rewrite -e6 /= -x'x => h.
have := step (size s.1) (size s.2) (size x'.2); rewrite lt le => /(_ isT) st.
by apply: leq_trans st; apply: leq_add.
Qed.
End Count.
