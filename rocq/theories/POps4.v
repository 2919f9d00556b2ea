(** * POps4.v -- the numbers of calls of the base, continued. *)

From Coq Require Import ZArith Lia.
From mathcomp Require Import all_ssreflect zify.
From Verif Require Import Rust RustFacts Traits MConstr MOps OpsSpec POps POps2 POps3.

Set Implicit Arguments.
Unset Strict Implicit.
Unset Printing Implicit Defensive.

Section Count.
Variables (p : op -> bool) (E : Type).
Local Notation btw := (between p).
Implicit Types (x y : E) (v u : seq E).

Lemma free_count A (m : M A) k a t : free m k = Done (a, t) -> count p t = 0.
Proof. by move=> e; have /andP [_] := @between_free p _ _ _ _ _ e; rewrite leqn0 => /eqP. Qed.
Lemma call_count A o (m : M A) k a t : call o m k = Done (a, t) -> count p t = p o.
Proof. by move=> e; have := @between_call p _ _ _ _ _ _ e; rewrite -eqn_leq => /eqP. Qed.
Lemma assert_done (c : bool) k a t : free (assert c) k = Done (a, t) -> c /\ t = [::].
Proof. by rewrite /assert; case: c => //= -[_ <-]. Qed.

(** ** Exact division of polynomials *)
Lemma poly_try_div_count (A : IDomAlg E) v u : makes (w_poly_try_div A v u) (fun r t =>
  0 < size u /\
  if size v < size u then t = [::] else
  (if r is Some _ then quo_rem_cost p (size v) (size u) else 0) <= count p t <=
    quo_rem_cost p (size v) (size u) + p Const + size u * p Test).
Proof.
move=> k r t e; have [[] [t1 [t2 [e1 e2 ->]]]] := wbind_done e.
have [u0 -> /=] := assert_done e1; split; first by rewrite lt0n.
case: ltnP e2 {e e1} => [_|le e]; first by case: ifP => _ [_ <-].
have [z [{}t1 [t3 [e1 e2 ->]]]] := wbind_done e; have {e e1} c1 := call_count e1.
have [a [t4 [t5 [e3 e4 ->]]]] := wbind_done e2; have {e2 e3} c2 := free_count e3.
have [b [t6 [t7 [e5 e6 ->]]]] := wbind_done e4; have {e4 e5} c3 := call_count e5.
have [[] [t8 [t9 [e7 e8 ->]]]] := wbind_done e6; have {e6 e7} c4 := free_count e7.
have [x [s1 [s2 [f1 f2 ->]]]] := wbind_done e8.
clear e8.
have c5 : (if x is inl _ then quo_rem_cost p (size v) (size u) else 0) <= count p s1
    <= quo_rem_cost p (size v) (size u).
  move: f1; rewrite resize_size => f1.
  apply: (@for_rev_ret_makes p _ _ _ _ _ _ _ _ _ _ _ f1) => i [q w] k1 y tt1 g.
  have [a1 [r1 [r2 [g1 g2 ->]]]] := wbind_done g; have d1 := free_count g1.
  have [o [r3 [r4 [g3 g4 ->]]]] := wbind_done g2; have d2 := call_count g3.
  rewrite !count_cat d1 d2; case: o g3 g4 => [q'|] g3 g4; last first.
    by case: g4 => <- <- /=; rewrite addn0 add0n -addnA leq_addr.
  have [? [r5 [r6 [g5 g6 ->]]]] := wbind_done g4; have d3 := free_count g5.
  have [? [r7 [r8 [g7 g8 ->]]]] := wbind_done g6; have d4 := call_count g7.
  have [w' [r9 [r10 [g9 [<- <-] ->]]]] := wbind_done g8; rewrite !count_cat d3 d4 /= addn0 add0n.
  have : (size u - 1) * (p Mul + p Add) <= count p r9 <= (size u - 1) * (p Mul + p Add).
    apply: (_ : btw _ _ _) g9; apply: between_weak; first by cnt.
      by rewrite ?(addn0, add0n).
    by rewrite ?(addn0, add0n).
  by rewrite -!addnA !leq_add2l.
rewrite !count_cat c1 c2 c3 c4 !add0n.
have h3 : (size u - 1) * p Test + p Test = size u * p Test by rewrite -mulSnr; congr (_ * _); lia.
case: x f1 c5 f2 => [[q w]|o] f1 c5 f2; last first.
  have -> : s2 = [::] by case: f2.
  rewrite /= addn0; case: r f2 => [s|] f2; last lia.
  suff : o = None by case: f2 => ->.
  move: f1; rewrite resize_size; move: (size v - size u + 1) (vresize _ _ _, v) => c s0.
  elim: c s0 s1 {c5} => [|c IH] s0 s1 //= g.
  have [y [r1 [r2 [g1 g2 _]]]] := wbind_done g.
  case: y g1 g2 => [s'|o'] g1; first by move/IH.
  case=> <- _; move: g1; case: s0 {g} => q0 w0 g1.
  have [? [? [r4 [_ g4 _]]]] := wbind_done g1.
  have [[q'|] [? [r6 [_ g6 _]]]] := wbind_done g4; last by case: g6.
  have [? [? [r7 [_ g7 _]]]] := wbind_done g6; have [? [? [r8 [_ g8 _]]]] := wbind_done g7.
  by have [? [? [r9 [_ g9 _]]]] := wbind_done g8.
have [ok [s3 [s4 [f3 f4 ->]]]] := wbind_done f2.
have c6 : 0 <= count p s3 <= (size u - 1) * p Test.
  apply: (_ : btw _ _ _) f3; apply: between_weak.
  - apply: (between_all (h := p Test)) => y; by refine (between_weak (@between_call _ _ _ _) _ _).
  - by [].
  by rewrite leq_mul2r size_take; case: ifP => h; lia.
have -> : s4 = [::] by case: ok f4 {f3} => [] [].
rewrite count_cat /= addn0; case: r {f2} f4 => [s|] f4; lia.
Qed.

(** ** Matrices *)
Section Mat.
Variables (cfg : Cfg) (A : FieldAlg E) (n : nat).

Lemma matrix_mul_count v u :
  btw (n * n * (p Const + n * (p Mul + p Add))) (n * n * (p Const + n * (p Mul + p Add)))
    (w_matrix_mul A n v u).
Proof.
apply: between_assert => _; apply: between_weak; first by cnt.
  by rewrite ?(addn0, add0n) -mulnA.
by rewrite ?(addn0, add0n) -mulnA.
Qed.
Lemma mul_row_count v row coef : btw (n * p Mul) (n * p Mul) (w_mul_row A n v row coef).
Proof.
apply: between_assert => h; apply: between_weak; first by cnt.
  by rewrite addn0 leq_mul2r size_takel ?leqnn ?orbT // size_drop; lia.
by rewrite addn0 leq_mul2r size_takel ?leqnn ?orbT // size_drop; lia.
Qed.
Lemma add_rows_count v i j coef :
  btw (n * (p Mul + p Add)) (n * (p Mul + p Add)) (w_add_rows A n v i j coef).
Proof.
apply: between_weak; first by rewrite /w_add_rows; cnt.
  by rewrite ?(addn0, add0n).
by rewrite ?(addn0, add0n).
Qed.
Lemma find_row_count v col : btw 0 ((n - col) * p Test) (w_find_row A n v col).
Proof.
apply: between_find => i; apply: between_weak; first by cnt.
  by [].
by [].
Qed.
Definition row_cost (c : nat) : nat := p Test + p Neg + c * (n * (p Mul + p Add)).
Lemma clear_below_count v col :
  btw 0 ((n - col.+1) * row_cost 1) (w_det_clear_below A n v col).
Proof.
rewrite -[0](muln0 (n - col.+1)); apply: between_for => i w.
apply: (between_weak (l := 0 + (0 + 0)) (h := 0 + (p Test + (p Neg + n * (p Mul + p Add))))) => //.
  apply: between_bind; [by cnt|move=> c].
  apply: between_bind; [by refine (between_weak (@between_call _ _ _ _) _ _)|move=> b].
  apply: between_if => _; first by refine (between_weak (@between_ret _ _ _) _ _).
  rewrite -[0]addn0; apply: between_bind; [by refine (between_weak (@between_call _ _ _ _) _ _)|move=> d].
  by refine (between_weak (@add_rows_count _ _ _ _) _ _).
by rewrite /row_cost; lia.
Qed.
Definition det_cost (col : nat) : nat :=
  (n - col) * p Test + (n.+1 * p Mul + p Inv + (n - col.+1) * row_cost 1) + p Const.
Lemma determinant_count v :
  btw 0 (p Const + \sum_(0 <= col < n) det_cost col) (w_determinant A n v).
Proof.
move=> k r t e; have [d [t1 [t2 [e1 e2 ->]]]] := wbind_done e; rewrite count_cat (call_count e1) /=.
rewrite leq_add2l; have [x [t3 [t4 [e3 e4 ->]]]] := wbind_done e2.
have -> : t4 = [::] by case: x e4 {e3} => [[] ?|] ? [].
rewrite count_cat addn0; suff /andP [_ h] : (if x is inl _ then n * 0 else 0) <= count p t3
    <= \sum_(0 <= col < 0 + n) det_cost col by [].
apply: (for_ret_makes _ e3) => col [w c] _ {}k {e e1 e2 e3 e4 t1 t2 t3 t4} y {}t e.
have -> : (if y is inl _ then 0 else 0) = 0 by case: (y).
rewrite /=; have [o [t1 [t2 [e1 e2 ->]]]] := wbind_done e.
rewrite count_cat /det_cost -addnA; apply: leq_add; first by have := find_row_count e1.
case: o {e1} e2 => [row|] e2; last first.
  have [? [t3 [t4 [e3 [_ <-] ->]]]] := wbind_done e2.
  by rewrite count_cat (call_count e3) /= addn0 leq_addl.
have [v1 [t3 [t4 [e3 e4 ->]]]] := wbind_done e2.
have c3 : count p t3 = 0 
  by case: ifP e3 => _ e3; [exact: free_count e3|case: e3 => _ <-].
have [? [t5 [t6 [xc5 e6 ->]]]] := wbind_done e4; have c5 := free_count xc5.
have [? [t7 [t8 [xc7 e8 ->]]]] := wbind_done e6; have c7 := call_count xc7.
have [? [t9 [s0 [xc9 f0 ->]]]] := wbind_done e8; have c9 := call_count xc9.
have [? [s1 [s2 [xc1 f2 ->]]]] := wbind_done f0; have c1 := mul_row_count xc1.
have [? [s3 [s4 [xc4 [_ <-] ->]]]] := wbind_done f2; have c4 := clear_below_count xc4.
rewrite !count_cat c3 c5 c7 c9 /= mulSn; lia.
Qed.
Lemma matrix_int_count num : btw (2 * p Const) (2 * p Const) (w_matrix_int A n num).
Proof.
apply: between_weak; first by rewrite /w_matrix_int; cnt.
  by rewrite addn0 addnn mul2n.
by rewrite addn0 addnn mul2n.
Qed.
Lemma matrix_is_one_count v :
  btw 0 (2 * p Const + n * n * p Test) (w_matrix_is_one A n v).
Proof.
rewrite -[0]addn0; apply: between_bind; first by refine (between_weak (@matrix_int_count _) _ _).
move=> o; apply: between_assert => /andP [/eqP sv _].
apply: between_weak.
- apply: (between_all2 (h := p Test)) => x y; by refine (between_weak (@between_call _ _ _ _) _ _).
- by [].
by rewrite leq_mul2r sv geq_minl orbT.
Qed.
Lemma clear_others_count vi col : col < n ->
  btw 0 ((n - 1) * row_cost 2) (w_inv_clear_others A n vi col).
Proof.
move=> cn; have -> : (n - 1) * row_cost 2 =
    \sum_(0 <= i < 0 + n) (if i == col then 0 else row_cost 2).
  rewrite add0n big_mkord (bigD1 (Ordinal cn)) //= eqxx add0n.
  rewrite (eq_bigr (fun _ => row_cost 2)); last by move=> i; rewrite -val_eqE /= => /negbTE ->.
  by rewrite sum_nat_const cardC1 card_ord subn1.
have h0 : \sum_(0 <= i < 0 + n) 0 = 0 by rewrite big1.
rewrite -[X in between p X]h0.
refine (between_for_sum (l := fun _ => 0) (h := fun i => if i == col then 0 else row_cost 2) _).
move=> i [w x] _; case: eqP => _; first exact: between_ret.
apply: (between_weak (l := 0 + (0 + 0))
  (h := 0 + (p Test + (p Neg + (n * (p Mul + p Add) + (n * (p Mul + p Add) + 0)))))) => //.
  apply: between_bind; [by cnt|move=> c].
  apply: between_bind; [by refine (between_weak (@between_call _ _ _ _) _ _)|move=> b].
  apply: between_if => _; first by refine (between_weak (@between_ret _ _ _) _ _).
  rewrite -[0]addn0; apply: between_bind; [by refine (between_weak (@between_call _ _ _ _) _ _)|move=> d].
  rewrite -[0]addn0; apply: between_bind; [by refine (between_weak (@add_rows_count _ _ _ _) _ _)|move=> ?].
  rewrite -[0]addn0; apply: between_bind; [by refine (between_weak (@add_rows_count _ _ _ _) _ _)|move=> ?].
  exact: between_ret.
by rewrite /row_cost; lia.
Qed.
Definition try_inv_cost (col : nat) : nat :=
  (n - col) * p Test + (2 * (n * p Mul) + p Inv + (n - 1) * row_cost 2).
Lemma matrix_try_inv_count v : makes (w_matrix_try_inv cfg A n v) (fun r t =>
  (if r is Some _ then n * p Inv else 0) <= count p t <=
  2 * p Const + (if debug_assertions cfg then 2 * p Const + n * n * p Test else 0) +
  \sum_(0 <= col < n) try_inv_cost col).
Proof.
move=> k r t e; have [d [t1 [t2 [xc1 e2 ->]]]] := wbind_done e; have c1 := matrix_int_count xc1; rewrite count_cat.
have [x [t3 [t4 [e3 e4 ->]]]] := wbind_done e2; rewrite count_cat.
have c3 : (if x is inl _ then n * p Inv else 0) <= count p t3
    <= \sum_(0 <= col < 0 + n) try_inv_cost col.
  apply: (for_ret_makes _ e3) => col [w c] cn {}k {e xc1 c1 e2 e3 e4 t1 t2 t3 t4} y {}t e.
  have [o [t1 [t2 [xc1 e2 ->]]]] := wbind_done e; have c1 := find_row_count xc1.
  rewrite count_cat /try_inv_cost; case: o {xc1} e2 => [row|] e2; last by case: e2 => <- <- /=; lia.
  have [[v1 i1] [t3 [t4 [e3 e4 ->]]]] := wbind_done e2.
  have c3 : count p t3 = 0.
    case: ifP e3 => _ e3; last by case: e3 => _ _ <-.
    have [? [s1 [s2 [xd1 f2 ->]]]] := wbind_done e3; have d1 := free_count xd1.
    have [? [s3 [s4 [xd3 [_ _ <-] ->]]]] := wbind_done f2; have d3 := free_count xd3.
    by rewrite !count_cat d1 d3.
  have [? [t5 [t6 [xc5 e6 ->]]]] := wbind_done e4; have c5 := free_count xc5.
  have [? [t7 [t8 [xc7 e8 ->]]]] := wbind_done e6; have c7 := call_count xc7.
  have [? [s1 [s2 [xd1 f2 ->]]]] := wbind_done e8; have d1 := mul_row_count xd1.
  have [? [s3 [s4 [xd3 f4 ->]]]] := wbind_done f2; have d3 := mul_row_count xd3.
  have [? [s5 [s6 [f5 [<- <-] ->]]]] := wbind_done f4.
  have d5 := clear_others_count (_ : col < n) f5.
  rewrite !count_cat c3 c5 c7 /=; have {}d5 := d5 _; lia.
rewrite add0n in c3; move: (\sum_(_ <= _ < _) _) c3 => sum c3.
case: x {e3} e4 c3 => [[w i]|[]] e4 c3; last by case: e4 => <- <- /=; lia.
have [? [s1 [s2 [f1 [<- <-] ->]]]] := wbind_done e4; rewrite count_cat /= addn0.
case: (debug_assertions cfg) f1 => f1; last by case: f1 => _ <- /=; lia.
have [? [s3 [s4 [xd3 xd4 ->]]]] := wbind_done f1.
have d3 := matrix_is_one_count xd3; have d4 := free_count xd4.
rewrite count_cat d4; lia.
Qed.
End Mat.
End Count.
