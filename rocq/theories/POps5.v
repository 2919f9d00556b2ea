(** * POps5.v -- the numbers of calls made by the default methods, and closed forms. *)

From Coq Require Import ZArith Lia.
From mathcomp Require Import all_ssreflect zify.
From Verif Require Import Rust RustFacts Traits MConstr MOps OpsSpec POps POps2 POps3 POps4.

Set Implicit Arguments.
Unset Strict Implicit.
Unset Printing Implicit Defensive.

Section Count.
Variables (p : op -> bool) (E : Type).
Local Notation btw := (between p).
Implicit Types (x y : E).

(** ** Repeated doubling *)
Lemma digits_step num : (num > 0)%Z ->
  bits num = (bits (Z.quot num 2)).+1 /\
  ones num = (if (Z.rem num 2 =? 0)%Z then 0 else 1) + ones (Z.quot num 2).
Proof.
case: num => [|[m|m|]|] // _.
- have -> : Z.quot (Zpos m~1) 2 = Zpos m by symmetry; apply: (Z.quot_unique _ _ _ 1) => //; lia.
  by have -> : Z.rem (Zpos m~1) 2 = 1%Z by symmetry; apply: (Z.rem_unique _ _ (Zpos m)) => //; lia.
- have -> : Z.quot (Zpos m~0) 2 = Zpos m by symmetry; apply: (Z.quot_unique _ _ _ 0) => //; lia.
  by have -> : Z.rem (Zpos m~0) 2 = 0%Z by symmetry; apply: (Z.rem_unique _ _ (Zpos m)) => //; lia.
Qed.
Lemma power_loop_count o d opa dbl num x r :
  makes (@w_power_loop E o d opa dbl num x r) (fun _ t =>
    count p t = ones num * p o + bits num * p d).
Proof.
move=> k; rewrite /w_power_loop /w_while; move: {1}k => f; rewrite -[num]/((num, x, r).1.1).
elim: f (num, x, r) => [|f IH] [[m a] b] s t //= e.
have [c [t1 [t2 [[<- <-] e2 ->]]]] := wbind_done e; move: e2; rewrite Z.gtb_ltb.
case: Z.ltb_spec => m0 e2; last first.
  case: e2 => _ <- /=; have -> : bits m = 0 by case: (m) m0 => [|q|q].
  by have -> : ones m = 0 by case: (m) m0 => [|q|q].
have [[[m' a'] b'] [t3 [t4 [e3 e4 ->]]]] := wbind_done e2; rewrite !count_cat (IH _ _ _ e4) /=.
have [b1 [s1 [s2 [f1 f2 ->]]]] := wbind_done e3.
have [a1 [s3 [s4 [f3 [<- _ _ <-] ->]]]] := wbind_done f2.
rewrite !count_cat (call_count _ f3) /= addn0.
have [-> ->] := digits_step (Z.lt_gt _ _ m0).
case: (Z.rem m 2 =? 0)%Z f1 => f1; first by case: f1 => _ <- /=; lia.
by rewrite (call_count _ f1); lia.
Qed.
Lemma ntimes_count zer opa dbl num x :
  makes (w_ntimes zer opa dbl num x) (fun _ t =>
    count p t = p Const + ones num * p Add + bits num * p Double).
Proof.
move=> k r t e; have [z [t1 [t2 [e1 e2 ->]]]] := wbind_done e.
have [s [t3 [t4 [e3 [_ <-] ->]]]] := wbind_done e2.
by rewrite !count_cat (call_count _ e1) (power_loop_count e3) addn0 addnA.
Qed.
Lemma gpower_count cfg on opa sq iv num x : (- num < 2 ^ (ptr_bits cfg - 1))%Z ->
  makes (w_gpower cfg on opa sq iv num x) (fun _ t =>
    count p t = (num <? 0)%Z * p Inv + p Const + ones (Z.abs num) * p Mul
                + bits (Z.abs num) * p Square).
Proof.
move=> fit k r t e; have [ne [t1 [t2 [e1 e2 ->]]]] := wbind_done e.
have [z [t3 [t4 [e3 e4 ->]]]] := wbind_done e2.
have [s [t5 [t6 [e5 [_ <-] ->]]]] := wbind_done e4.
rewrite !count_cat (call_count _ e3) (power_loop_count e5) /= addn0.
suff [-> ->] : ne.1 = Z.abs num /\ count p t1 = (num <? 0)%Z * p Inv by lia.
case: (Z.ltb_spec num 0) e1 => h e1; last by case: e1 => <- <- /=; rewrite Z.abs_eq.
have [m [s1 [s2 [f1 f2 ->]]]] := wbind_done e1.
have [y [s3 [s4 [f3 [<- <-] ->]]]] := wbind_done f2.
rewrite !count_cat (free_count p f1) (call_count p f3) /= addn0 mul1n; split=> //.
move: f1; rewrite /free /bind /prim_i ifT; first by case=> <- _; rewrite Z.abs_neq //; lia.
by rewrite /in_i /imin /imax; have := Z.pow_nonneg 2 (ptr_bits cfg - 1); lia.
Qed.
(** ** Euclid's algorithm *)
Lemma gcd_count isz rm x y k g t : @w_gcd E isz rm x y k = Done (g, t) ->
  divs t < k /\ count p t = p Test + divs t * (p Div + p Test).
Proof.
move=> e; have [s [t1 [t2 [e1 [_ <-] ->]]]] := wbind_done e; rewrite cats0.
move: e1; rewrite /w_while; move: {1 3}k => f.
elim: f (x, y) t1 {e} => [|f IH] [a b] t1 //= e.
have [c [t3 [t4 [e3 e4 ->]]]] := wbind_done e; have [d [s1 [s2 [f1 [_ <-] t3e]]]] := wbind_done e3.
have c1 := call_count p f1.
have c2 : divs t3 = 0.
  by rewrite t3e cats0 /divs; exact: (call_count _ f1).
rewrite /divs !count_cat -/(divs t3) -/(divs t4) c2 add0n {1}t3e cats0 c1.
case: c e4 {e e3} => e4; last by case: e4 => _ <-; rewrite /= addn0.
have [z [s3 [s4 [g1 g2 ->]]]] := wbind_done e4.
have [r [s5 [s6 [g3 [g4 <-] ->]]]] := wbind_done g1; have [h1 h2] := IH _ _ g2.
rewrite cats0 /divs !count_cat -/(divs s4) (call_count _ g3) (call_count _ g3) h2.
by split; [rewrite add1n ltnS|lia].
Qed.
Lemma extended_gcd_count isz on ze ml sb qr x y k g t :
  @w_extended_gcd E isz on ze ml sb qr x y k = Done (g, t) ->
  divs t < k /\ count p t = p Test + 2 * p Const + divs t * (p Div + p Test + p Mul + p Sub).
Proof.
rewrite /w_extended_gcd; move: {1 3}k => f; elim: f x y g t => [|f IH] x y g t //= e.
have [c [t1 [t2 [e1 e2 ->]]]] := wbind_done e.
rewrite /divs !count_cat (call_count _ e1) (call_count _ e1) add0n.
case: c e2 {e e1} => e2.
  have [? [s1 [s2 [f1 f2 ->]]]] := wbind_done e2; have [? [s3 [s4 [f3 [_ <-] ->]]]] := wbind_done f2.
  rewrite !count_cat !(call_count _ f1) !(call_count _ f3) /=; lia.
have [r [s1 [s2 [f1 f2 ->]]]] := wbind_done e2.
have [[[h u] v] [s3 [s4 [f3 f4 ->]]]] := wbind_done f2.
have [vq [s5 [s6 [f5 f6 ->]]]] := wbind_done f4.
have [z [s7 [s8 [f7 [_ <-] ->]]]] := wbind_done f6.
have [h1 h2] := IH _ _ _ _ f3.
rewrite !count_cat !(call_count _ f1) !(call_count _ f5) !(call_count _ f7) -/(divs s3) h2 /=; lia.
Qed.
End Count.

(** ** Sums *)
Lemma sum_down n : 2 * (\sum_(0 <= i < n) (n - i)) = n * n.+1.
Proof.
elim: n => [|n IH]; first by rewrite big_geq.
rewrite big_nat_recl // (eq_big_nat _ _ (F2 := fun i => n - i)); last by move=> i; rewrite subSS.
by rewrite mulnDr IH subn0; lia.
Qed.
Lemma sum_down1 n : 2 * (\sum_(0 <= i < n) (n - i.+1)) = n * n.-1.
Proof.
case: n => [|n]; first by rewrite big_geq.
rewrite (eq_big_nat _ _ (F2 := fun i => n - i)); last by move=> i; rewrite subSS.
by rewrite big_nat_recr //= subnn addn0 sum_down mulnC.
Qed.
Lemma det_sum p n : 2 * (\sum_(0 <= col < n) det_cost p n col) =
  n * n.+1 * p Test + 2 * (n * (n.+1 * p Mul + p Inv)) + n * n.-1 * row_cost p n 1 + 2 * n * p Const.
Proof.
rewrite /det_cost !big_split /= -!big_distrl /= !mulnDr !mulnA sum_down sum_down1.
by rewrite !sum_nat_const_nat subn0; lia.
Qed.
Lemma try_inv_sum p n : 2 * (\sum_(0 <= col < n) try_inv_cost p n col) =
  n * n.+1 * p Test + 2 * n * (2 * (n * p Mul) + p Inv + (n - 1) * row_cost p n 2).
Proof.
rewrite /try_inv_cost !big_split /= -!big_distrl /= !mulnDr !mulnA sum_down.
by rewrite !sum_nat_const_nat subn0; lia.
Qed.
