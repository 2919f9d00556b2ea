(** * POps6.v -- the numbers of calls of the base, assembled. *)

From Coq Require Import ZArith Lia.
From mathcomp Require Import all_ssreflect zify.
From Verif Require Import Rust RustFacts Traits MConstr MOps OpsSpec POps POps2 POps3 POps4 POps5.

Set Implicit Arguments.
Unset Strict Implicit.
Unset Printing Implicit Defensive.

Lemma size_count (t : seq op) : size t = count predT t.
Proof. by rewrite count_predT. Qed.
Lemma exactly p A (w : W A) c k a t : between p c c w -> w k = Done (a, t) -> count p t = c.
Proof. by move=> h /h; rewrite -eqn_leq => /eqP. Qed.
Lemma most p A (w : W A) l c k a t : between p l c w -> w k = Done (a, t) -> count p t <= c.
Proof. by move=> h /h /andP []. Qed.

Section Calls.
Variable E : Type.
Implicit Types v u : seq E.

Lemma vector1_calls n o f v : makes (w_vector1 n o f v) (fun _ t =>
  forall p : pred op, count p t = n * p o).
Proof. by move=> k r t e p; rewrite (exactly (@vector1_count p E n o f v) e). Qed.
Lemma vector2_calls n o f v u : makes (w_vector2 n o f v u) (fun _ t =>
  forall p : pred op, count p t = n * p o).
Proof. by move=> k r t e p; rewrite (exactly (@vector2_count p E n o f v u) e). Qed.

Lemma poly_mul_calls A S v u : makes (w_poly_mul A S v u) (fun _ t =>
  [/\ muls t = size v * size u, adds t = size v * size u &
      size t <= 2 * (size v * size u) + 1]).
Proof.
move=> k r t e; split; last by rewrite size_count; move: (@poly_mul_count predT E A S v u _ _ _ e); lia.
- by rewrite /muls (exactly (@between_weak _ _ _ _ _ (size v * size u) (size v * size u) (@poly_mul_count _ E A S v u) _ _) e); lia.
by rewrite /adds (exactly (@between_weak _ _ _ _ _ (size v * size u) (size v * size u) (@poly_mul_count _ E A S v u) _ _) e); lia.
Qed.
Lemma poly_add_calls A v u : makes (w_poly_add A v u) (fun _ t =>
  adds t = minn (size v) (size u) /\ size t <= 3 * minn (size v) (size u)).
Proof.
move=> k r t e; rewrite size_count; move: (@poly_add_count predT E A v u _ _ _ e) => /= h1.
by move: (@poly_add_count (fun o => if o is Add then true else false) E A v u _ _ _ e) => /= h2; rewrite /adds; lia.
Qed.
Lemma poly_neg_calls A v : makes (w_poly_neg A v) (fun _ t => negs t = size v /\ size t = size v).
Proof.
move=> k r t e; rewrite size_count /negs (exactly (@poly_neg_count _ E A v) e).
by rewrite (exactly (@poly_neg_count _ E A v) e) muln1.
Qed.
Lemma poly_quo_rem_calls A v u : makes (w_poly_quo_rem A v u) (fun _ t =>
  if size v < size u then t = [::] else
  let d := size v - size u + 1 in
  [/\ invs t = d, negs t = d, muls t = d * (size u - 1), adds t = d * (size u - 1) &
      size t <= 2 * d * size u + size u + 1]).
Proof.
move=> k r t e; have b p := (@poly_quo_rem_count p E A v u k r t e).2.
case: ltnP b => le b; first by have [] := b predT.
have {}b p := (b p).2; rewrite /quo_rem_cost in b; have [u0 _] := @poly_quo_rem_count predT E A v u k r t e.
split.
- by have := b (fun o => if o is Inv then true else false); rewrite /invs /=; lia.
- by have := b (fun o => if o is Neg then true else false); rewrite /negs /=; lia.
- by have := b (fun o => if o is Mul then true else false); rewrite /muls /=; lia.
- by have := b (fun o => if o is Add then true else false); rewrite /adds /=; lia.
rewrite size_count; have /= := b predT; move: (size v - size u) (size u) u0 => d [|m] //=; lia.
Qed.
Lemma poly_try_div_calls A v u : makes (w_poly_try_div A v u) (fun r t =>
  if size v < size u then t = [::] else
  let d := size v - size u + 1 in
  [/\ invs t <= d, negs t <= d, muls t <= d * (size u - 1), adds t <= d * (size u - 1) &
      size t <= 2 * d * size u + size u + 1] /\
  (isSome r -> [/\ invs t = d, muls t = d * (size u - 1) & adds t = d * (size u - 1)])).
Proof.
move=> k r t e; have b p := (@poly_try_div_count p E A v u k r t e).2.
case: ltnP b => le b; first by have := b predT.
have [u0 _] := @poly_try_div_count predT E A v u k r t e; rewrite /quo_rem_cost in b.
have bi := b (fun o => if o is Inv then true else false); rewrite /= -/(invs t) in bi.
have bn := b (fun o => if o is Neg then true else false); rewrite /= -/(negs t) in bn.
have bm := b (fun o => if o is Mul then true else false); rewrite /= -/(muls t) in bm.
have ba := b (fun o => if o is Add then true else false); rewrite /= -/(adds t) in ba.
split; last by case: r e bi bn bm ba {b} => [r|] // e bi bn bm ba _; split; lia.
split; try by case: r e bi bn bm ba {b} => [r|] e bi bn bm ba; lia.
have /andP [_ /=] := b predT; rewrite size_count.
by move: u0; clear; move: (size v - size u) (size u) => d [|m] //=; lia.
Qed.
Lemma poly_gcd_calls A v u : makes (w_poly_gcd A v u) (fun _ t =>
  [/\ muls t <= size v * size u, adds t <= size v * size u, invs t <= size v + size u,
      negs t <= size v + size u & tests t <= size v * size u /\ consts t <= minn (size v) (size u)]).
Proof.
have lin a b c : c < b <= a -> (a - b + 1) * (b - 1) + b * c <= a * b.
  move=> /andP [cb ba]; have bc : b * c <= b * (b - 1) by rewrite leq_mul2l; lia.
  apply: (@leq_trans ((a - b + 1) * (b - 1) + b * (b - 1))); first by rewrite leq_add2l.
  by rewrite -mulnDl; move: cb ba; case: b {bc} => // b _; rewrite subn1 /=; nia.
have tst a b c : c < b <= a -> b + b * c <= a * b.
  by move=> /andP [cb ba]; rewrite -mulnS mulnC leq_mul2r (leq_trans cb ba) orbT.
move=> k r t e; split=> //; last split.
- apply: (most (@poly_gcd_count _ E A v u (fun a b => a * b) _ _) e) => [a b _|a b c h].
    by rewrite mulnC.
  by have := lin _ _ _ h; rewrite /quo_rem_cost /=; lia.
- apply: (most (@poly_gcd_count _ E A v u (fun a b => a * b) _ _) e) => [a b _|a b c h].
    by rewrite mulnC.
  by have := lin _ _ _ h; rewrite /quo_rem_cost /=; lia.
- apply: (most (@poly_gcd_count _ E A v u (fun a b => a + b) _ _) e) => [a b _|a b c h].
    by rewrite addnC.
  by rewrite /quo_rem_cost /=; lia.
- apply: (most (@poly_gcd_count _ E A v u (fun a b => a + b) _ _) e) => [a b _|a b c h].
    by rewrite addnC.
  by rewrite /quo_rem_cost /=; lia.
- apply: (most (@poly_gcd_count _ E A v u (fun a b => a * b) _ _) e) => [a b _|a b c h].
    by rewrite mulnC.
  by have := tst _ _ _ h; rewrite /quo_rem_cost /=; lia.
apply: (most (@poly_gcd_count _ E A v u minn _ _) e) => [a b _|a b c h]; first by rewrite minnC.
by rewrite /quo_rem_cost /=; lia.
Qed.

Section Mat.
Variables (cfg : Cfg) (A : FieldAlg E) (n : nat).
Lemma matrix_mul_calls v u : makes (w_matrix_mul A n v u) (fun _ t =>
  [/\ muls t = n ^ 3, adds t = n ^ 3, consts t = n ^ 2 & size t = 2 * n ^ 3 + n ^ 2]).
Proof.
move=> k r t e; rewrite size_count /muls /adds /consts.
do !rewrite (exactly (@matrix_mul_count _ E A n v u) e) /=.
by rewrite !expnS expn0 !muln1; split; lia.
Qed.
Lemma det_le p v k r t : w_determinant A n v k = Done (r, t) ->
  2 * count p t <= 2 * p Const + n * n.+1 * p Test + 2 * (n * (n.+1 * p Mul + p Inv))
    + n * n.-1 * row_cost p n 1 + 2 * n * p Const.
Proof.
move=> e; have /andP [_ h] := @determinant_count p E A n v k r t e.
by have := det_sum p n; lia.
Qed.
Lemma determinant_calls v : makes (w_determinant A n v) (fun _ t =>
  [/\ 2 * muls t <= n ^ 3 + n ^ 2 + 2 * n, 2 * adds t <= n ^ 2 * (n - 1), invs t <= n,
      2 * negs t <= n * (n - 1) & tests t <= n ^ 2]).
Proof.
move=> k r t e; have b p := @det_le p v k r t e; rewrite /row_cost in b.
rewrite subn1 !expnS expn0 !muln1; split.
- have := b (fun o => if o is Mul then true else false); rewrite /= -/(muls t).
  by case: (n) => [|m] /=; lia.
- have := b (fun o => if o is Add then true else false); rewrite /= -/(adds t); lia.
- have := b (fun o => if o is Inv then true else false); rewrite /= -/(invs t); lia.
- have := b (fun o => if o is Neg then true else false); rewrite /= -/(negs t); lia.
have := b (fun o => if o is Test then true else false); rewrite /= -/(tests t).
by case: (n) => [|m] /=; lia.
Qed.
Lemma matrix_invertible_calls v : makes (w_matrix_invertible A n v) (fun _ t =>
  [/\ 2 * muls t <= n ^ 3 + n ^ 2 + 2 * n, 2 * adds t <= n ^ 2 * (n - 1), invs t <= n,
      2 * negs t <= n * (n - 1) & tests t <= n ^ 2 + 1]).
Proof.
move=> k r t e; have [d [t1 [t2 [e1 e2 ->]]]] := wbind_done e.
have [d' [s1 [s2 [f1 [_ <-] ->]]]] := wbind_done e2.
rewrite /muls /adds /invs /negs /tests !count_cat !(call_count _ f1) /= !addn0.
have [h1 h2 h3 h4 h5] := determinant_calls e1.
by split=> //; rewrite leq_add2r.
Qed.
Lemma matrix_try_inv_calls v : makes (w_matrix_try_inv cfg A n v) (fun r t =>
  [/\ muls t <= 2 * n ^ 3, adds t <= 2 * n ^ 2 * (n - 1), negs t <= n * (n - 1),
      if isSome r then invs t = n else invs t <= n &
      2 * tests t + n <= (if debug_assertions cfg then 5 else 3) * n ^ 2]).
Proof.
move=> k r t e; have b p := @matrix_try_inv_count p E cfg A n v k r t e.
have b2 (p : op -> bool) : (if isSome r then n * p Inv else 0) <= count p t /\
    2 * count p t <= 2 * (2 * p Const + (if debug_assertions cfg then 2 * p Const + n * n * p Test else 0)) +
      (n * n.+1 * p Test + 2 * n * (2 * (n * p Mul) + p Inv + (n - 1) * row_cost p n 2)).
  by have /andP [h1 h2] := b p; split; [case: (r) h1|have := try_inv_sum p n; lia].
rewrite /row_cost in b2; rewrite !expnS expn0 !muln1; split.
- have [_] := b2 (fun o => if o is Mul then true else false); rewrite /= -/(muls t).
  by case: (debug_assertions cfg); case: (n) => [|m] /=; rewrite ?subn1 /=; lia.
- have [_] := b2 (fun o => if o is Add then true else false); rewrite /= -/(adds t).
  by case: (debug_assertions cfg) => /=; lia.
- have [_] := b2 (fun o => if o is Neg then true else false); rewrite /= -/(negs t).
  by case: (debug_assertions cfg) => /=; lia.
- have [] := b2 (fun o => if o is Inv then true else false); rewrite /= -/(invs t).
  by case: (debug_assertions cfg); case: (isSome r) => /=; lia.
have [_] := b2 (fun o => if o is Test then true else false); rewrite /= -/(tests t).
by case: (debug_assertions cfg); case: (n) => [|m] /=; rewrite ?subn1 /=; lia.
Qed.
End Mat.

Lemma ntimes_calls zer opa dbl num (x : E) : makes (w_ntimes zer opa dbl num x) (fun _ t =>
  [/\ doubles t = bits num, adds t = ones num, consts t = 1 & size t = bits num + ones num + 1]).
Proof.
move=> k r t e; rewrite size_count /doubles /adds /consts.
do !rewrite (ntimes_count _ e) /=.
by split; lia.
Qed.
Lemma gpower_calls cfg on opa sq iv num (x : E) : (- num < 2 ^ (ptr_bits cfg - 1))%Z ->
  makes (w_gpower cfg on opa sq iv num x) (fun _ t =>
  [/\ squares t = bits (Z.abs num), muls t = ones (Z.abs num), invs t = (num <? 0)%Z &
      size t = bits (Z.abs num) + ones (Z.abs num) + (num <? 0)%Z + 1]).
Proof.
move=> fit k r t e; rewrite size_count /squares /muls /invs.
do !rewrite (gpower_count _ fit e) /=.
by split; lia.
Qed.
Lemma gcd_calls isz rm (x y : E) k g t : w_gcd isz rm x y k = Done (g, t) ->
  [/\ divs t < k, tests t = divs t + 1 & size t = 2 * divs t + 1].
Proof.
move=> e; have [h _] := gcd_count predT e; rewrite size_count /tests.
by split=> //; rewrite (gcd_count _ e).2 /=; lia.
Qed.
Lemma extended_gcd_calls isz on ze ml sb qr (x y : E) k g t :
  w_extended_gcd isz on ze ml sb qr x y k = Done (g, t) ->
  [/\ divs t < k, tests t = divs t + 1, muls t = divs t, subs t = divs t &
      size t = 4 * divs t + 3].
Proof.
move=> e; have [h _] := extended_gcd_count predT e; rewrite size_count /tests /muls /subs.
by split=> //; rewrite (extended_gcd_count _ e).2 /=; lia.
Qed.
End Calls.
