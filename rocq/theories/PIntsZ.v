(** * PIntsZ.v -- what the division methods of Integers and CheckedInts compute,
    as equations. *)

From Coq Require Import ZArith Lia.
From mathcomp Require Import all_ssreflect.
From Verif Require Import Rust Traits MInts Wp ZFacts.

Set Implicit Arguments.
Unset Strict Implicit.
Unset Printing Implicit Defensive.

Local Open Scope Z_scope.

Lemma integers_quo_remE x y : y <> 0 ->
  integers_quo_rem x y = ret (zquo x y, zrem x y).
Proof.
move=> y0; rewrite /integers_quo_rem (_ : ~~ (y =? 0) = true); last by case: Z.eqb_spec.
rewrite bind_ret -quot_fix //; by case: ifP => // _; case: ifP.
Qed.

Lemma integers_quo_rem0 x : integers_quo_rem x 0 = panic.
Proof. by []. Qed.

Lemma integers_try_divE x y : y <> 0 ->
  integers_try_div x y = ret (if zrem x y =? 0 then Some (zquo x y) else None).
Proof.
move=> y0; rewrite /integers_try_div (_ : ~~ (y =? 0) = true); last by case: Z.eqb_spec.
rewrite bind_ret; have := zrem_eq0 x y y0; have := zdiv x y y0.
case: Z.eqb_spec => h; case: Z.eqb_spec => h1 h2 h3; try by case: h3; tauto.
  have : x = Z.quot x y * y + 0 by have := Z.quot_rem' x y; lia.
  by case/zdiv_unique => [|-> //]; lia.
Qed.

Lemma integers_divisibleE x y :
  integers_divisible x y = ret (if y =? 0 then x =? 0 else zrem x y =? 0).
Proof.
rewrite /integers_divisible; case: Z.eqb_spec => // y0; congr ret.
have := zrem_eq0 x y y0; case: Z.eqb_spec => h; case: Z.eqb_spec => h1 h2 //; by case: h2; tauto.
Qed.

Lemma integers_reducedE x y : integers_reduced x y = ret ((y =? 0) || (zrem x y =? x)).
Proof.
rewrite /integers_reduced; case: Z.eqb_spec => //= y0; congr ret.
have := zrem_self x y y0; case: Z.ltb_spec => h; case: Z.ltb_spec => h1; case: Z.eqb_spec => //=; lia.
Qed.

(** ** Machine integers *)
Section Range.
Variable w : Z.
Hypothesis w2 : 2 <= w.

Lemma imin_imax : imin w = - imax w - 1 /\ 1 <= imax w.
Proof.
rewrite /imin /imax; have : 2 ^ 1 <= 2 ^ (w - 1) by apply: Z.pow_le_mono_r; lia.
by rewrite Z.pow_1_r; lia.
Qed.

Lemma in_iP z : in_i w z <-> imin w <= z <= imax w.
Proof. by rewrite /in_i; case: Z.leb_spec; case: Z.leb_spec => /= *; split=> // *; lia. Qed.

Lemma in_iF z : in_i w z = false <-> z < imin w \/ imax w < z.
Proof. by rewrite /in_i; case: Z.leb_spec; case: Z.leb_spec => /= *; split=> // *; lia. Qed.

Lemma in_i0 : in_i w 0. Proof. by apply/in_iP; have := imin_imax; lia. Qed.
Lemma in_i1 : in_i w 1. Proof. by apply/in_iP; have := imin_imax; lia. Qed.
Lemma in_iN1 : in_i w (-1). Proof. by apply/in_iP; have := imin_imax; lia. Qed.

(** The only unrepresentable quotient is MIN / -1. *)
Definition bad_div (x y : Z) : bool := (x =? imin w) && (y =? -1).

Lemma quot_in x y : in_i w x -> in_i w y -> y <> 0 ->
  in_i w (Z.quot x y) = ~~ bad_div x y.
Proof.
move=> /in_iP hx /in_iP hy y0; have [mm m1] := imin_imax; rewrite /bad_div.
have hq := quot_abs_le x y y0.
case: Z.eqb_spec => [xE|xN] /=; last by apply/in_iP; lia.
case: Z.eqb_spec => [->|yN] /=.
  apply/in_iF; rewrite (_ : -1 = - (1)) // Z.quot_opp_r // Z.quot_1_r; lia.
apply/in_iP; split; first by lia.
have [->|y1] := Z.eq_dec y 1; first by rewrite Z.quot_1_r; lia.
have := quot_mul_bound x y y0; nia.
Qed.

Variable cfg : Cfg.

Lemma prim_in z : in_i w z -> prim_i cfg w z = ret z.
Proof. by rewrite /prim_i => ->. Qed.

Lemma quot_mul_in x y : in_i w x -> y <> 0 -> in_i w (Z.quot x y * y).
Proof.
move=> /in_iP hx y0; apply/in_iP; have := quot_mul_bound x y y0.
by have := imin_imax; lia.
Qed.

Lemma checked_div_in x y : in_i w x -> in_i w y -> y <> 0 ->
  checked_div_i w x y = if bad_div x y then None else Some (Z.quot x y).
Proof.
move=> hx hy y0; rewrite /checked_div_i /checked_i quot_in //.
by case: Z.eqb_spec => // _; case: bad_div.
Qed.

Lemma checked_ints_quo_remE x y : in_i w x -> in_i w y -> y <> 0 ->
  checked_ints_quo_rem cfg w x y =
  if bad_div x y then panic else ret (zquo x y, zrem x y).
Proof.
move=> hx hy y0; rewrite /checked_ints_quo_rem.
rewrite (_ : ~~ (y =? 0) = true) ?bind_ret; last by case: Z.eqb_spec.
rewrite checked_div_in //; case: ifP => // bad; rewrite bind_ret.
rewrite prim_in ?quot_mul_in // bind_ret.
have hr : x - Z.quot x y * y = Z.rem x y by have := Z.quot_rem' x y; lia.
have rb := Z.rem_bound_abs x y y0.
have [mm m1] := imin_imax; move/in_iP: (hx) => hx'; move/in_iP: (hy) => hy'.
have hri : in_i w (Z.rem x y) by apply/in_iP; lia.
rewrite hr prim_in // bind_ret -quot_fix //.
have hqi := quot_in hx hy y0; rewrite bad in hqi; move/in_iP: hqi => hq.
have hqb := quot_abs_le x y y0; have hqm := quot_mul_bound x y y0.
case: Z.ltb_spec => r0 //; case: Z.ltb_spec => y1.
  rewrite !prim_in ?bind_ret //; apply/in_iP; first by lia.
  split; first by lia.
  by move: bad; rewrite /bad_div; nia.
rewrite !prim_in ?bind_ret //; apply/in_iP; first by lia.
split; last by lia.
by have := Z.quot_rem' x y; nia.
Qed.

Lemma checked_ints_quo_rem0 x : checked_ints_quo_rem cfg w x 0 = panic.
Proof. by []. Qed.

Lemma checked_ints_try_divE x y : in_i w x -> in_i w y -> y <> 0 ->
  checked_ints_try_div cfg w x y =
  if bad_div x y then panic
  else ret (if zrem x y =? 0 then Some (zquo x y) else None).
Proof.
move=> hx hy y0; rewrite /checked_ints_try_div.
rewrite (_ : ~~ (y =? 0) = true) ?bind_ret; last by case: Z.eqb_spec.
rewrite checked_div_in //; case: ifP => // bad; rewrite bind_ret.
rewrite prim_in ?quot_mul_in // bind_ret.
have := integers_try_divE x y0; rewrite /integers_try_div.
rewrite (_ : ~~ (y =? 0) = true) ?bind_ret; last by case: Z.eqb_spec.
move=> <-; have := Z.quot_rem' x y.
by case: Z.eqb_spec => h; case: Z.eqb_spec => h1 //; lia.
Qed.

Lemma checked_ints_reducedE x y : in_i w x ->
  checked_ints_reduced cfg w x y = ret ((y =? 0) || (zrem x y =? x)).
Proof.
move=> /in_iP hx; rewrite /checked_ints_reduced; case: Z.eqb_spec => //= y0.
have := zrem_self x y y0; have [mm m1] := imin_imax.
case: Z.ltb_spec => x0.
  by case: Z.eqb_spec => //; lia.
rewrite Z.geb_leb; case: Z.leb_spec => y1.
  by case: Z.ltb_spec; case: Z.eqb_spec => //; lia.
rewrite prim_in ?bind_ret; last by apply/in_iP; lia.
by rewrite Z.gtb_ltb; case: Z.ltb_spec; case: Z.eqb_spec => //; lia.
Qed.
End Range.
