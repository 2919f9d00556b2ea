(** * PCost2.v -- Lame's theorem for the integers; quotients by an element. *)

From Coq Require Import ZArith Lia List.
From mathcomp Require Import all_ssreflect.
From Verif Require Import Rust Traits MInts MConstr CostSpec Wp ZFacts PIntsZ PInts PCost.

Set Implicit Arguments.
Unset Strict Implicit.
Unset Printing Implicit Defensive.

Local Open Scope Z_scope.

Lemma fib2E n : fib2 n = (fib n, fib n.+1).
Proof. by rewrite /fib /=; case: (fib2 n). Qed.
Lemma fibS n : fib n.+2 = fib n + fib n.+1.
Proof. by rewrite {1}/fib /= fib2E. Qed.
Lemma fib0 : fib 0 = 0. Proof. by []. Qed.
Lemma fib1 : fib 1 = 1. Proof. by []. Qed.
Lemma fib_ge0 n : 0 <= fib n /\ 0 <= fib n.+1.
Proof. by elim: n => [|n [h1 h2]] //; split=> //; rewrite fibS; lia. Qed.
Lemma fib_gt0 n : 0 < fib n.+1.
Proof. by elim: n => [|n IH] //; rewrite fibS; have [] := fib_ge0 n; lia. Qed.

(** At most [i] divisions. *)
Definition lame i (x y : Z) := Z.abs y < fib i.+1 \/ 0 <= y < fib i.+2 \/
  (0 <= y < x /\ x < fib i.+3).

Lemma lame_step i x y : y <> 0 -> lame i x y -> (0 < i)%N /\ lame i.-1 y (zrem x y).
Proof.
move=> y0 h; have r0 := zrem_bound x y y0; have e := zdiv x y y0.
have i0 : (0 < i)%N.
  by case: i h => // -[|[]]; rewrite /fib /=; lia.
split=> //; case: i h i0 => // i h _; rewrite /= /lame.
case: h => [h|[h|[h1 h2]]].
- by right; left; lia.
- by right; right; lia.
have [h|h] : y < fib i.+3 \/ fib i.+3 <= y by lia.
  by right; right; lia.
right; left; split; first by lia.
have : fib i.+4 = fib i.+2 + fib i.+3 by exact: fibS.
have q0 : 0 < zquo x y by nia.
nia.
Qed.

Lemma zz_gcd_within k i x y : lame i x y -> (i < k)%N -> finishes k (gcd ZZ x y).
Proof.
move=> h ik; apply: (@gcd_within _ _ _ _ _ lame i) => // {h ik}i {}x {}y h; split=> //.
apply: w_ret; case: Z.eqb_spec => y0; [by left|right].
have [i0 h'] := lame_step y0 h; split=> //; split=> //.
by rewrite /default_rem integers_quo_remE // bind_ret; exact: w_ret.
Qed.

Lemma zz_egcd_within k i x y : lame i x y -> (i < k)%N -> finishes k (extended_gcd ZZ x y).
Proof.
move=> h ik; apply: w_fin (_ : within k _ (fun g => [/\ True, True & True])).
apply: (@egcd_within _ (fun _ => True) _ _ _ _ _ _ _ lame i) => //; try by move=> *; exact: w_ret.
move=> {h ik}i {}x {}y h; split=> //.
apply: w_ret; case: Z.eqb_spec => y0; [by left|right].
have [i0 h'] := lame_step y0 h; split=> //; split=> //.
by rewrite integers_quo_remE //; exact: w_ret.
Qed.

(** Consecutive Fibonacci numbers are the worst case. *)
Lemma zz_gcd_worst k : gcd ZZ (fib k.+2) (fib k.+1) k = Unfinished.
Proof.
rewrite /= /default_gcd /bind /while_loop; set c := (fun s : Z * Z => _); set b := (fun s : Z * Z => _).
suff H n : forall j, (j <= n)%N -> while_fuel j c b (fib n.+2, fib n.+1) k = Unfinished by rewrite H.
have hc s : c s k = Done (~~ (s.2 =? 0)) by [].
have hb s : s.2 <> 0 -> b s k = Done (s.2, zrem s.1 s.2).
  by move=> s0; rewrite /b /default_rem integers_quo_remE.
elim: n => [|n IH] [|j] // jn; rewrite while_fuelS /bind hc.
have f1 := fib_gt0 n.+1; have f0 := fib_gt0 n.
have -> /= : ~~ ((fib n.+3, fib n.+2).2 =? 0) by case: Z.eqb_spec => //=; lia.
rewrite hb /=; last by lia.
case: n IH jn f1 f0 => [|n] IH jn f1 f0; first by case: j jn => // -[].
have <- : fib n.+2 = zrem (fib n.+4) (fib n.+3); last exact: IH.
apply: (proj2 (@zdiv_unique _ _ 1 _ _ _)); last by rewrite fibS; lia.
by have := fibS n.+1; have := fib_gt0 n; lia.
Qed.

(** ** Machine integers *)
Section Checked.
Variables (cfg : Cfg) (w : Z).
Hypothesis w2 : 2 <= w.
Local Notation CI := (CheckedInts cfg w).

Lemma ci_unwrap k z : within k (unwrap (checked_i w z)) (in_i w).
Proof. by rewrite /checked_i; case: ifP => h; [exact: w_ret|exact: w_panic]. Qed.

Lemma ci_qr_within k x y : in_i w x -> in_i w y -> y <> 0 ->
  within k (checked_ints_quo_rem cfg w x y)
    (fun qr => [/\ in_i w qr.1, in_i w qr.2 & qr.2 = zrem x y]).
Proof.
move=> hx hy y0; rewrite checked_ints_quo_remE //; try lia.
case: ifP => bad; first exact: w_panic.
by apply: w_ret; split=> //=; [apply: in_zquo; rewrite ?bad|apply: in_zrem].
Qed.

Lemma ci_gcd_within k i x y : in_i w x -> in_i w y -> lame i x y -> (i < k)%N ->
  within k (gcd CI x y) (in_i w).
Proof.
move=> hx hy h ik; pose I i x y := [/\ in_i w x, in_i w y & lame i x y].
apply: (@gcd_within _ _ _ _ _ I i) => // {hx hy h ik} {}i {}x {}y [hx hy h]; split=> //.
apply: w_ret; case: Z.eqb_spec => y0; [by left|right].
have [i0 h'] := lame_step y0 h; split=> //; split=> //.
apply: w_bind (ci_qr_within k hx hy y0) _ => -[q r] [/= hq hr er]; apply: w_ret.
by split=> //; rewrite er.
Qed.

Lemma ci_egcd_within k i x y : in_i w x -> in_i w y -> lame i x y -> (i < k)%N ->
  within k (extended_gcd CI x y) (fun g => [/\ in_i w g.1.1, in_i w g.1.2 & in_i w g.2]).
Proof.
move=> hx hy h ik; pose I i x y := [/\ in_i w x, in_i w y & lame i x y].
apply: (@egcd_within _ (fun z => is_true (in_i w z)) _ _ _ _ _ _ _ I i) => //.
- by apply: w_ret; exact: in_i1.
- by apply: w_ret; exact: in_i0.
- by move=> *; exact: ci_unwrap.
- by move=> *; exact: ci_unwrap.
move=> {hx hy h ik} {}i {}x {}y [hx hy h]; split=> //.
apply: w_ret; case: Z.eqb_spec => y0; [by left|right].
have [i0 h'] := lame_step y0 h; split=> //; split=> //.
apply: w_mono (ci_qr_within k hx hy y0) _ => -[q r] [/= hq hr er]; split=> //.
by split=> //; rewrite er.
Qed.
End Checked.
