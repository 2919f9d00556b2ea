(** * PChecked.v -- when exactly CheckedInts and CheckedUints panic. *)

From Coq Require Import ZArith Lia Bool.
From mathcomp Require Import all_ssreflect.
From Verif Require Import Rust Traits MInts Wp ZFacts ZEgcd PIntsZ.

Set Implicit Arguments.
Unset Strict Implicit.
Unset Printing Implicit Defensive.
Local Open Scope Z_scope.

(** [exact_if b m v]: if [b] then the call returns [v], otherwise it panics. *)
Definition exact_if {A} (b : bool) (m : M A) (v : A) : Prop :=
  if b then returns m v else panics m.

Section CheckedInts.
Variables (cfg : Cfg) (w : Z).
Hypothesis w2 : 2 <= w.
Local Notation CI := (CheckedInts cfg w).

Lemma unwrap_exact z : exact_if (in_i w z) (unwrap (checked_i w z)) z.
Proof.
by rewrite /exact_if /checked_i; case: in_i; [exact: returns_ret|exact: panics_panic].
Qed.

Lemma ci_add_exact x y : exact_if (in_i w (x + y)) (add CI x y) (x + y).
Proof. exact: unwrap_exact. Qed.
Lemma ci_sub_exact x y : exact_if (in_i w (x - y)) (sub CI x y) (x - y).
Proof. exact: unwrap_exact. Qed.
Lemma ci_mul_exact x y : exact_if (in_i w (x * y)) (mul CI x y) (x * y).
Proof. exact: unwrap_exact. Qed.
Lemma ci_neg_exact x : exact_if (in_i w (- x)) (neg CI x) (- x).
Proof. by rewrite -Z.sub_0_l; exact: unwrap_exact. Qed.

Lemma ci_quo_rem_exact x y : in_i w x -> in_i w y ->
  exact_if (~~ (y =? 0) && ~~ bad_div w x y) (quo_rem CI x y) (zquo x y, zrem x y).
Proof.
move=> hx hy; rewrite /exact_if /=; case: Z.eqb_spec => [->|y0] /=; first exact: panics_panic.
rewrite checked_ints_quo_remE //; case: bad_div; first exact: panics_panic.
exact: returns_ret.
Qed.
Lemma ci_quo_exact x y : in_i w x -> in_i w y ->
  exact_if (~~ (y =? 0) && ~~ bad_div w x y) (quo CI x y) (zquo x y).
Proof.
move=> hx hy; have := ci_quo_rem_exact hx hy; rewrite /exact_if /= /default_quo.
case: ifP => _ h; last exact: panics_bind.
by apply: returns_bind h _; exact: returns_ret.
Qed.
Lemma ci_rem_exact x y : in_i w x -> in_i w y ->
  exact_if (~~ (y =? 0) && ~~ bad_div w x y) (rem CI x y) (zrem x y).
Proof.
move=> hx hy; have := ci_quo_rem_exact hx hy; rewrite /exact_if /= /default_rem.
case: ifP => _ h; last exact: panics_bind.
by apply: returns_bind h _; exact: returns_ret.
Qed.
Lemma ci_try_div_exact x y : in_i w x -> in_i w y ->
  exact_if (~~ (y =? 0) && ~~ bad_div w x y) (try_div CI x y)
    (if zrem x y =? 0 then Some (zquo x y) else None).
Proof.
move=> hx hy; rewrite /exact_if /=; case: Z.eqb_spec => [->|y0] /=; first exact: panics_panic.
rewrite checked_ints_try_divE //; case: bad_div; first exact: panics_panic.
exact: returns_ret.
Qed.
(** [divisible] and [reduced] *)
Lemma ci_reduced_exact x y : in_i w x ->
  returns (reduced CI x y) ((y =? 0) || (zrem x y =? x)).
Proof. by move=> hx /=; rewrite checked_ints_reducedE //; exact: returns_ret. Qed.

(** The pair (MIN, -1). *)
Lemma bad_divE x y : bad_div w x y <-> x = imin w /\ y = -1.
Proof. by rewrite /bad_div; case: Z.eqb_spec; case: Z.eqb_spec => //=; split=> // -[]. Qed.
Lemma bad_divF x y : ~~ bad_div w x y <-> ~ (x = imin w /\ y = -1).
Proof. by rewrite -bad_divE; case: bad_div; split. Qed.

Lemma bad_div_nonneg x y : 0 <= y -> ~~ bad_div w x y.
Proof. by move=> y0; apply/bad_divF => -[_ h]; lia. Qed.

Lemma zrem_in x y : in_i w x -> in_i w y -> y <> 0 -> in_i w (zrem x y).
Proof.
move=> /(in_iP w) hx /(in_iP w) hy y0; apply/(in_iP w).
by have := zrem_bound x y y0; have := imin_imax w2; lia.
Qed.

(** gcd panics only for (MIN, -1). *)
Lemma ci_gcd_total x y : in_i w x -> in_i w y -> ~~ bad_div w x y ->
  ensures False (gcd CI x y) (fun=> True).
Proof.
move=> hx hy nb.
apply: (@ensures_bind _ _ _ _ _ (fun=> True)); last by move=> s _; apply: ensures_ret.
apply: (@ensures_while _ _ _ _
  (fun s : Z * Z => [/\ in_i w s.1, in_i w s.2 & ~~ bad_div w s.1 s.2]) _
  (fun s => Z.abs_nat s.2)) => //.
move=> [a b] [/= ha hb nab]; apply: ensures_ret; case: Z.eqb_spec => [//|b0] /=.
have := ci_rem_exact ha hb; rewrite /exact_if nab (_ : b =? 0 = false); last by case: Z.eqb_spec.
move=> /= hr; apply: (@ensures_bind _ _ _ _ _ (fun r => r = zrem a b)).
  exact: ensures_returns hr _.
move=> r ->; apply: ensures_ret; have zb := zrem_bound a b b0; split; last by apply/ltP => /=; lia.
by split=> //=; [exact: zrem_in|apply: bad_div_nonneg; lia].
Qed.

Lemma ci_rem_bad : panics (rem CI (imin w) (-1)).
Proof.
have hm : in_i w (imin w) by apply/(in_iP w); have := imin_imax w2; lia.
have := ci_rem_exact hm (in_iN1 w2).
by rewrite /exact_if (_ : bad_div w _ _) //; apply/bad_divE.
Qed.
Lemma ci_quo_rem_bad : panics (quo_rem CI (imin w) (-1)).
Proof.
have hm : in_i w (imin w) by apply/(in_iP w); have := imin_imax w2; lia.
have := ci_quo_rem_exact hm (in_iN1 w2).
by rewrite /exact_if (_ : bad_div w _ _) //; apply/bad_divE.
Qed.

Lemma ci_gcd_bad : panics (gcd CI (imin w) (-1)).
Proof.
have [n h] := ci_rem_bad; exists n.+1 => -[//|k] nk.
have /= hk := h k.+1 (ltnW nk).
rewrite /= /default_gcd /while_loop /bind /= /notM /bind /=.
by rewrite hk.
Qed.
Lemma ci_relative_primes_bad : panics (relative_primes CI (imin w) (-1)).
Proof. exact: panics_bind ci_gcd_bad. Qed.
Lemma ci_extended_gcd_bad : panics (extended_gcd CI (imin w) (-1)).
Proof.
have [n h] := ci_quo_rem_bad; exists n.+1 => -[//|k] nk.
have /= hk := h k.+1 (ltnW nk).
rewrite /= /default_extended_gcd /extended_gcd_fuel /bind /=.
by rewrite hk.
Qed.

Lemma ci_relative_primes_total x y : in_i w x -> in_i w y -> ~~ bad_div w x y ->
  ensures False (relative_primes CI x y) (fun=> True).
Proof.
by move=> hx hy nb; apply: ensures_bind (ci_gcd_total hx hy nb) _ => g _; apply: ensures_ret.
Qed.

(** The extended Euclidean algorithm never overflows, except on (MIN, -1);
    from four bits on. *)
Hypothesis w4 : 4 <= w.

Lemma range8 : 8 <= 2 ^ (w - 1).
Proof. by have := Z.pow_le_mono_r 2 3 (w - 1) ltac:(lia) ltac:(lia). Qed.

Lemma in_inr z : in_i w z <-> inr (2 ^ (w - 1)) z.
Proof. by rewrite (in_iP w); rewrite /imin /imax /inr; lia. Qed.
Lemma inr'_in z : inr' (2 ^ (w - 1)) z -> in_i w z.
Proof. by move=> h; apply/in_inr; exact: inr'_inr h. Qed.

Lemma ci_egcd_fuel x y g s t : eg x y g s t -> in_i w x -> in_i w y -> ~~ bad_div w x y ->
  exists n : nat, forall f k : nat, (n <= f)%N ->
    extended_gcd_fuel f (is_zero CI) (one CI) (zero CI) (mul CI) (sub CI) (quo_rem CI)
      x y k = Done (g, s, t).
Proof.
elim=> {x y g s t} [x|x y g u v y0 h IH] hx hy nb.
  by exists 1%N => -[//|f] k _.
have hz : in_i w (zrem x y) by exact: zrem_in.
have [n hn] := IH hy hz (bad_div_nonneg _ (proj1 (zrem_bound x y y0))).
exists n.+1 => -[//|f] k; rewrite ltnS => nf /=.
have [/inr'_in hu [/inr'_in hv [/inr'_in hvq /inr'_in ht]]] :
  inr' (2 ^ (w - 1)) u /\ inr' (2 ^ (w - 1)) v /\
  inr' (2 ^ (w - 1)) (v * zquo x y) /\ inr' (2 ^ (w - 1)) (u - v * zquo x y).
  apply: eg_bounds h => //; [exact: range8|exact/in_inr|exact/in_inr|].
  by move=> [h1 h2]; move/bad_divF: nb; apply; split=> //; rewrite /imin.
rewrite /bind /= (_ : (y =? 0) = false); last by case: Z.eqb_spec.
have -> : checked_ints_quo_rem cfg w x y k = Done (zquo x y, zrem x y).
  by rewrite checked_ints_quo_remE // (negbTE nb).
rewrite /= hn //; rewrite /checked_ints_mul /checked_i hvq /= ht //.
Qed.

Lemma ci_extended_gcd_returns x y g s t : eg x y g s t ->
  in_i w x -> in_i w y -> ~~ bad_div w x y ->
  returns (extended_gcd CI x y) (g, s, t).
Proof.
by move=> h hx hy nb; have [n hn] := ci_egcd_fuel h hx hy nb; exists n => k nk; apply: hn.
Qed.

(** The coefficients can also be negated without overflow. *)
Lemma ci_eg_range x y g s t : eg x y g s t -> in_i w x -> in_i w y -> ~~ bad_div w x y ->
  y <> 0 -> inr' (2 ^ (w - 1)) s /\ inr' (2 ^ (w - 1)) t.
Proof.
move=> h hx hy nb y0; have [u [h2 ->]] := eg_step _ _ _ _ _ h y0.
have nb' : ~ (x = - 2 ^ (w - 1) /\ y = -1).
  by move=> [h1 h3]; move/bad_divF: nb; apply; split=> //; rewrite /imin.
move/in_inr: hx => hx; move/in_inr: hy => hy.
by have [h1 [h3 [h4 h5]]] := @eg_bounds _ range8 x y g u s y0 hx hy nb' h2.
Qed.
End CheckedInts.

Section CheckedUints.
Variable w : Z.
Local Notation CU := (CheckedUints w).

Lemma unwrap_exact_u z : exact_if (in_u w z) (unwrap (checked_u w z)) z.
Proof.
by rewrite /exact_if /checked_u; case: in_u; [exact: returns_ret|exact: panics_panic].
Qed.
Lemma cu_add_exact x y : exact_if (in_u w (x + y)) (add CU x y) (x + y).
Proof. exact: unwrap_exact_u. Qed.
Lemma cu_mul_exact x y : exact_if (in_u w (x * y)) (mul CU x y) (x * y).
Proof. exact: unwrap_exact_u. Qed.
End CheckedUints.
