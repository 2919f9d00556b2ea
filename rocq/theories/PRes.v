(** * PRes.v -- when residues and divisors of machine integers panic. *)

From mathcomp Require Import all_ssreflect all_algebra zify ssrZ.
From Coq Require Import ZArith Znumtheory Lia.
From Verif Require Import Rust Traits MInts MConstr Wp Spec ZFacts PIntsZ PInts PChecked
  Laws PCISim NumSpec PNum PTimes POver PRat BezoutSpec PBezout ResSpec.

Set Implicit Arguments.
Unset Strict Implicit.
Unset Printing Implicit Defensive.

Local Open Scope Z_scope.

Section Residues.
Variables (cfg : Cfg) (w m : Z).
Hypotheses (w4 : 4 <= w) (fm : fits w m) (m2 : 2 <= Z.abs m).
Local Notation CI := (CheckedInts cfg w).
Local Notation R := (QuotientRing cfg CI m).
Local Notation K := (QuotientField cfg CI m).

Let w2 : 2 <= w. Proof. lia. Qed.
Let m0 : m <> 0. Proof. lia. Qed.

Lemma zremE x y : y <> 0 -> zrem x y = x mod Z.abs y.
Proof.
move=> y0; have hb := zrem_bound x y y0; have hd := zdiv x y y0.
apply: (Z.mod_unique_pos _ _ (zquo x y * Z.sgn y)) => //.
by case: (Z.abs_spec y) => -[h ->]; case: (Z.sgn_spec y) => [[h1 ->]|[[h1 ->]|[h1 ->]]]; lia.
Qed.

Lemma rem_m z : in_i w z -> returns (rem CI z m) (z mod Z.abs m).
Proof.
move=> hz; have /fitsP hm := fm; have := ci_rem_exact cfg w2 hz hm.
rewrite /exact_if zremE //; case: Z.eqb_spec => // _; rewrite (_ : ~~ bad_div w z m) //.
by apply/bad_divF => -[_ e]; move: m2; rewrite e.
Qed.
Lemma res_op (op : M Z) z : exact_if (in_i w z) op z ->
  exact_if (in_i w z) (let! t := op in rem CI t m) (z mod Z.abs m).
Proof.
rewrite /exact_if; case: ifP => hz h; last exact: panics_bind.
by apply: returns_bind h _; exact: rem_m.
Qed.
Lemma res_residue x : is_residue m x -> in_i w x.
Proof. by rewrite /is_residue => hx; apply/fitsP; move: fm; rewrite /fits; lia. Qed.
Lemma res_mod z : is_residue m (z mod Z.abs m).
Proof. by apply: Z.mod_pos_bound; lia. Qed.

Lemma res_add x y : checked (fits w (x + y)) (add R x y) ((x + y) mod Z.abs m).
Proof. by apply: exact_checked (fitsP _ _) _; exact: res_op (ci_add_exact cfg w x y). Qed.
Lemma res_mul x y : checked (fits w (x * y)) (mul R x y) ((x * y) mod Z.abs m).
Proof. by apply: exact_checked (fitsP _ _) _; exact: res_op (ci_mul_exact cfg w x y). Qed.
Lemma res_neg x : is_residue m x -> returns (neg R x) ((- x) mod Z.abs m).
Proof.
move=> hx; have := res_op (ci_neg_exact cfg w x).
rewrite /exact_if (_ : in_i w (- x)) //; apply/fitsP.
by move: fm hx; rewrite /is_residue /fits; lia.
Qed.
Lemma res_sub x y : is_residue m y ->
  checked (fits w ((- y) mod Z.abs m + x)) (sub R x y) ((x - y) mod Z.abs m).
Proof.
move=> hy; apply: crb (res_neg hy) _; apply: ceq (res_add _ _) => //.
by rewrite Z.add_mod_idemp_l; [congr (_ mod _); lia|lia].
Qed.
Lemma res_sub_assign x y : is_residue m y ->
  checked (fits w (x + (- y) mod Z.abs m)) (sub_assign R x y) ((x - y) mod Z.abs m).
Proof.
move=> hy; apply: crb (res_neg hy) _; apply: ceq (res_add _ _) => //.
by rewrite Z.add_mod_idemp_r; [congr (_ mod _); lia|lia].
Qed.

(** The arithmetic of residues, ring and field alike *)
Lemma res_ring x y : is_residue m x -> is_residue m y ->
  [/\ checked (fits w (x + y)) (add R x y) ((x + y) mod Z.abs m),
      checked (fits w (x + y)) (add_assign R x y) ((x + y) mod Z.abs m),
      checked (fits w (x + x)) (double R x) ((x + x) mod Z.abs m),
      returns (neg R x) ((- x) mod Z.abs m) &
      returns (neg_assign R x) ((- x) mod Z.abs m)] /\
  [/\ checked (fits w (x + (- y) mod Z.abs m)) (sub R x y) ((x - y) mod Z.abs m),
      checked (fits w (x + (- y) mod Z.abs m)) (sub_assign R x y) ((x - y) mod Z.abs m),
      checked (fits w (x * y)) (mul R x y) ((x * y) mod Z.abs m),
      checked (fits w (x * y)) (mul_assign R x y) ((x * y) mod Z.abs m) &
      checked (fits w (x * x)) (square R x) ((x * x) mod Z.abs m)].
Proof.
move=> hx hy; split; split; try by [exact: res_add|exact: res_mul|exact: res_neg|exact: res_sub_assign].
by rewrite Z.add_comm; exact: res_sub.
Qed.

(** The inverse *)
Lemma res_bezout x : is_residue m x -> exists g s t,
  [/\ returns (extended_gcd CI m x) (g, s, t), 0 < g -> in_i w t, g = s * m + t * x,
      Z.abs g = Z.gcd m x & g = -1 -> False].
Proof.
rewrite /is_residue => hx; have fx : fits w x by apply/fitsP; exact: res_residue.
have nb : ~ min_by_m1 w m x by move=> [_]; lia.
have [g [s [t [hr h]]]] := ci_small cfg w4 fm fx nb; exists g, s, t.
have pw : 8 <= 2 ^ (w - 1) by apply: (Z.pow_le_mono_r 2 3); lia.
split; rewrite ?(sb_gcd h) //; last first.
- move=> e; case: (Z.eq_dec x 0) => x0.
    by have [e1 _ _] := sb_zero h x0; move: m2; rewrite -e1 e.
  case: (Znumtheory.Zdivide_dec x m) => [/(sb_divides h x0) [e1 _ _]|/(sb_general h x0) [e1 _]]; lia.
- exact: sb_bezout h.
move=> g0; apply/fitsP.
case: (Z.eq_dec x 0) => x0.
  by have [_ _ ->] := sb_zero h x0; rewrite /fits; lia.
case: (Znumtheory.Zdivide_dec x m) => [/(sb_divides h x0) [_ _ ->]|nd]; first by rewrite /fits; lia.
have x1 : 0 < x by lia.
have [_ [h1 _]] := sb_positive h x1 nd.
by move: fm; rewrite /fits; nia.
Qed.

Lemma no_inverse x z : is_residue m x -> inverse_of m x z -> Z.gcd m x = 1.
Proof.
move=> hx [_ e]; apply/Z.bezout_1_gcd; exists (- (x * z / Z.abs m) * Z.sgn m), z.
have hd := Z.div_mod (x * z) (Z.abs m).
have {}hd : x * z = Z.abs m * (x * z / Z.abs m) + 1 by rewrite -e; apply: hd; lia.
by move: hd; case: (Z.abs_spec m) => -[h ->]; case: (Z.sgn_spec m) => [[h1 ->]|[[h1 ->]|[h1 ->]]]; lia.
Qed.
Lemma bezout_inverse x s t : is_residue m x -> 1 = s * m + t * x ->
  inverse_of m x ((1 * t) mod Z.abs m).
Proof.
move=> hx e; split; first exact: res_mod.
rewrite Z.mul_1_l Z.mul_mod_idemp_r; last lia.
symmetry; apply: (Z.mod_unique_pos _ _ (- s * Z.sgn m)); first lia.
by case: (Z.abs_spec m) => -[h ->]; case: (Z.sgn_spec m) => [[h1 ->]|[[h1 ->]|[h1 ->]]]; lia.
Qed.

Lemma res_try_inv x : is_residue m x -> exists2 o, finds_inverse m x o &
  returns (try_inv R x) o /\ returns (invertible R x) (if o is Some _ then true else false).
Proof.
move=> hx; have [g [s [t [hr ht e hg hn]]]] := res_bezout hx.
suff [o ho hi] : exists2 o, finds_inverse m x o & returns (try_inv R x) o.
  exists o => //; split=> //; apply: returns_bind hi _; exact: returns_ret.
case: (Z.eqb_spec g 1) => g1.
  exists (Some ((1 * t) mod Z.abs m)).
    by apply: (@bezout_inverse x s t) => //; rewrite -g1.
  apply: returns_bind hr _; rewrite g1.
  rewrite [try_inv _ _]/= /checked_ints_try_inv /checked_ints_invertible bind_ret [(_ || _)]/=; rewrite bind_ret.
  have ht' : in_i w (1 * t) by rewrite Z.mul_1_l; apply: ht; lia.
  have := res_op (ci_mul_exact cfg w 1 t); rewrite /exact_if ht' => h.
  by apply: returns_bind h _; exact: returns_ret.
exists None.
  by move=> z /(no_inverse hx); rewrite -hg; case: (Z.abs_spec g) => -[h ->]; [|move=> h1; apply: hn]; lia.
apply: returns_bind hr _; rewrite /= /checked_ints_try_inv /checked_ints_invertible !bind_ret /=.
rewrite (_ : (g =? 1) = false); last by case: Z.eqb_spec.
rewrite (_ : (g =? -1) = false); last by case: Z.eqb_spec.
by rewrite /= bind_ret; exact: returns_ret.
Qed.

(** The methods of QuotientField *)
Lemma fres_inv_of x o : is_residue m x -> x <> 0 -> returns (try_inv R x) o ->
  if o is Some z then returns (finv K x) z else panics (finv K x).
Proof.
move=> hx x0 ho.
have iz : returns (is_zero (quotient_cmonoid CI m) x) false.
  by rewrite /= /default_is_zero bind_ret (_ : (x =? 0) = false); [exact: returns_ret|case: Z.eqb_spec].
have [g [s [t [hr ht e hg hn]]]] := res_bezout hx.
move: ho; rewrite /= /quotient_ring_try_inv => ho.
case: (Z.eqb_spec g 1) => g1; last first.
  have h : returns (try_inv R x) None.
    apply: returns_bind hr _; rewrite /= /checked_ints_try_inv /checked_ints_invertible !bind_ret /=.
    rewrite (_ : (g =? 1) = false); last by case: Z.eqb_spec.
    rewrite (_ : (g =? -1) = false); last by case: Z.eqb_spec.
    by rewrite /= bind_ret; exact: returns_ret.
  rewrite (returns_det ho h).
  apply: panics_bind2 iz _; apply: panics_bind2 (returns_ret tt) _; apply: panics_bind2 hr _.
  rewrite /= /checked_ints_try_inv /checked_ints_invertible !bind_ret /=.
  rewrite (_ : (g =? 1) = false); last by case: Z.eqb_spec.
  rewrite (_ : (g =? -1) = false); last by case: Z.eqb_spec.
  by rewrite /= bind_ret; apply: panics_bind; exact: panics_panic.
have ht' : in_i w (1 * t) by rewrite Z.mul_1_l; apply: ht; lia.
have hq := res_op (ci_mul_exact cfg w 1 t); rewrite /exact_if ht' in hq.
have h : returns (try_inv R x) (Some ((1 * t) mod Z.abs m)).
  apply: returns_bind hr _; rewrite g1.
  rewrite [try_inv _ _]/= /checked_ints_try_inv /checked_ints_invertible bind_ret [(_ || _)]/=; rewrite bind_ret.
  by apply: returns_bind hq _; exact: returns_ret.
rewrite (returns_det ho h).
apply: returns_bind iz _; apply: returns_bind (returns_ret tt) _; apply: returns_bind hr _; rewrite g1.
rewrite [try_inv _ _]/= /checked_ints_try_inv /checked_ints_invertible bind_ret [(_ || _)]/=; rewrite bind_ret.
by apply: returns_bind (returns_ret _) _; exact: hq.
Qed.
Lemma inverse_unique x z z' : is_residue m x -> inverse_of m x z -> inverse_of m x z' -> z = z'.
Proof.
move=> hx [hz e] [hz' e'].
have : (z * (x * z')) mod Z.abs m = (z' * (x * z)) mod Z.abs m by congr (_ mod _); lia.
rewrite -Z.mul_mod_idemp_r ?e' -1?[in RHS]Z.mul_mod_idemp_r ?e; try lia.
by rewrite !Z.mul_1_r !Z.mod_small.
Qed.
Lemma inverse_nz x z : inverse_of m x z -> x <> 0.
Proof. by move=> [_ e] x0; move: e; rewrite x0 Z.mul_0_l Z.mod_0_l; lia. Qed.
Lemma fres_inv x : is_residue m x ->
  (forall z, inverse_of m x z -> returns (finv K x) z) /\
  ((forall z, ~ inverse_of m x z) -> panics (finv K x)).
Proof.
move=> hx; have [o ho [h1 _]] := res_try_inv hx; split=> [z hz|hn].
  have := fres_inv_of hx (inverse_nz hz) h1; case: o ho h1 => [z'|] ho _ /=.
    by rewrite (inverse_unique hx hz ho).
  by case: (ho z hz).
case: (Z.eqb_spec x 0) => [->|x0].
  have iz : returns (is_zero (quotient_cmonoid CI m) 0) true by rewrite /= /default_is_zero bind_ret; exact: returns_ret.
  by apply: panics_bind2 iz _; apply: panics_bind; exact: panics_panic.
by have := fres_inv_of hx x0 h1; case: o ho h1 => [z' /hn|].
Qed.
Lemma fres_div x y : is_residue m x -> is_residue m y ->
  (forall z, inverse_of m y z -> checked (fits w (x * z)) (fdiv K x y) ((x * z) mod Z.abs m)) /\
  ((forall z, ~ inverse_of m y z) -> panics (fdiv K x y)).
Proof.
move=> hx hy; have [h1 h2] := fres_inv hy; split=> [z /h1 hz|/h2 hn]; last exact: panics_bind.
by apply: crb hz _; exact: res_mul.
Qed.
Lemma res_sum_small x y : 2 * (Z.abs m - 1) < 2 ^ (w - 1) -> is_residue m x -> is_residue m y ->
  [/\ returns (add R x y) ((x + y) mod Z.abs m), returns (double R x) ((x + x) mod Z.abs m) &
      returns (sub R x y) ((x - y) mod Z.abs m)].
Proof.
move=> hm hx hy; have [[h1 _ h2 _ _] [h3 _ _ _ _]] := res_ring hx hy.
have h := res_mod (- y); move: hx hy h h1 h2 h3; rewrite /is_residue => hx hy h [h1 _] [h2 _] [h3 _].
by split; [apply: h1|apply: h2|apply: h3]; rewrite /fits; lia.
Qed.
End Residues.

(** ** The divisibility order of machine integers *)
Section Divisors.
Variables (cfg : Cfg) (w : Z).
Hypothesis w2 : 2 <= w.
Local Notation CI := (CheckedInts cfg w).
Local Notation D := (DivisibilityOrder CI).
Local Notation L := (DivisibilityLattice CI).

Lemma div_contains x : returns (contains D x) (0 <=? x).
Proof.
rewrite /= /orM bind_ret; case: Z.eqb_spec => [->|x0]; first exact: returns_ret.
rewrite /checked_ints_associate_coef (_ : (x =? 0) = false); last by case: Z.eqb_spec.
rewrite bind_ret; case: Z.ltb_spec => hx; rewrite bind_ret.
  by rewrite (_ : (0 <=? x) = false); [exact: returns_ret|apply/Z.leb_gt].
by rewrite (_ : (0 <=? x) = true); [exact: returns_ret|apply/Z.leb_le].
Qed.
Lemma div_divisible x y : 0 <= x -> 0 <= y -> fits w x -> fits w y ->
  exists2 b : bool, (b <-> Z.divide y x) & returns (divisible CI x y) b.
Proof.
move=> x0 y0 fx fy; have [b [hb [h _]]] := ci_divisible cfg w2 fx fy.
by exists b => //; apply: h => -[_]; lia.
Qed.
Lemma div_order x y : 0 <= x -> 0 <= y -> fits w x -> fits w y ->
  exists b c : bool, [/\ b <-> Z.divide x y, c <-> Z.divide y x & 
   [/\ returns (leq D x y) b, returns (less_than D x y) (~~ (x =? y) && b) &
       returns (comparable D x y) (b || c)]].
Proof.
move=> x0 y0 fx fy; have [b hb h1] := div_divisible y0 x0 fy fx.
have [c hc h2] := div_divisible x0 y0 fx fy; exists b, c; split=> //; split=> //.
  apply: (@returns_bind _ _ _ _ (~~ (x =? y))); first by rewrite /= /notM bind_ret; exact: returns_ret.
  by case: (x =? y); [exact: returns_ret|].
by apply: returns_bind h1 _; case: b hb => // _; exact: returns_ret.
Qed.
Lemma div_gcd x y : 0 <= x -> 0 <= y -> fits w x -> fits w y -> returns (gcd CI x y) (Z.gcd x y).
Proof.
move=> x0 y0 fx fy; have [->|y1] := Z.eq_dec y 0; last by apply: ci_gcd_pos => //; lia.
rewrite Z.gcd_0_r_nonneg //; apply: (@returns_bind _ _ _ _ (x, 0)); last exact: returns_ret.
by exists 1%nat => -[].
Qed.
Lemma repr_nonneg z : 0 <= z -> returns (associate_repr CI z) z.
Proof.
by move=> z0; rewrite /= /checked_ints_associate_repr; case: Z.ltb_spec => [|_]; [lia|exact: returns_ret].
Qed.
Lemma div_meet x y : 0 <= x -> 0 <= y -> fits w x -> fits w y -> returns (meet L x y) (Z.gcd x y).
Proof.
move=> x0 y0 fx fy; apply: returns_bind (div_gcd x0 y0 fx fy) _; apply: repr_nonneg.
exact: Z.gcd_nonneg.
Qed.
Lemma div_join x y : 0 <= x -> 0 <= y -> fits w x -> fits w y ->
  checked (fits w (Z.lcm x y)) (join L x y) (Z.lcm x y).
Proof.
move=> x0 y0 fx fy; have [l [hl e hc]] := ci_lcm cfg w2 fx fy.
have hg := div_gcd x0 y0 fx fy.
have l0 : 0 <= l.
  have hz := ensures_value (tr_gcd (ci_tracks cfg w2) (introT (fitsP _ _) fx) (introT (fitsP _ _) fy)) hg.
  move: hl; case: (Z.eqb_spec (Z.gcd x y) 0) => g0 hl.
    suff : returns (lcm ZZ x y) 0 by move=> /(returns_det hl) ->.
    by apply: returns_bind hz _; rewrite bind_ret g0; exact: returns_ret.
  have gp : 0 < Z.gcd x y by have := Z.gcd_nonneg x y; lia.
  suff : returns (lcm ZZ x y) (zquo x (Z.gcd x y) * y).
    move=> /(returns_det hl) ->; have h1 := zdiv x (Z.gcd x y) g0.
    by have h2 := zrem_bound x (Z.gcd x y) g0; apply: Z.mul_nonneg_nonneg => //; nia.
  apply: returns_bind hz _; rewrite bind_ret (_ : (_ =? 0) = false); last by case: Z.eqb_spec.
  rewrite /= /default_quo integers_quo_remE //; first by rewrite !bind_ret; exact: returns_ret.
have {}e : l = Z.lcm x y by rewrite -e Z.abs_eq.
rewrite -e; have nb : ~ min_by_m1 w x y by move=> [_]; lia.
split=> h.
  by apply: returns_bind (hc.1 (conj nb h)) _; exact: repr_nonneg.
by apply: panics_bind; apply: hc.2 => -[_ /h].
Qed.
End Divisors.
