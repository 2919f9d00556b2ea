(** * PNum.v -- the number structures, stated with the standard library's integers. *)

From mathcomp Require Import all_ssreflect all_algebra zify ssrZ.
From Coq Require Import ZArith Lia Znumtheory.
From Verif Require Import Rust Traits MInts Wp Spec ZFacts ZEgcd PIntsZ PInts PChecked PTimes
  Laws PCISim NumSpec.

Set Implicit Arguments.
Unset Strict Implicit.
Unset Printing Implicit Defensive.

Local Open Scope Z_scope.

(** ** ZZ *)
Section ZZ.
Variable cfg : Cfg.
Implicit Types x y z n : Z.

Lemma zz_ring x y :
  [/\ returns (zero ZZ) 0, returns (one ZZ) 1, returns (add ZZ x y) (x + y) &
      returns (mul ZZ x y) (x * y)] /\
  [/\ returns (neg ZZ x) (- x), returns (sub ZZ x y) (x - y),
      returns (double ZZ x) (x + x) & returns (square ZZ x) (x * x)] /\
  [/\ returns (add_assign ZZ x y) (x + y), returns (mul_assign ZZ x y) (x * y),
      returns (neg_assign ZZ x) (- x) & returns (sub_assign ZZ x y) (x - y)] /\
  [/\ returns (is_zero ZZ x) (x =? 0), returns (is_one ZZ x) (x =? 1),
      returns (equals ZZ x y) (x =? y) & returns (contains ZZ x) true].
Proof.
split; first by split; exact: returns_ret.
split; first by split; try exact: returns_ret; rewrite (_ : x + x = x * 2); [exact: returns_ret|lia].
split; last by split; exact: returns_ret.
by split; exact: returns_ret.
Qed.

Lemma zz_times n x :
  [/\ returns (ztimes ZZ n x) (n * x), returns (ntimes ZZ n x) (n * x) &
      returns (int ZZ n) n].
Proof.
split; try exact: returns_ret.
by rewrite /= /default_int bind_ret /= Z.mul_1_r; exact: returns_ret.
Qed.

Lemma zz_units x :
  returns (try_inv ZZ x) (if Z.abs x =? 1 then Some x else None) /\
  returns (invertible ZZ x) (Z.abs x =? 1).
Proof.
have h : (x =? 1) || (- x =? 1) = (Z.abs x =? 1).
  by case: Z.eqb_spec => h1; case: Z.eqb_spec => h2; case: Z.eqb_spec => h3 //; lia.
split; rewrite /= /integers_try_inv /integers_invertible h ?bind_ret; last exact: returns_ret.
by case: ifP => _; exact: returns_ret.
Qed.

Lemma zz_try_div x y : y <> 0 -> exists o, returns (try_div ZZ x y) o /\
  match o with
  | Some q => x = q * y
  | None => ~ Z.divide y x
  end.
Proof.
move=> y0; rewrite /= integers_try_divE //; eexists; split; first exact: returns_ret.
have h := zdiv x y y0; case: Z.eqb_spec => h0; first by lia.
by move=> hd; apply: h0; apply/zrem_eq0 => //; apply/Z.rem_divide.
Qed.
Lemma zz_try_div_zero x : panics (try_div ZZ x 0).
Proof. exact: panics_panic. Qed.

Lemma zz_divisible x y : exists b : bool, returns (divisible ZZ x y) b /\ (b <-> Z.divide y x).
Proof.
rewrite /= integers_divisibleE; eexists; split; first exact: returns_ret.
case: Z.eqb_spec => [->|y0].
  by split=> [/Z.eqb_eq -> | /Z.divide_0_l ->]; first exact: Z.divide_0_r.
split=> [/Z.eqb_eq /(zrem_eq0 x y y0) h|h]; first exact/Z.rem_divide.
by apply/Z.eqb_eq/zrem_eq0 => //; apply/Z.rem_divide.
Qed.

Lemma zz_associates x y :
  returns (associates ZZ x y) (Z.abs x =? Z.abs y).
Proof.
have [b [h1 hb]] := zz_divisible x y; have [c [h2 hc]] := zz_divisible y x.
have -> : (Z.abs x =? Z.abs y) = b && c.
  apply/idP/idP => [/Z.eqb_eq h|/andP[/hb d1 /hc d2]].
    by apply/andP; split; [apply/hb|apply/hc]; apply/Z.divide_abs_l; rewrite ?h -?h;
      apply/Z.divide_abs_r; rewrite ?h -?h; apply: Z.divide_refl.
  by apply/Z.eqb_eq; have [->|->] := Z.divide_antisym y x d1 d2; lia.
rewrite /= /default_associates /andM; apply: returns_bind h1 _.
by case: b {hb}; [exact: h2|exact: returns_ret].
Qed.

Lemma zz_associate_repr x : returns (associate_repr ZZ x) (Z.abs x).
Proof.
by rewrite /= /integers_associate_repr; case: Z.ltb_spec => h;
  [rewrite (_ : Z.abs x = - x); last lia|rewrite Z.abs_eq //]; exact: returns_ret.
Qed.
Lemma zz_associate_coef x : x <> 0 -> returns (associate_coef ZZ x) (Z.sgn x).
Proof.
move=> x0; rewrite /= /integers_associate_coef (_ : ~~ (x =? 0) = true); last by case: Z.eqb_spec.
rewrite bind_ret; case: Z.ltb_spec => h; first by rewrite Z.sgn_neg //; exact: returns_ret.
by rewrite Z.sgn_pos; [exact: returns_ret|lia].
Qed.
Lemma zz_associate_coef_zero : panics (associate_coef ZZ 0).
Proof. exact: panics_panic. Qed.

Lemma zz_order x y :
  [/\ returns (leq ZZ_lattice x y) (x <=? y),
      returns (less_than ZZ_lattice x y) (x <? y) &
      returns (comparable ZZ_lattice x y) true] /\
  returns (meet ZZ_lattice x y) (Z.min x y) /\ returns (join ZZ_lattice x y) (Z.max x y).
Proof.
split; last by split; exact: returns_ret.
split; first exact: returns_ret.
  rewrite /= /default_less_than /andM /notM !bind_ret.
  case: Z.eqb_spec => [->|h] /=; first by rewrite Z.ltb_irrefl; exact: returns_ret.
  rewrite (_ : (x <? y) = (x <=? y)); first exact: returns_ret.
  by case: Z.ltb_spec => h1; case: Z.leb_spec => h2 //; lia.
rewrite /= /default_comparable /orM /integers_leq bind_ret.
case: Z.leb_spec => h; first exact: returns_ret.
by rewrite (_ : (y <=? x) = true); [exact: returns_ret|apply/Z.leb_le; lia].
Qed.

(** Division. *)
Lemma zz_quo_rem x y : y <> 0 -> exists q r,
  returns (quo_rem ZZ x y) (q, r) /\
  [/\ x = q * y + r, 0 <= r < Z.abs y &
      forall q' r', x = q' * y + r' -> 0 <= r' < Z.abs y -> q' = q /\ r' = r] /\
  returns (quo ZZ x y) q /\ returns (rem ZZ x y) r.
Proof.
move=> y0; exists (zquo x y), (zrem x y); split.
  by rewrite /= integers_quo_remE //; exact: returns_ret.
split; last first.
  by rewrite /= /default_quo /default_rem integers_quo_remE // !bind_ret; split; exact: returns_ret.
split; [exact: zdiv | exact: zrem_bound | ].
by move=> q' r' h1 h2; exact: zdiv_unique h2 h1.
Qed.
Lemma zz_quo_rem_zero x :
  [/\ panics (quo_rem ZZ x 0), panics (quo ZZ x 0) & panics (rem ZZ x 0)].
Proof. by split; apply: panics_panic. Qed.
Lemma zz_reduced x y :
  returns (reduced ZZ x y) ((y =? 0) || (0 <=? x) && (x <? Z.abs y)).
Proof.
rewrite /= /integers_reduced; case: Z.eqb_spec => //= _; first exact: returns_ret.
rewrite (_ : ~~ (x <? 0) = (0 <=? x)); first exact: returns_ret.
by case: Z.ltb_spec => h1; case: Z.leb_spec => h2 //; lia.
Qed.

(** Greatest common divisors. *)
Lemma is_gcd_Z (a b d : Z) : is_gcd a b d <-> Z.abs d = Z.gcd a b.
Proof.
split=> [[/Z_dvdsP h1 /Z_dvdsP h2 h3]|h].
  apply: Z.divide_antisym_nonneg; try by [apply: Z.abs_nonneg|apply: Z.gcd_nonneg].
    by apply/Z.divide_abs_l; apply: Z.gcd_greatest.
  by apply/Z.divide_abs_r/Z_dvdsP/h3; apply/Z_dvdsP; [apply: Z.gcd_divide_l|apply: Z.gcd_divide_r].
split; try (apply/Z_dvdsP/Z.divide_abs_l; rewrite h; by [apply: Z.gcd_divide_l|apply: Z.gcd_divide_r]).
by move=> c /Z_dvdsP h1 /Z_dvdsP h2; apply/Z_dvdsP/Z.divide_abs_r; rewrite h; apply: Z.gcd_greatest.
Qed.
Lemma is_lcm_Z (a b m : Z) : is_lcm a b m <-> Z.abs m = Z.lcm a b.
Proof.
split=> [[/Z_dvdsP h1 /Z_dvdsP h2 h3]|h].
  apply: Z.divide_antisym_nonneg; try by [apply: Z.abs_nonneg|apply: Z.lcm_nonneg].
    by apply/Z.divide_abs_l/Z_dvdsP/h3; apply/Z_dvdsP; [apply: Z.divide_lcm_l|apply: Z.divide_lcm_r].
  by apply/Z.divide_abs_r; apply: Z.lcm_least.
split; try (apply/Z_dvdsP/Z.divide_abs_r; rewrite h; by [apply: Z.divide_lcm_l|apply: Z.divide_lcm_r]).
by move=> c /Z_dvdsP h1 /Z_dvdsP h2; apply/Z_dvdsP/Z.divide_abs_l; rewrite h; apply: Z.lcm_least.
Qed.
Lemma coprime_to_Z (a b : Z) : coprime_to a b <-> Z.gcd a b = 1.
Proof.
split=> [[s [t h]]|h].
  by apply: Z.bezout_1_gcd; exists s, t; exact: h.
by have [s [t e]] := Z.gcd_bezout a b 1 h; exists s, t; exact: e.
Qed.

Lemma zz_gcd x y :
  exists g, returns (gcd ZZ x y) g /\ Z.abs g = Z.gcd x y.
Proof.
have [g [hg [d <- /is_gcd_Z hd]]] :=
  ensures_False (gcd_ok (eu_eu_ok (ZZ_ok cfg False)) (erefl x) (erefl y)).
by exists g.
Qed.
Lemma zz_lcm x y :
  exists l, returns (lcm ZZ x y) l /\ Z.abs l = Z.lcm x y.
Proof.
have [g [hg [d <- /is_lcm_Z hd]]] :=
  ensures_False (lcm_ok (eu_eu_ok (ZZ_ok cfg False)) (erefl x) (erefl y)).
by exists g.
Qed.
Lemma zz_extended_gcd x y : exists g s t,
  returns (extended_gcd ZZ x y) (g, s, t) /\ Z.abs g = Z.gcd x y /\ g = s * x + t * y.
Proof.
have [[[g s] t] [hg [d [s' [t' [[/= <- <- <-] [e /is_gcd_Z hd]]]]]]] :=
  ensures_False (extended_gcd_ok (eu_eu_ok (ZZ_ok cfg False)) (erefl x) (erefl y)).
by exists g, s, t.
Qed.
Lemma zz_relative_primes x y : returns (relative_primes ZZ x y) (Z.gcd x y =? 1).
Proof.
have [b [hb h]] :=
  ensures_False (relative_primes_ok (eu_eu_ok (ZZ_ok cfg False)) (erefl x) (erefl y)).
rewrite (_ : (Z.gcd x y =? 1) = b) //; apply/idP/idP => [/Z.eqb_eq /coprime_to_Z /h //|/h /coprime_to_Z].
by move/Z.eqb_eq.
Qed.
End ZZ.

(** ** NN *)
Section NN.
Implicit Types x y : N.
Lemma nn_ring x y :
  [/\ returns (zero NN) 0%N, returns (one NN) 1%N, returns (add NN x y) (x + y)%N &
      returns (mul NN x y) (x * y)%N] /\
  [/\ returns (add_assign NN x y) (x + y)%N, returns (mul_assign NN x y) (x * y)%N,
      returns (double NN x) (x + x)%N & returns (square NN x) (x * x)%N] /\
  [/\ returns (is_zero NN x) (N.eqb x 0), returns (is_one NN x) (N.eqb x 1),
      returns (equals NN x y) (N.eqb x y) & returns (contains NN x) true].
Proof.
split; first by split; exact: returns_ret.
split; last by split; exact: returns_ret.
by split; try exact: returns_ret; rewrite (_ : (x + x = x * 2)%N); [exact: returns_ret|lia].
Qed.

Lemma nn_times n x : 0 <= n -> returns (ntimes NN n x) (N.mul (Z.to_N n) x).
Proof. by move=> _; exact: returns_ret. Qed.
Lemma nn_units x :
  returns (try_inv NN x) (if N.eqb x 1 then Some 1%N else None) /\
  returns (invertible NN x) (N.eqb x 1).
Proof. by split; last exact: returns_ret; rewrite /=; case: ifP => _; exact: returns_ret. Qed.
Lemma nn_order x y :
  [/\ returns (leq NN_lattice x y) (N.leb x y),
      returns (less_than NN_lattice x y) (N.ltb x y) &
      returns (comparable NN_lattice x y) true] /\
  returns (meet NN_lattice x y) (N.min x y) /\ returns (join NN_lattice x y) (N.max x y).
Proof.
split; last by split; exact: returns_ret.
split; first exact: returns_ret.
  rewrite /= /default_less_than /andM /notM !bind_ret.
  case: N.eqb_spec => [->|h] /=; first by rewrite N.ltb_irrefl; exact: returns_ret.
  rewrite (_ : (N.ltb x y) = (N.leb x y)); first exact: returns_ret.
  by case: N.ltb_spec => h1; case: N.leb_spec => h2 //; lia.
rewrite /= /default_comparable /orM /naturals_leq bind_ret.
case: N.leb_spec => h; first exact: returns_ret.
by rewrite (_ : (N.leb y x) = true); [exact: returns_ret|apply/N.leb_le; lia].
Qed.
End NN.

(** ** CheckedInts *)
Lemma fitsP w z : reflect (fits w z) (in_i w z).
Proof.
apply: (iffP andP) => [[/Z.leb_le h1 /Z.leb_le h2]|[h1 h2]]; rewrite /imin /imax in h1 h2 *.
  by split; lia.
by split; apply/Z.leb_le; rewrite /imin /imax; lia.
Qed.
Lemma ufitsP w z : reflect (ufits w z) (in_u w z).
Proof.
apply: (iffP andP) => [[/Z.leb_le h1 /Z.leb_le h2]|[h1 h2]]; rewrite /umax in h2 *.
  by split; lia.
by split; apply/Z.leb_le; lia.
Qed.
Lemma badP w x y : reflect (min_by_m1 w x y) (bad_div w x y).
Proof. by apply: (iffP idP) => /bad_divE. Qed.
Lemma exact_checked A (P : Prop) (b : bool) (m : M A) v : reflect P b ->
  exact_if b m v -> checked P m v.
Proof. by case=> h1 h2; split. Qed.
Lemma exact_checked' A (P : Prop) (b : bool) (m : M A) v : (b <-> P) ->
  exact_if b m v -> checked P m v.
Proof. by move=> h1 h2; apply: exact_checked h2; apply: (iffP idP) => /h1. Qed.

Section CI.
Variables (cfg : Cfg) (w : Z).
Implicit Types x y z n : Z.
Local Notation CI := (CheckedInts cfg w).

Lemma ci_arith x y :
  [/\ checked (fits w (x + y)) (add CI x y) (x + y),
      checked (fits w (x - y)) (sub CI x y) (x - y),
      checked (fits w (- x)) (neg CI x) (- x) &
      checked (fits w (x * y)) (mul CI x y) (x * y)].
Proof.
split; apply: exact_checked; try exact: fitsP; by
  [exact: ci_add_exact|exact: ci_sub_exact|exact: ci_neg_exact|exact: ci_mul_exact].
Qed.
Lemma ci_arith2 x y :
  [/\ checked (fits w (x + y)) (add_assign CI x y) (x + y),
      checked (fits w (x + x)) (double CI x) (x + x),
      checked (fits w (x * y)) (mul_assign CI x y) (x * y) &
      checked (fits w (x * x)) (square CI x) (x * x)].
Proof.
split; apply: exact_checked; try exact: fitsP; by
  [exact: ci_add_exact|exact: ci_mul_exact].
Qed.
Lemma ci_times n x :
  checked (fits w n /\ fits w (n * x)) (ztimes CI n x) (n * x) /\
  (1 < w -> checked (fits w n) (int CI n) n).
Proof.
have h := ci_ztimes_exact cfg w n.
split.
  apply: exact_checked'; last by rewrite Z.mul_comm; exact: h.
  by rewrite Z.mul_comm; split=> [/andP[/fitsP h1 /fitsP h2]|[/fitsP h1 /fitsP h2]] //; apply/andP.
move=> w1; apply: exact_checked'; last first.
  by have := h 1; rewrite Z.mul_1_l; exact: id.
by split=> [/andP[/fitsP]|/fitsP h1] //; apply/andP.
Qed.
Lemma ci_ntimes n x : 1 < w -> 0 <= n -> fits w x ->
  checked (fits w (x * 2 ^ digits n)) (ntimes CI n x) (n * x).
Proof.
move=> w1 n0 /fitsP hx; apply: exact_checked (fitsP _ _) _.
by apply: ci_ntimes_exact => //; lia.
Qed.

Hypothesis w2 : 2 <= w.

Let nz x y : (~~ (y =? 0) && ~~ bad_div w x y) <-> (y <> 0 /\ ~ min_by_m1 w x y).
Proof.
split=> [/andP[/Z.eqb_spec h1 /badP h2]|[h1 h2]] //; apply/andP.
by split; [apply/Z.eqb_spec|apply/badP].
Qed.

Lemma ci_division x y : fits w x -> fits w y -> exists q r,
  (y <> 0 -> x = q * y + r /\ 0 <= r < Z.abs y) /\
  [/\ checked (y <> 0 /\ ~ min_by_m1 w x y) (quo_rem CI x y) (q, r),
      checked (y <> 0 /\ ~ min_by_m1 w x y) (quo CI x y) q,
      checked (y <> 0 /\ ~ min_by_m1 w x y) (rem CI x y) r &
      checked (y <> 0 /\ ~ min_by_m1 w x y) (try_div CI x y)
        (if r =? 0 then Some q else None)].
Proof.
move=> /fitsP hx /fitsP hy; exists (zquo x y), (zrem x y); split.
  by move=> y0; split; [exact: zdiv|exact: zrem_bound].
split; apply: exact_checked' (nz x y) _.
- exact: ci_quo_rem_exact.
- exact: ci_quo_exact.
- exact: ci_rem_exact.
- exact: ci_try_div_exact.
Qed.
Lemma ci_reduced x y : fits w x ->
  returns (reduced CI x y) ((y =? 0) || (0 <=? x) && (x <? Z.abs y)).
Proof.
move=> /fitsP hx; have := ci_reduced_exact cfg w2 y hx; congr returns.
case: Z.eqb_spec => //= y0; have h := zrem_self x y y0.
by apply/idP/idP => [/Z.eqb_eq /h [h1 h2]|/andP[/Z.leb_le h1 /Z.ltb_lt h2]];
  [apply/andP; split; [apply/Z.leb_le|apply/Z.ltb_lt]|apply/Z.eqb_eq/h].
Qed.
Lemma ci_divisible x y : fits w x -> fits w y -> exists b : bool,
  (b <-> Z.divide y x) /\ checked (~ min_by_m1 w x y) (divisible CI x y) b.
Proof.
move=> hx hy.
case: (Z.eq_dec y 0) => [->|y0].
  exists (x =? 0); split.
    by split=> [/Z.eqb_eq -> | /Z.divide_0_l ->]; first exact: Z.divide_0_r.
  by split=> [_|[]]; [exact: returns_ret|case].
have [q [r [h1 [_ _ _ hd]]]] := ci_division hx hy; have {h1} [h1 h2] := h1 y0.
exists (r =? 0); split.
  split=> [/Z.eqb_eq h|[c h]]; first by exists q; lia.
  apply/Z.eqb_eq; have [_ ->] := @zdiv_unique x y q r h2 h1.
  by apply/zrem_eq0 => //; apply/Z.rem_divide => //; exists c.
rewrite /= /default_divisible bind_ret; case: Z.eqb_spec => // _.
by split=> h; [apply: returns_bind (hd.1 (conj y0 h)) _; case: (r =? 0); exact: returns_ret
              |apply: panics_bind; apply: hd.2; tauto].
Qed.

Lemma ci_gcd x y : fits w x -> fits w y -> exists g,
  Z.abs g = Z.gcd x y /\ checked (~ min_by_m1 w x y) (gcd CI x y) g.
Proof.
move=> /fitsP hx /fitsP hy; case: (@badP w x y) => hb.
  exists (Z.gcd x y); split; first by rewrite Z.abs_eq //; exact: Z.gcd_nonneg.
  by split=> // _; case: hb => -> ->; exact: ci_gcd_bad.
have hb' : ~~ bad_div w x y by apply/badP.
have [g [hg _]] := ensures_False (ci_gcd_total cfg w2 hx hy hb').
exists g; split=> //.
have := gcd_ok (eu_eu_ok (CheckedInts_ok cfg w2)) (ci_repI hx) (ci_repI hy).
by move=> h; have [d [<- _] /is_gcd_Z] := ensures_value h hg.
Qed.
Lemma ci_relative_primes x y : fits w x -> fits w y ->
  checked (~ min_by_m1 w x y) (relative_primes CI x y) (Z.gcd x y =? 1).
Proof.
move=> /fitsP hx /fitsP hy; split=> hb; last first.
  have [-> ->] : min_by_m1 w x y by case: (@badP w x y) => // h; case: hb.
  exact: ci_relative_primes_bad.
have hb' : ~~ bad_div w x y by apply/badP.
have [b [hg _]] := ensures_False (ci_relative_primes_total cfg w2 hx hy hb').
have := relative_primes_ok (eu_eu_ok (CheckedInts_ok cfg w2)) (ci_repI hx) (ci_repI hy).
move=> h; have {}h := ensures_value h hg.
rewrite (_ : (Z.gcd x y =? 1) = b) //; apply/idP/idP => [/Z.eqb_eq /coprime_to_Z /h //|/h /coprime_to_Z].
by move/Z.eqb_eq.
Qed.
Lemma ci_extended_gcd x y : 4 <= w -> fits w x -> fits w y -> exists g s t,
  [/\ Z.abs g = Z.gcd x y, g = s * x + t * y &
      checked (~ min_by_m1 w x y) (extended_gcd CI x y) (g, s, t)].
Proof.
move=> w4 /fitsP hx /fitsP hy; case: (@badP w x y) => hb.
  have [s [t e]] := Z.gcd_bezout x y _ erefl.
  exists (Z.gcd x y), s, t; split; [by rewrite Z.abs_eq //; exact: Z.gcd_nonneg|by rewrite -e|].
  by split=> // _; case: hb => -> ->; exact: ci_extended_gcd_bad.
have hb' : ~~ bad_div w x y by apply/badP.
have [g [s [t h]]] := eg_total x y.
have hr := ci_extended_gcd_returns cfg w2 w4 h hx hy hb'.
have := extended_gcd_ok (eu_eu_ok (CheckedInts_ok cfg w2)) (ci_repI hx) (ci_repI hy).
move=> he; have [d [s' [t' [[/= [<- _] [<- _] [<- _]] [e /is_gcd_Z hd]]]]] := ensures_value he hr.
by exists g, s, t.
Qed.

Lemma ci_gcd_sign x y : fits w x -> fits w y -> ~ min_by_m1 w x y ->
  ensures False (gcd CI x y) (fun g => 0 <= g \/ g = y \/ (y = 0 /\ g = x)).
Proof.
move=> /fitsP hx /fitsP hy /badP hb.
apply: (@ensures_bind _ _ _ _ _ (fun s : Z * Z => 0 <= s.1 \/ s.1 = y \/ (y = 0 /\ s.1 = x)));
  last by move=> s hs; apply: ensures_ret.
apply: (@ensures_while _ _ _ _
  (fun s : Z * Z => [/\ in_i w s.1, in_i w s.2 & ~~ bad_div w s.1 s.2] /\
     (s = (x, y) \/ (s.1 = y /\ 0 <= s.2) \/ (0 <= s.1 /\ 0 <= s.2))) _
  (fun s => Z.abs_nat s.2)); first by split=> //; left.
move=> [a b] [[/= ha hb' nab] hs]; apply: ensures_ret; case: Z.eqb_spec => [b0|b0] /=.
  case: hs => [[ha2 hb2]|[[ha2 _]|[ha2 _]]]; last by left.
    by right; right; split; [rewrite -hb2|].
  by right; left.
have := ci_rem_exact cfg w2 ha hb'; rewrite /exact_if nab (_ : b =? 0 = false); last by case: Z.eqb_spec.
move=> /= hr; apply: (@ensures_bind _ _ _ _ _ (fun r => r = zrem a b)).
  exact: ensures_returns hr _.
move=> r ->; apply: ensures_ret; have zb := zrem_bound a b b0; split; last by apply/ltP => /=; lia.
split; first by split=> //=; [exact: zrem_in|apply: bad_div_nonneg; lia].
right; case: hs => [[_ <-]|h]; first by left; split=> //=; lia.
by right; split=> /=; [case: h => -[_ ?]; lia|lia].
Qed.

Lemma ci_lcm x y : fits w x -> fits w y -> exists l,
  [/\ returns (lcm ZZ x y) l, Z.abs l = Z.lcm x y &
      checked (~ min_by_m1 w x y /\ fits w l) (lcm CI x y) l].
Proof.
move=> fx fy; have [l [hl hl2]] := zz_lcm cfg x y; exists l; split=> //.
case: (@badP w x y) => hb.
  split=> [[]|_] //; apply: panics_bind; have [g [_ [_ h]]] := ci_gcd fx fy.
  by apply: h => /(_ hb).
have [g [hg hs]] := ensures_False (ci_gcd_sign fx fy hb).
have /fitsP hx := fx; have /fitsP hy := fy.
have hz : returns (gcd ZZ x y) g.
  exact: ensures_value (tr_gcd (ci_tracks cfg w2) hx hy) hg.
have hR : in_i w g.
  have := gcd_ok (eu_eu_ok (CheckedInts_ok cfg w2)) (ci_repI hx) (ci_repI hy).
  by move=> h; have [d [-> ? //] _] := ensures_value h hg.
have hgZ : Z.abs g = Z.gcd x y.
  have [g' [h' <-]] := zz_gcd cfg x y; by rewrite (returns_det hz h').
case: (Z.eqb_spec g 0) => g0.
  have hz2 : returns (lcm ZZ x y) g.
    by apply: returns_bind hz _; rewrite bind_ret g0; exact: returns_ret.
  have hl3 := returns_det hl hz2; subst l.
  split=> [_|[]]; last by split=> //; exact/fitsP.
  by apply: returns_bind hg _; rewrite bind_ret g0; exact: returns_ret.
have gF : (g =? 0) = false by case: Z.eqb_spec.
have hl3 : l = zquo x g * y.
  apply: returns_det hl _; apply: returns_bind hz _; rewrite bind_ret gF.
  by rewrite /default_quo integers_quo_remE // !bind_ret; exact: returns_ret.
have nb : ~~ bad_div w x g.
  apply/badP => -[hx1 hg1]; case: hs => [|[gy|[y0 gx]]]; first lia.
    by apply: hb; split=> //; rewrite -gy.
  have hp : 2 <= 2 ^ (w - 1) by rewrite (_ : 2 = 2 ^ 1) //; apply: Z.pow_le_mono_r; lia.
  lia.
have := ci_quo_exact cfg w2 hx hR; rewrite /exact_if gF nb => hq.
have [h1 h2] : checked (fits w l) (mul CI (zquo x g) y) l.
  by rewrite hl3; have [_ _ _ h] := ci_arith (zquo x g) y.
split=> [[_ /h1 h]|h].
  apply: returns_bind hg _; rewrite bind_ret gF; exact: returns_bind hq h.
apply: panics_bind2 hg _; rewrite bind_ret gF; apply: panics_bind2 hq _.
by apply: h2 => hf; apply: h.
Qed.
End CI.

(** ** CheckedUints *)
Section CU.
Variable w : Z.
Implicit Types x y z n : Z.
Local Notation CU := (CheckedUints w).
Lemma cu_ring x y :
  [/\ checked (ufits w (x + y)) (add CU x y) (x + y),
      checked (ufits w (x * y)) (mul CU x y) (x * y),
      returns (zero CU) 0 & returns (one CU) 1] /\
  [/\ checked (ufits w (x + y)) (add_assign CU x y) (x + y),
      checked (ufits w (x + x)) (double CU x) (x + x),
      checked (ufits w (x * y)) (mul_assign CU x y) (x * y) &
      checked (ufits w (x * x)) (square CU x) (x * x)] /\
  [/\ returns (is_zero CU x) (x =? 0), returns (is_one CU x) (x =? 1),
      returns (equals CU x y) (x =? y) & returns (contains CU x) true].
Proof.
split; [split|split; split]; try exact: returns_ret; apply: exact_checked;
  try exact: ufitsP; by [exact: cu_add_exact|exact: cu_mul_exact].
Qed.
Lemma cu_units x :
  returns (try_inv CU x) (if x =? 1 then Some 1 else None) /\
  returns (invertible CU x) (x =? 1).
Proof. by split; last exact: returns_ret; rewrite /=; case: ifP => _; exact: returns_ret. Qed.
Lemma cu_ntimes n x : 1 <= w -> 0 <= n -> ufits w x ->
  checked (ufits w (x * 2 ^ digits n)) (ntimes CU n x) (n * x).
Proof.
by move=> w1 n0 /ufitsP hx; apply: exact_checked (ufitsP _ _) _; apply: cu_ntimes_exact.
Qed.
Lemma cu_order x y :
  [/\ returns (leq CheckedUints_lattice x y) (x <=? y),
      returns (less_than CheckedUints_lattice x y) (x <? y) &
      returns (comparable CheckedUints_lattice x y) true] /\
  returns (meet CheckedUints_lattice x y) (Z.min x y) /\
  returns (join CheckedUints_lattice x y) (Z.max x y).
Proof. exact: zz_order. Qed.
Lemma ci_order x y :
  [/\ returns (leq CheckedInts_lattice x y) (x <=? y),
      returns (less_than CheckedInts_lattice x y) (x <? y) &
      returns (comparable CheckedInts_lattice x y) true] /\
  returns (meet CheckedInts_lattice x y) (Z.min x y) /\
  returns (join CheckedInts_lattice x y) (Z.max x y).
Proof. exact: zz_order. Qed.
End CU.
