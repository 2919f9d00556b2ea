(** * PRat.v -- when the arithmetic of fractions of machine integers panics. *)

From mathcomp Require Import all_ssreflect all_algebra zify ssrZ.
From Coq Require Import ZArith QArith Lia Znumtheory.
From Verif Require Import Rust Traits MInts MConstr Wp Spec ZFacts PIntsZ PInts PChecked
  Laws PCISim NumSpec PNum FracSpec RatSpec PRational.

Set Implicit Arguments.
Unset Strict Implicit.
Unset Printing Implicit Defensive.

Local Open Scope Z_scope.

Section Rat.
Variables (cfg : Cfg) (w : Z).
Hypothesis w2 : 2 <= w.
Local Notation CI := (CheckedInts cfg w).
Local Notation RF := (ReducedFractions cfg CI).
Implicit Types n d x y z : Z.

Lemma cb A B (z : Z) (m : M A) v (f : A -> M B) Q u :
  checked (fits w z) m v -> (fits w z -> checked Q (f v) u) ->
  checked (fits w z /\ Q) (bind m f) u.
Proof.
move=> [h1 h2] h; split.
  by move=> [hz hq]; apply: returns_bind (h1 hz) _; exact: (h hz).1.
move=> hn; case: (fitsP w z) => hz; last by apply: panics_bind; exact: h2.
apply: panics_bind2 (h1 hz) _; apply: (h hz).2 => hq; exact: hn.
Qed.
Lemma cret A (m : M A) v : returns m v -> checked True m v.
Proof. by move=> h; split. Qed.
Lemma ceq A P Q (m : M A) v u : (P <-> Q) -> v = u -> checked Q m u -> checked P m v.
Proof. by move=> hp -> [h1 h2]; split=> [/hp /h1|hn] //; apply: h2 => /hp. Qed.
Lemma crb A B (m : M A) v (f : A -> M B) Q u :
  returns m v -> checked Q (f v) u -> checked Q (bind m f) u.
Proof.
move=> hm [h1 h2]; split=> hq; first by apply: returns_bind hm _; exact: h1.
by apply: panics_bind2 hm _; exact: h2.
Qed.

(** The gcd is positive if the second argument is. *)
Lemma ci_gcd_pos x y : fits w x -> fits w y -> 0 < y -> returns (gcd CI x y) (Z.gcd x y).
Proof.
move=> /fitsP hx /fitsP hy y0.
suff h : ensures False (gcd CI x y) (fun g => g = Z.gcd x y).
  by have [v [hv <-]] := ensures_False h.
apply: (@ensures_bind _ _ _ _ _ (fun s : Z * Z => s.1 = Z.gcd x y)); last first.
  by move=> s hs; apply: ensures_ret.
apply: (@ensures_while _ _ _ _
  (fun s : Z * Z => [/\ in_i w s.1, in_i w s.2, 0 <= s.2, (s.2 = 0 -> 0 <= s.1) &
     Z.gcd s.1 s.2 = Z.gcd x y]) _
  (fun s => Z.abs_nat s.2)); first by split=> //=; lia.
move=> [a b] [/= ha hb b0 ab hg]; apply: ensures_ret; case: Z.eqb_spec => [b0'|b0'] /=.
  by move: hg; rewrite b0' Z.gcd_0_r Z.abs_eq //; exact: ab.
have := ci_rem_exact cfg w2 ha hb.
rewrite /exact_if (bad_div_nonneg w) // (_ : b =? 0 = false); last by case: Z.eqb_spec.
move=> /= hr; apply: (@ensures_bind _ _ _ _ _ (fun r => r = zrem a b)).
  exact: ensures_returns hr _.
move=> r ->; apply: ensures_ret; have zb := zrem_bound a b b0'; split; last by apply/ltP => /=; lia.
split=> //=; [exact: zrem_in|by lia|].
have e := zdiv a b b0'.
rewrite -hg (Z.gcd_comm a) -(Z.gcd_add_mult_diag_r b (zrem a b) (zquo a b)).
by congr Z.gcd; lia.
Qed.

Lemma quo_gcd x g : 0 < g -> (g | x) -> fits w x -> fits w g -> returns (quo CI x g) (x / g).
Proof.
move=> g0 [k ->] /fitsP hx /fitsP hg.
have := ci_quo_exact cfg w2 hx hg.
rewrite /exact_if (bad_div_nonneg w) //; last lia.
rewrite (_ : g =? 0 = false); last by case: Z.eqb_spec => //; lia.
rewrite /= Z.div_mul; last lia.
by have [<- _] : k = zquo (k * g) g /\ 0 = zrem (k * g) g by apply: zdiv_unique; lia.
Qed.

Lemma reduce_returns n d : fits w n -> fits w d -> 0 < d ->
  returns (fractions_reduce CI (n, d)) (lowest n d).
Proof.
move=> hn hd d0; rewrite /fractions_reduce.
have g0 : 0 < Z.gcd n d by have := Z.gcd_nonneg n d; have := Z.gcd_eq_0_r n d; lia.
have [kn en] := Z.gcd_divide_l n d; have [kd ed] := Z.gcd_divide_r n d.
have gd : Z.gcd n d <= d by apply: Z.divide_pos_le => //; exact: Z.gcd_divide_r.
have gf : fits w (Z.gcd n d) by move: hd; rewrite /fits; lia.
apply: (@returns_bind _ _ _ _ false); first by rewrite /= (_ : d =? 0 = false); [exact: returns_ret|case: Z.eqb_spec => //; lia].
rewrite /= /assert /= bind_ret.
apply: returns_bind; first exact: ci_gcd_pos.
apply: returns_bind; first by apply: quo_gcd => //; exact: Z.gcd_divide_l.
apply: returns_bind; first by apply: quo_gcd => //; exact: Z.gcd_divide_r.
have k0 : 0 < d / Z.gcd n d.
  by apply: Z.div_str_pos; lia.
apply: (@returns_bind _ _ _ _ 1).
  rewrite /= /checked_ints_associate_coef.
  case: Z.eqb_spec => [|_]; first lia.
  rewrite /= /assert /= bind_ret (_ : _ <? 0 = false); first exact: returns_ret.
  by apply/Z.ltb_ge; lia.
rewrite /= bind_ret /=; exact: returns_ret.
Qed.
Lemma reduce_checked n d : fits w n -> fits w d -> 0 < d ->
  checked True (fractions_reduce CI (n, d)) (lowest n d).
Proof. by move=> h1 h2 h3; apply: cret; exact: reduce_returns. Qed.

Lemma mul_c x y : checked (fits w (x * y)) (mul CI x y) (x * y).
Proof. by apply: exact_checked (fitsP _ _) _; exact: ci_mul_exact. Qed.
Lemma add_c x y : checked (fits w (x + y)) (add CI x y) (x + y).
Proof. by apply: exact_checked (fitsP _ _) _; exact: ci_add_exact. Qed.
Lemma neg_c x : checked (fits w (- x)) (neg CI x) (- x).
Proof. by apply: exact_checked (fitsP _ _) _; exact: ci_neg_exact. Qed.

Lemma rat_mul n1 d1 n2 d2 : 0 < d1 -> 0 < d2 ->
  checked (fits w (n1 * n2) /\ fits w (d1 * d2)) (mul RF (n1, d1) (n2, d2))
    (lowest (n1 * n2) (d1 * d2)).
Proof.
move=> h1 h2; rewrite /= /fractions_mul.
apply: cb; first exact: mul_c.
move=> f1; apply: (@ceq _ _ (fits w (d1 * d2) /\ True) _ _ _ _ (erefl _)); first tauto.
apply: cb; first exact: mul_c.
by move=> f2; apply: reduce_checked => //; nia.
Qed.

Lemma rat_add n1 d1 n2 d2 : fits w d1 -> 0 < d1 -> 0 < d2 ->
  if d1 =? d2 then
    checked (fits w (n1 + n2)) (add RF (n1, d1) (n2, d2)) (lowest (n1 + n2) d1)
  else
    checked (fits w (n1 * d2) /\ fits w (d1 * n2) /\ fits w (n1 * d2 + d1 * n2) /\
      fits w (d1 * d2)) (add RF (n1, d1) (n2, d2)) (lowest (n1 * d2 + d1 * n2) (d1 * d2)).
Proof.
move=> hd h1 h2.
have E : add RF (n1, d1) (n2, d2) =
  bind (if d1 =? d2 then let! n := add CI n1 n2 in ret (n, d1)
   else let! a := mul CI n1 d2 in let! b := mul CI d1 n2 in let! n := add CI a b in
        let! d := mul CI d1 d2 in ret (n, d)) (fractions_reduce CI) by [].
rewrite E; case: (d1 =? d2).
  apply: (@ceq _ _ (fits w (n1 + n2) /\ True) _ _ _ _ (erefl _)); first tauto.
  have [a1 a2] := add_c n1 n2; split.
    move=> [hf _]; apply: (@returns_bind _ _ _ _ (n1 + n2, d1)); first by (apply: (@returns_bind _ _ _ _ (n1 + n2)); [exact: a1|exact: returns_ret]).
    exact: reduce_returns.
  by move=> hn; apply: panics_bind; apply: panics_bind; apply: a2; tauto.
have hc : checked (fits w (n1 * d2) /\ fits w (d1 * n2) /\ fits w (n1 * d2 + d1 * n2) /\
      fits w (d1 * d2) /\ True) (let! a := mul CI n1 d2 in let! b := mul CI d1 n2 in let! n := add CI a b in
        let! d := mul CI d1 d2 in ret (n, d)) (n1 * d2 + d1 * n2, d1 * d2).
  apply: cb; [exact: mul_c|move=> _]; apply: cb; [exact: mul_c|move=> _].
  apply: cb; [exact: add_c|move=> _]; apply: cb; [exact: mul_c|move=> _].
  by apply: cret; exact: returns_ret.
split; last by move=> hn; apply: panics_bind; apply: hc.2; tauto.
move=> [f1 [f2 [f3 f4]]]; apply: returns_bind; first by apply: hc.1; tauto.
by apply: reduce_returns => //; nia.
Qed.

Lemma rat_neg n d : checked (fits w (- n)) (neg RF (n, d)) (- n, d).
Proof.
apply: (@ceq _ _ (fits w (- n) /\ True) _ _ _ _ (erefl _)); first tauto.
by apply: cb; [exact: neg_c|move=> _; apply: cret; exact: returns_ret].
Qed.

Lemma rat_ztimes k n d : fits w d -> 0 < d ->
  checked (fits w k /\ fits w (k * n)) (ztimes RF k (n, d)) (lowest (k * n) d).
Proof.
move=> hd d0; have [[h1 h2] _] := ci_times cfg w k n; split.
  by move=> hf; apply: returns_bind (h1 hf) _; apply: reduce_returns => //; tauto.
by move=> hn; apply: panics_bind; exact: h2.
Qed.

Lemma rat_inv n d : fits w n -> fits w d -> 0 < d ->
  checked (n <> 0 /\ n <> - 2 ^ (w - 1)) (finv RF (n, d)) (Z.sgn n * d, Z.abs n).
Proof.
move=> hn hd d0; have hp : 0 < 2 ^ (w - 1) by apply: Z.pow_pos_nonneg; lia.
rewrite /= /fractions_inv /=; case: Z.eqb_spec => [n0|n0] /=.
  by split=> [[]//|_]; apply: panics_bind2 (returns_ret _) _; apply: panics_assert_bind.
rewrite bind_ret /assert /= bind_ret /checked_ints_associate_coef.
case: Z.eqb_spec => //= _; rewrite bind_ret.
case: Z.ltb_spec => ns; rewrite bind_ret bind_ret /=; last first.
  rewrite Z.sgn_pos; last lia.
  rewrite Z.mul_1_l Z.abs_eq //.
  split=> [_|]; first exact: returns_ret.
  by move=> h; exfalso; apply: h; lia.
rewrite Z.sgn_neg // Z.abs_neq; last lia.
have hdm : fits w (d * -1) by move: hd; rewrite /fits; lia.
apply: (@ceq _ _ (fits w (d * -1) /\ (fits w (n * -1) /\ True)) _ _ (d * -1, n * -1)).
- by move: hn hdm; rewrite /fits; lia.
- by congr (_, _); lia.
apply: cb; first exact: mul_c.
by move=> _; apply: cb; first exact: mul_c; move=> _; apply: cret; exact: returns_ret.
Qed.

(** ** Small fractions *)
Variable b : Z.
Hypothesis hb : 2 * b * b < 2 ^ (w - 1).
Let ok (z : Z * Z) := fits w z.1 /\ fits w z.2 /\ canonical_pair z.

Let good (m : M (Z * Z)) q v : gives_q True ok m q -> returns m v -> gives_q False ok m q.
Proof. by move=> h hv; apply: ensures_nopanic h _ => hp; exact: returns_panics hv hp. Qed.

Lemma small_le (z : Z * Z) : small b z -> 1 <= b /\ 1 <= z.2 <= b /\ - b <= z.1 <= b.
Proof. by move=> [[h0 _] [h1 h2]]; lia. Qed.
Lemma small_ok (z : Z * Z) : small b z -> ok z.
Proof.
move=> hz; have := small_le hz => -[h1 [h2 h3]].
have hbb : b <= 2 * b * b by nia.
by case: hz => hc _; split; [|split=> //]; rewrite /fits; lia.
Qed.
Lemma small_prod x y : - b <= x <= b -> - b <= y <= b ->
  fits w (x * y) /\ - (b * b) <= x * y <= b * b.
Proof.
move=> hx hy; have h : - (b * b) <= x * y <= b * b by nia.
by split=> //; rewrite /fits; lia.
Qed.

Lemma small_mul (x y : Z * Z) : small b x -> small b y ->
  gives_q False ok (mul RF x y) (q_of x * q_of y)%Q.
Proof.
move=> hx hy; have F := ints_rational cfg w2.
have h := rq_mul _ _ _ _ F _ _ (small_ok hx) (small_ok hy).
have [b1 [hx2 hx1]] := small_le hx; have [_ [hy2 hy1]] := small_le hy.
case: x y hx hy h hx2 hx1 hy2 hy1 => [n1 d1] [n2 d2] /= hx hy h hx2 hx1 hy2 hy1.
have [r _] := @rat_mul n1 d1 n2 d2 ltac:(lia) ltac:(lia).
by apply: good h (r _); split; apply: (proj1 (small_prod _ _)); lia.
Qed.

Lemma small_add_returns n1 d1 n2 d2 :
  - b <= n1 <= b -> - b <= n2 <= b -> 1 <= d1 <= b -> 1 <= d2 <= b ->
  exists v, returns (add RF (n1, d1) (n2, d2)) v.
Proof.
move=> h1 h2 h3 h4.
have fd : fits w d1 by rewrite /fits; nia.
have := @rat_add n1 d1 n2 d2 fd ltac:(lia) ltac:(lia).
case: ifP => _ [r _]; eexists; apply: r; first by rewrite /fits; nia.
have [f1 e1] := @small_prod n1 d2 ltac:(lia) ltac:(lia).
have [f2 e2] := @small_prod d1 n2 ltac:(lia) ltac:(lia).
have [f3 e3] := @small_prod d1 d2 ltac:(lia) ltac:(lia).
by split=> //; split=> //; split=> //; rewrite /fits; lia.
Qed.
Lemma small_add (x y : Z * Z) : small b x -> small b y ->
  gives_q False ok (add RF x y) (q_of x + q_of y)%Q.
Proof.
move=> hx hy; have F := ints_rational cfg w2.
have h := rq_add _ _ _ _ F _ _ (small_ok hx) (small_ok hy).
have [b1 [hx2 hx1]] := small_le hx; have [_ [hy2 hy1]] := small_le hy.
case: x y hx hy h hx2 hx1 hy2 hy1 => [n1 d1] [n2 d2] /= hx hy h hx2 hx1 hy2 hy1.
have [v r] := small_add_returns hx1 hy1 hx2 hy2.
exact: good h r.
Qed.
Lemma small_neg (x : Z * Z) : small b x -> gives_q False ok (neg RF x) (- q_of x)%Q.
Proof.
move=> hx; have F := ints_rational cfg w2.
have h := rq_neg _ _ _ _ F _ (small_ok hx); have := small_le hx.
case: x hx h => [n d] /= hx h hb'.
have [r _] := rat_neg n d; apply: good h (r _); rewrite /fits; nia.
Qed.
Lemma small_sub (x y : Z * Z) : small b x -> small b y ->
  gives_q False ok (sub RF x y) (q_of x - q_of y)%Q.
Proof.
move=> hx hy; have F := ints_rational cfg w2.
have h := rq_sub _ _ _ _ F _ _ (small_ok hx) (small_ok hy).
have [b1 [hx2 hx1]] := small_le hx; have [_ [hy2 hy1]] := small_le hy.
case: x y hx hy h hx2 hx1 hy2 hy1 => [n1 d1] [n2 d2] /= hx hy h hx2 hx1 hy2 hy1.
have [r _] := rat_neg n2 d2.
have [v rv] := @small_add_returns (- n2) d2 n1 d1 ltac:(lia) hx1 hy2 hx2.
apply: (@good _ _ v h); apply: (@returns_bind _ _ _ _ (- n2, d2)); last exact: rv.
by apply: r; rewrite /fits; nia.
Qed.
Lemma small_inv (x : Z * Z) : small b x -> x.1 <> 0 -> gives_q False ok (finv RF x) (/ q_of x)%Q.
Proof.
move=> hx x0; have F := ints_rational cfg w2.
have qx0 : ~ (q_of x == 0)%Q by move: x0; rewrite /q_of /QArith_base.Qeq /=; lia.
have h := rq_inv _ _ _ _ F _ (small_ok hx) qx0; have := small_le hx.
case: x hx h x0 {qx0} => [n d] /= hx h x0 hb'.
have [r _] := @rat_inv n d ltac:(rewrite /fits; nia) ltac:(rewrite /fits; nia) ltac:(lia).
by apply: good h (r _); split=> //; nia.
Qed.
Lemma small_div (x y : Z * Z) : small b x -> small b y -> y.1 <> 0 ->
  gives_q False ok (fdiv RF x y) (q_of x / q_of y)%Q.
Proof.
move=> hx hy y0; have F := ints_rational cfg w2.
have qy0 : ~ (q_of y == 0)%Q by move: y0; rewrite /q_of /QArith_base.Qeq /=; lia.
have h := rq_div _ _ _ _ F _ _ (small_ok hx) (small_ok hy) qy0.
have [b1 [hx2 hx1]] := small_le hx; have [_ [hy2 hy1]] := small_le hy.
case: x y hx hy h hx2 hx1 hy2 hy1 y0 {qy0} => [n1 d1] [n2 d2] /= hx hy h hx2 hx1 hy2 hy1 y0.
have [r _] := @rat_inv n2 d2 ltac:(rewrite /fits; nia) ltac:(rewrite /fits; nia) ltac:(lia).
have [r2 _] := @rat_mul n1 d1 (Z.sgn n2 * d2) (Z.abs n2) ltac:(lia) ltac:(lia).
apply: (good h); apply: returns_bind; first by apply: r; split=> //; nia.
by apply: r2; split; apply: (proj1 (small_prod _ _)); lia.
Qed.
Lemma small_all (x y : Z * Z) : small b x -> small b y ->
  let A := RF in
  let value := gives_q False ok in
  value (add A x y) (q_of x + q_of y)%Q /\ value (sub A x y) (q_of x - q_of y)%Q /\
  value (mul A x y) (q_of x * q_of y)%Q /\ value (neg A x) (- q_of x)%Q /\
  (x.1 <> 0 -> value (finv A x) (/ q_of x)%Q) /\
  (y.1 <> 0 -> value (fdiv A x y) (q_of x / q_of y)%Q).
Proof.
move=> hx hy /=; split; first exact: small_add.
split; first exact: small_sub.
split; first exact: small_mul.
split; first exact: small_neg.
by split=> h; [exact: small_inv|exact: small_div].
Qed.
End Rat.
