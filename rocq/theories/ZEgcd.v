(** * ZEgcd.v -- the extended Euclidean algorithm on integers: its intermediate
    results stay small.  Pure facts about Z, independent of the code. *)

From Coq Require Import ZArith Lia Psatz.
From Verif Require Import ZFacts.
Local Open Scope Z_scope.

Lemma mul_lt_inv a b g : 0 < g -> a * g < b * g -> a < b.
Proof. intros hg h. destruct (Z_lt_le_dec a b); [assumption|exfalso]. nia. Qed.
Lemma mul_le_inv a b g : 0 < g -> a * g <= b * g -> a <= b.
Proof. intros hg h. destruct (Z_le_gt_dec a b); [assumption|exfalso]. nia. Qed.

(** [eg x y g s t]: the extended Euclidean algorithm with Euclidean remainders
    computes (g, s, t) from (x, y). *)
Inductive eg : Z -> Z -> Z -> Z -> Z -> Prop :=
| eg0 x : eg x 0 x 1 0
| egS x y g u v : y <> 0 -> eg y (zrem x y) g u v ->
    eg x y g v (u - v * zquo x y).

Lemma eg_total x y : exists g s t, eg x y g s t.
Proof.
  remember (Z.abs_nat y) as n eqn:hn. revert x y hn.
  induction n as [n IH] using lt_wf_ind. intros x y hn.
  destruct (Z.eq_dec y 0) as [->|y0].
  - exists x, 1, 0. constructor.
  - pose proof (zrem_bound x y y0) as hr.
    destruct (IH (Z.abs_nat (zrem x y)) ltac:(lia) y (zrem x y) eq_refl) as (g & u & v & h).
    exists g, v, (u - v * zquo x y). now constructor.
Qed.

Lemma eg_bezout x y g s t : eg x y g s t -> g = s * x + t * y.
Proof.
  induction 1 as [x|x y g u v y0 _ IH]; [lia|].
  pose proof (zdiv x y y0). nia.
Qed.

Lemma eg_zero x g s t : eg x 0 g s t -> g = x /\ s = 1 /\ t = 0.
Proof. inversion 1; subst; [auto|lia]. Qed.

Lemma eg_step x y g s t : eg x y g s t -> y <> 0 ->
  exists u, eg y (zrem x y) g u s /\ t = u - s * zquo x y.
Proof. inversion 1; subst; [lia|eauto]. Qed.

(** The divisor property, in the form needed for the bounds. *)
Lemma eg_dvd x y g s t : eg x y g s t -> (exists c, x = c * g) /\ (exists d, y = d * g).
Proof.
  induction 1 as [x|x y g u v y0 _ IH].
  - split; [exists 1; lia|exists 0; lia].
  - destruct IH as [[c hc] [d hd]]. split; [|now exists c].
    exists (zquo x y * c + d). pose proof (zdiv x y y0) as h.
    transitivity (zquo x y * (c * g) + d * g); [rewrite <- hc, <- hd; exact h|ring].
Qed.

(** On non-negative arguments the coefficients are at most half of the reduced
    arguments. *)
Lemma eg_pos x y g s t : eg x y g s t -> 0 <= x -> 0 < y ->
  0 < g /\ 2 * Z.abs s * g <= y /\
  ((zrem x y = 0 /\ s = 0 /\ t = 1 /\ g = y) \/ (0 < zrem x y /\ 2 * Z.abs t * g <= x)).
Proof.
  induction 1 as [x|x y g u v y0 h IH]; [lia|]. intros hx hy.
  pose proof (zrem_bound x y y0) as hr. pose proof (zdiv x y y0) as hd.
  destruct (Z.eq_dec (zrem x y) 0) as [r0|r0].
  - rewrite r0 in h. apply eg_zero in h. destruct h as (-> & -> & ->).
    repeat split; [lia|lia|]. left. repeat split; lia.
  - destruct (IH ltac:(lia) ltac:(lia)) as (hg & hu & hv).
    assert (hv2 : 2 * Z.abs v * g <= y).
    { destruct hv as [(rr & -> & -> & ->)|[_ hv]]; [|lia].
      (* zrem x y divides y and is smaller *)
      pose proof (zdiv y (zrem x y) r0) as hd2. rewrite rr in hd2.
      assert (2 <= zquo y (zrem x y)) by nia. nia. }
    repeat split; [lia|lia|]. right. split; [lia|].
    assert (hq : 0 <= zquo x y) by nia.
    assert (ht : Z.abs (u - v * zquo x y) <= Z.abs u + Z.abs v * zquo x y).
    { assert (Z.abs (v * zquo x y) = Z.abs v * zquo x y) by (rewrite Z.abs_mul; lia). lia. }
    set (q := zquo x y) in *. set (r := zrem x y) in *.
    assert (2 * Z.abs v * g * q <= y * q) by nia.
    assert (2 * Z.abs (u - v * q) * g <= 2 * (Z.abs u + Z.abs v * q) * g) by nia.
    nia.
Qed.

(** First argument of any sign, second one positive. *)
Lemma eg_semi x y g s t : eg x y g s t -> 0 < y ->
  0 < g /\ 2 * Z.abs s * g <= y /\
  ((zrem x y = 0 /\ s = 0 /\ t = 1 /\ g = y) \/
   (2 * g <= y /\ (2 * Z.abs t * g * y <= Z.abs x * y + 2 * (g * g)))).
Proof.
  intros h hy. pose proof (eg_bezout _ _ _ _ _ h) as hb.
  assert (y0 : y <> 0) by lia. destruct (eg_step _ _ _ _ _ h y0) as (u & h2 & ht0).
  pose proof (zrem_bound x y y0) as hr. pose proof (zdiv x y y0) as hd.
  destruct (Z.eq_dec (zrem x y) 0) as [r0|r0].
  - rewrite r0 in h2. apply eg_zero in h2. destruct h2 as (-> & -> & ->). subst t.
    repeat split; [lia|lia|]. left. repeat split; lia.
  - destruct (eg_pos _ _ _ _ _ h2 ltac:(lia) ltac:(lia)) as (hg & hu & hv).
    destruct (eg_dvd _ _ _ _ _ h2) as [[c hc] [d hdd]].
    assert (d1 : 0 < d) by (apply (mul_lt_inv 0 d g hg); lia).
    assert (c2 : d < c) by (apply (mul_lt_inv d c g hg); lia).
    assert (hv2 : 2 * Z.abs s * g <= y).
    { destruct hv as [(rr & -> & -> & hh)|[_ hv]]; [|lia].
      rewrite hh in *. change (Z.abs 1) with 1. nia. }
    repeat split; [lia|lia|]. right. split; [clear - hc c2 d1 hg; nia|].
    assert (ht : t * y = g - s * x) by lia.
    assert (hta : Z.abs t * y <= g + Z.abs s * Z.abs x).
    { assert (Z.abs t * y = Z.abs (t * y)) by (rewrite Z.abs_mul; lia).
      rewrite H, ht, <- Z.abs_mul. lia. }
    assert (h5 : 2 * Z.abs s * g * Z.abs x <= y * Z.abs x) by (clear - hv2; nia).
    clear - h5 hta hg. nia.
Qed.

(** The general case: all coefficients and the product formed on the way are
    bounded by the arguments. *)
Section Bounds.
Variable B : Z.                       (* 2 ^ (w - 1) *)
Hypothesis B8 : 8 <= B.
Definition inr z := - B <= z <= B - 1.
(** inside the range together with the negative *)
Definition inr' z := - (B - 1) <= z <= B - 1.

Lemma inr'_inr z : inr' z -> inr z.
Proof. unfold inr, inr'. lia. Qed.

Lemma eg_bounds x y g u v : y <> 0 -> inr x -> inr y -> ~ (x = - B /\ y = -1) ->
  eg y (zrem x y) g u v ->
  inr' u /\ inr' v /\ inr' (v * zquo x y) /\ inr' (u - v * zquo x y).
Proof.
  intros y0 hx hy nb h. unfold inr, inr' in *.
  pose proof (zrem_bound x y y0) as hr. pose proof (zdiv x y y0) as hd.
  set (q := zquo x y) in *. set (r := zrem x y) in *.
  destruct (Z.eq_dec r 0) as [r0|r0].
  { rewrite r0 in h. apply eg_zero in h. destruct h as (-> & -> & ->). lia. }
  pose proof (eg_bezout _ _ _ _ _ (egS x y g u v y0 h)) as hb. fold q in hb.
  pose proof (eg_semi _ _ _ _ _ h ltac:(lia)) as (hg & hu & hv).
  destruct (eg_dvd _ _ _ _ _ h) as [[c hc] [d hdd]].
  assert (d1 : 0 < d) by (apply (mul_lt_inv 0 d g hg); lia).
  assert (hu1 : 2 * Z.abs u <= r) by (clear - hu hg; nia).
  assert (hqx : Z.abs q * Z.abs y <= Z.abs x + r).
  { rewrite <- Z.abs_mul. replace (q * y) with (x - r) by lia. lia. }
  assert (y2 : 2 <= Z.abs y) by lia.
  assert (hq : 2 * Z.abs q <= Z.abs x + 1).
  { destruct (Z.eq_dec q 0) as [->|q0]; [lia|].
    assert (1 <= Z.abs q) by lia. clear - hqx hr y2 H. nia. }
  assert (hx' : Z.abs x <= B) by lia. assert (hy' : Z.abs y <= B) by lia.
  destruct hv as [(rr & -> & -> & hh)|[hg2 hv]].
  { (* r divides y *)
    lia. }
  assert (r2 : 2 <= r) by lia.
  assert (hg1 : 2 * Z.abs v * r * g <= Z.abs y * r + 2 * (g * g)) by (clear - hv; lia).
  assert (hvr : 2 * Z.abs v * r <= Z.abs y * r + 2).
  { destruct (Z.eq_dec g 1) as [g1|g1]; [rewrite g1 in hg1; lia|].
    assert (g2 : 2 <= g) by lia. clear - g2 hg2 hg1 hr y2 r2.
    set (V := Z.abs v) in *. set (Y := Z.abs y) in *. assert (0 <= V) by lia.
    (* g (2 V r) <= Y r + 2 g^2 and 2 g <= r < Y *)
    assert (2 * (g * g) <= g * r) by nia.
    assert (r * (2 * V * g) <= r * (Y + g)) by nia.
    assert (2 * V * g <= Y + g) by nia.
    assert (2 * V <= Y) by nia. nia. }
  assert (hv1 : 2 * Z.abs v <= Z.abs y + 1).
  { apply (mul_le_inv _ _ r ltac:(lia)). clear - hvr r2. lia. }
  set (t := u - v * q) in *.
  assert (hvq : Z.abs (v * q) <= B - 1).
  { rewrite Z.abs_mul.
    destruct (Z_le_gt_dec (Z.abs q) 1) as [q1|q1].
    { assert (Z.abs v * Z.abs q <= Z.abs v) by (clear - q1; nia). lia. }
    assert (hxl : Z.abs q * Z.abs y - r <= Z.abs x).
    { rewrite <- Z.abs_mul. replace (q * y) with (x - r) by lia. lia. }
    assert (hry : r <= Z.abs y - 1) by lia.
    clear - hvr hv1 q1 hxl hry y2 r2 hx' B8.
    set (Q := Z.abs q) in *. set (Y := Z.abs y) in *. set (X := Z.abs x) in *.
    set (V := Z.abs v) in *.
    assert (e1 : 2 * (V * Q) <= Q * (Y + 1)) by nia.
    assert (e2 : 0 <= (Q - 2) * (Y - 1)) by (apply Z.mul_nonneg_nonneg; lia).
    assert (e3 : Q * (Y + 1) <= 2 * X - 2 * (Y - 1 - r) - (Q - 2) * (Y - 1)) by lia.
    destruct (Z.eq_dec (V * Q) B) as [eB|eB]; [exfalso|lia].
    (* equality: |q| = 2, r = |y| - 1, |x| = |y| + 1 *)
    assert (e4 : (Q - 2) * (Y - 1) = 0) by lia.
    assert (q2 : Q = 2) by (clear - e4 y2; nia).
    rewrite q2 in *. assert (r = Y - 1) by lia. assert (2 * V = Y + 1) by lia.
    assert (Y = B - 1) by lia. subst r. nia. }
  assert (hty : t * y = g - v * x) by lia.
  assert (hta : Z.abs t * Z.abs y <= g + Z.abs v * Z.abs x).
  { rewrite <- !Z.abs_mul, hty. lia. }
  assert (y3 : 3 <= Z.abs y) by lia.
  assert (htb : Z.abs t <= B - 1).
  { assert (hgy : 2 * g <= Z.abs y) by lia.
    clear - hta hv1 hgy y3 B8 hx'.
    set (T := Z.abs t) in *. set (Y := Z.abs y) in *. set (X := Z.abs x) in *.
    set (V := Z.abs v) in *. assert (0 <= X) by lia. assert (0 <= V) by lia.
    assert (a1 : 2 * V * X <= (Y + 1) * X) by nia.
    assert (a2 : (Y + 1) * X <= (Y + 1) * B) by nia.
    assert (a3 : 2 * T * Y <= Y + (Y + 1) * B) by lia.
    destruct (Z_le_gt_dec T (B - 1)) as [|tb]; [assumption|exfalso].
    assert (a4 : B * Y <= T * Y) by (apply Z.mul_le_mono_nonneg_r; lia).
    nia. }
  clear - hu1 hvq htb hv1 hr hy' B8. repeat split; lia.
Qed.
End Bounds.
