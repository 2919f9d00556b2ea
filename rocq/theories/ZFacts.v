(** * ZFacts.v -- facts about the standard library's integers. *)

From Coq Require Import ZArith Lia Bool.
Local Open Scope Z_scope.

(** Euclidean quotient and remainder (0 <= r < |b|), independent of the code. *)
Definition zquo (a b : Z) : Z := Z.sgn b * (a / Z.abs b).
Definition zrem (a b : Z) : Z := a mod Z.abs b.

Lemma zdiv a b : b <> 0 -> a = zquo a b * b + zrem a b.
Proof.
  intros hb. unfold zquo, zrem.
  pose proof (Z.div_mod a (Z.abs b) ltac:(lia)) as h.
  assert (h2 : Z.sgn b * b = Z.abs b) by lia.
  rewrite h at 1. rewrite <- h2 at 1. ring.
Qed.

Lemma zrem_bound a b : b <> 0 -> 0 <= zrem a b < Z.abs b.
Proof. intros hb. apply Z.mod_pos_bound. lia. Qed.

Lemma zdiv_unique a b q r : 0 <= r < Z.abs b -> a = q * b + r ->
  q = zquo a b /\ r = zrem a b.
Proof.
  intros hr h.
  assert (hb : b <> 0) by lia.
  pose proof (zdiv a b hb) as h1. pose proof (zrem_bound a b hb) as h2.
  assert (h3 : (q - zquo a b) * b = zrem a b - r) by lia.
  assert (q - zquo a b = 0) by nia.
  nia.
Qed.

Lemma zrem_canon a b c : b <> 0 -> zrem (a + c * b) b = zrem a b.
Proof.
  intros hb. symmetry.
  apply (zdiv_unique (a + c * b) b (zquo a b + c) (zrem a b)).
  - now apply zrem_bound.
  - pose proof (zdiv a b hb). lia.
Qed.

Lemma zrem0 b : b <> 0 -> zrem 0 b = 0.
Proof. intros hb. unfold zrem. apply Z.mod_0_l. lia. Qed.

Lemma zquo0 b : b <> 0 -> zquo 0 b = 0.
Proof. intros hb. unfold zquo. rewrite Z.div_0_l; lia. Qed.

(** The correction of truncated division used by the code. *)
Lemma quot_fix a b : b <> 0 ->
  (if Z.rem a b <? 0 then
     if b <? 0 then (Z.quot a b + 1, Z.rem a b - b)
     else (Z.quot a b - 1, Z.rem a b + b)
   else (Z.quot a b, Z.rem a b)) = (zquo a b, zrem a b).
Proof.
  intros hb.
  pose proof (Z.quot_rem' a b) as h. pose proof (Z.rem_bound_abs a b hb) as h1.
  assert (h2 : forall q r, 0 <= r < Z.abs b -> a = q * b + r ->
     (q, r) = (zquo a b, zrem a b)).
  { intros q r hr hq. destruct (zdiv_unique a b q r hr hq) as [-> ->]. reflexivity. }
  destruct (Z.ltb_spec (Z.rem a b) 0); [destruct (Z.ltb_spec b 0)|]; apply h2; lia.
Qed.

Lemma zrem_eq0 a b : b <> 0 -> zrem a b = 0 <-> Z.rem a b = 0.
Proof.
  intros hb. pose proof (Z.quot_rem' a b) as h. pose proof (zdiv a b hb) as h1.
  split; intros h0.
  - apply (Z.rem_divide a b hb). exists (zquo a b). lia.
  - symmetry. apply (zdiv_unique a b (Z.quot a b) 0); lia.
Qed.

Lemma zrem_self a b : b <> 0 -> zrem a b = a <-> 0 <= a < Z.abs b.
Proof.
  intros hb. split.
  - intros <-. now apply zrem_bound.
  - intros h. symmetry. apply (zdiv_unique a b 0 a); lia.
Qed.

(** Bounds for the machine division. *)
Lemma quot_abs_le a b : b <> 0 -> Z.abs (Z.quot a b) <= Z.abs a.
Proof.
  intros hb. rewrite <- Z.quot_abs by assumption.
  destruct (Z.eq_dec a 0) as [->|ha].
  - rewrite Z.quot_0_l; lia.
  - destruct (Z.eq_dec (Z.abs b) 1) as [->|]; [rewrite Z.quot_1_r; lia|].
    pose proof (Z.quot_lt (Z.abs a) (Z.abs b)). lia.
Qed.

Lemma quot_mul_bound a b : b <> 0 ->
  (0 <= a -> 0 <= Z.quot a b * b <= a) /\ (a <= 0 -> a <= Z.quot a b * b <= 0).
Proof.
  intros hb. rewrite (Z.mul_comm _ b). split; intros ha.
  - now apply Z.mul_quot_le.
  - now apply Z.mul_quot_ge.
Qed.
