(** * PTimes.v -- when exactly [times] of CheckedInts (usize multiplier) and of
    CheckedUints panics. *)

From Coq Require Import ZArith Lia Bool.
From mathcomp Require Import all_ssreflect.
From Verif Require Import Rust Traits MInts Wp ZFacts PIntsZ PChecked.

Set Implicit Arguments.
Unset Strict Implicit.
Unset Printing Implicit Defensive.
Local Open Scope Z_scope.

(** The number of binary digits of [n]. *)
Definition bitlen (n : Z) : Z := if n =? 0 then 0 else Z.log2 n + 1.

Lemma bitlen_ge0 n : 0 <= bitlen n.
Proof. by rewrite /bitlen; case: Z.eqb_spec => // _; have := Z.log2_nonneg n; lia. Qed.
Lemma bitlen_half n : 0 < n -> bitlen n = bitlen (Z.quot n 2) + 1.
Proof.
move=> n0; rewrite /bitlen; case: Z.eqb_spec => [|_]; first by lia.
have hq : Z.quot n 2 = n / 2 by apply: Z.quot_div_nonneg; lia.
rewrite hq; case: Z.eqb_spec => [h|h].
  have -> : n = 1 by have := Z.div_mod n 2; have := Z.mod_pos_bound n 2; lia.
  by [].
have h2 : 0 < n / 2 by have := Z.div_pos n 2; lia.
have [hm|hm] : n = 2 * (n / 2) \/ n = 2 * (n / 2) + 1.
- by have := Z.div_mod n 2; have := Z.mod_pos_bound n 2; lia.
- by rewrite {1}hm Z.log2_double //; lia.
by rewrite {1}hm Z.log2_succ_double //; lia.
Qed.
Lemma bitlen_bound n : 0 <= n -> n < 2 ^ bitlen n.
Proof.
move=> n0; rewrite /bitlen; case: Z.eqb_spec => [->|h] //.
by have := Z.log2_spec n; rewrite -Z.add_1_r; lia.
Qed.

Section Range.
Variables (lo hi : Z).
Hypothesis lohi : lo <= 0 <= hi.
Definition inr2 (z : Z) : bool := (lo <=? z) && (z <=? hi).
Lemma inr2P z : reflect (lo <= z <= hi) (inr2 z).
Proof.
apply: (iffP andP) => -[h1 h2]; first by move/Z.leb_le: h1; move/Z.leb_le: h2.
by split; apply/Z.leb_le.
Qed.
Definition addc (x y : Z) : M Z := unwrap (if inr2 (x + y) then Some (x + y) else None).

Let cond (s : Z * Z * Z) : M bool := let '(num, elem, res) := s in ret (num >? 0).

Lemma times_returns n x : 0 <= n -> inr2 (x * 2 ^ bitlen n) ->
  returns (default_ntimes (ret 0) addc (fun y => addc y y) n x) (n * x).
Proof.
move=> n0 /inr2P hF; pose F := x * 2 ^ bitlen n.
suff h : ensures False (default_ntimes (ret 0) addc (fun y => addc y y) n x)
           (fun r => r = n * x).
  by case: h => [[v [hv <-]]|[]].
rewrite /default_ntimes bind_ret.
pose I (s : Z * Z * Z) := let '(m, e, r) := s in
  [/\ 0 <= m, e * 2 ^ bitlen m = F, r + m * e = n * x &
      (0 <= r /\ 0 <= e) \/ (r <= 0 /\ e <= 0)].
apply: (@ensures_bind _ _ _ _ _ (fun s => s.2 = n * x)); last first.
  by move=> s hs; exact: ensures_ret.
apply: (@ensures_while _ _ _ _ I _ (fun s => Z.to_nat s.1.1)).
  by split=> //; lia.
move=> [[m e] r] [m0 hE hT hs]; apply: ensures_ret.
case: Z.gtb_spec => m1; last by rewrite -hT /= (_ : m = 0); lia.
have hb := bitlen_half m1; have hb0 := @bitlen_ge0 (Z.quot m 2).
have hq0 : 0 <= Z.quot m 2 by apply: Z.quot_pos; lia.
have hq1 : Z.quot m 2 < m by apply: Z.quot_lt; lia.
have hqr := Z.quot_rem' m 2.
have hr0 : 0 <= Z.rem m 2 < 2 by apply: Z.rem_bound_pos; lia.
have hF2 : 2 * e * 2 ^ bitlen (Z.quot m 2) = F by rewrite -hE hb Z.pow_add_r //; lia.
have hP : 1 <= 2 ^ bitlen (Z.quot m 2) by have := Z.pow_pos_nonneg 2 (bitlen (Z.quot m 2)); lia.
have hbd := @bitlen_bound n n0.
have he : inr2 (e + e).
  by apply/inr2P; move: hF hs hF2 hP lohi; rewrite -/F; set P := 2 ^ _; clear; nia.
have hre : inr2 (r + e).
  have hN : 0 <= n < 2 ^ bitlen n by [].
  have hre : (0 <= r + e <= n * x) \/ (n * x <= r + e <= 0).
    by rewrite -hT; clear -hs m1; nia.
  have hnx : (0 <= n * x <= F) \/ (F <= n * x <= 0).
    by rewrite /F; move: hN; set P := 2 ^ _; clear; nia.
  by apply/inr2P; rewrite -/F in hF; lia.
apply: (@ensures_bind _ _ _ _ _ (fun r' => r' + Z.quot m 2 * (e + e) = n * x /\
          ((0 <= r' /\ 0 <= e) \/ (r' <= 0 /\ e <= 0)))).
  case: Z.eqb_spec => h /=; first by apply: ensures_ret; split=> //; rewrite -hT; nia.
  rewrite /addc hre /=; apply: ensures_ret; split; last by lia.
  have hm : m = 2 * Z.quot m 2 + 1 by lia.
  by rewrite -hT; move: hm; set q := Z.quot m 2; clear => ->; lia.
move=> r' [h1 h2]; rewrite /addc he /=; apply: ensures_ret; split; last first.
  by apply/ltP => /=; lia.
by split=> //; [rewrite -hF2; congr (_ * _); lia | lia].
Qed.

Lemma times_panics n x : 0 <= n -> inr2 x -> ~~ inr2 (x * 2 ^ bitlen n) ->
  panics (default_ntimes (ret 0) addc (fun y => addc y y) n x).
Proof.
move=> n0 hx nF; pose F := x * 2 ^ bitlen n.
suff h : ensures True (default_ntimes (ret 0) addc (fun y => addc y y) n x)
           (fun r => inr2 F).
  by case: h => [[v [_ hF]]|[_]] //; rewrite -/F hF in nF.
rewrite /default_ntimes bind_ret.
pose I (s : Z * Z * Z) := let '(m, e, r) := s in
  [/\ 0 <= m, e * 2 ^ bitlen m = F & inr2 e].
apply: (@ensures_bind _ _ _ _ _ (fun s => inr2 F)); last by move=> s hs; exact: ensures_ret.
apply: (@ensures_while _ _ _ _ I _ (fun s => Z.to_nat s.1.1)); first by [].
move=> [[m e] r] [m0 hE he]; apply: ensures_ret.
case: Z.gtb_spec => m1.
  have hb := bitlen_half m1; have hb0 := @bitlen_ge0 (Z.quot m 2).
  have hq0 : 0 <= Z.quot m 2 by apply: Z.quot_pos; lia.
  have hq1 : Z.quot m 2 < m by apply: Z.quot_lt; lia.
  apply: (@ensures_bind _ _ _ _ _ (fun=> True)).
    case: Z.eqb_spec => h /=; first exact: ensures_ret.
    by rewrite /addc; case: ifP => _ /=; [exact: ensures_ret|exact: ensures_panic].
  move=> r' _; rewrite /addc; case: ifP => hee /=; last exact: ensures_panic.
  apply: ensures_ret; split; last by apply/ltP => /=; lia.
  by split=> //; rewrite -hE hb Z.pow_add_r //; lia.
have m0' : m = 0 by lia.
by rewrite m0' /bitlen /= Z.mul_1_r in hE; rewrite -hE.
Qed.
End Range.

Section Widths.
Variables (cfg : Cfg) (w : Z).
Hypothesis w1 : 1 <= w.

(** CommuntativeMonoid::times of CheckedInts and of CheckedUints: exact iff the
    element doubled once per binary digit of the multiplier fits. *)
Lemma ci_ntimes_exact n x : 0 <= n -> in_i w x ->
  exact_if (in_i w (x * 2 ^ bitlen n)) (ntimes (CheckedInts cfg w) n x) (n * x).
Proof.
move=> n0 hx; rewrite /exact_if.
have hlo : imin w <= 0 <= imax w.
  by have := Z.pow_pos_nonneg 2 (w - 1); rewrite /imin /imax; lia.
have -> : ntimes (CheckedInts cfg w) n x =
          default_ntimes (ret 0) (addc (imin w) (imax w))
            (fun y => addc (imin w) (imax w) y y) n x by [].
case: ifPn => h; first exact: times_returns.
exact: times_panics.
Qed.
Lemma cu_ntimes_exact n x : 0 <= n -> in_u w x ->
  exact_if (in_u w (x * 2 ^ bitlen n)) (ntimes (CheckedUints w) n x) (n * x).
Proof.
move=> n0 hx; rewrite /exact_if.
have hlo : 0 <= 0 <= umax w by have := Z.pow_pos_nonneg 2 w; rewrite /umax; lia.
have -> : ntimes (CheckedUints w) n x =
          default_ntimes (ret 0) (addc 0 (umax w))
            (fun y => addc 0 (umax w) y y) n x by [].
case: ifPn => h; first exact: times_returns.
exact: times_panics.
Qed.
(** AbelianGroup::times of CheckedInts: exact iff the multiplier and the product
    both fit. *)
Lemma ci_ztimes_exact n x :
  exact_if (in_i w n && in_i w (x * n)) (ztimes (CheckedInts cfg w) n x) (x * n).
Proof.
rewrite /exact_if /= /checked_ints_ztimes /checked_i; case: (in_i w n) => /=; last exact: panics_panic.
by rewrite !bind_ret; case: (in_i w (x * n)) => /=; [exact: returns_ret|exact: panics_panic].
Qed.
End Widths.
