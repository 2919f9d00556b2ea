(** * PCost3.v -- polynomials and quotient fields. *)

From Coq Require Import ZArith Lia List.
From mathcomp Require Import all_ssreflect.
From Verif Require Import Rust Traits MInts MConstr CostSpec Wp ZFacts PIntsZ PInts PCost PCost2.

Set Implicit Arguments.
Unset Strict Implicit.
Unset Printing Implicit Defensive.

(** ** The quotient by an element *)
Section Quotient.
Variables (cfg : Cfg) (E : Type) (A : EuclAlg E) (modulo : E) (k : nat) (P P' : E -> Prop).
Hypothesis h_red : forall x, P' x -> P x.
Hypotheses (h_zero : within k (zero A) P') (h_one : within k (one A) P').
Hypothesis h_eq : forall x y, P' x -> P' y -> finishes k (equals A x y).
Hypothesis h_is_one : forall x, P' x -> finishes k (is_one A x).
Hypothesis h_add : forall x y, P x -> P y -> within k (add A x y) P.
Hypothesis h_neg : forall x, P x -> within k (neg A x) P.
Hypothesis h_mul : forall x y, P x -> P y -> within k (mul A x y) P.
Hypothesis h_rem : forall x, P x -> within k (rem A x modulo) P'.
Hypothesis h_egcd : forall x, P' x ->
  within k (extended_gcd A modulo x) (fun g => [/\ P g.1.1, P g.1.2 & P g.2]).
Hypothesis h_try_inv : forall x, P x ->
  within k (try_inv A x) (fun o => forall y, o = Some y -> P y).

Lemma quotient_quick : quick_field k P' (QuotientField cfg A modulo).
Proof.
have hz x : P' x -> finishes k (is_zero (QuotientField cfg A modulo) x).
  by move=> hx; apply: w_bind h_zero _ => z hz; exact: h_eq.
have hmul x y : P x -> P y -> within k (quotient_mul A modulo x y) P'.
  by move=> hx hy; apply: w_bind (h_mul hx hy) _ => z; exact: h_rem.
have hadd x y : P x -> P y -> within k (quotient_add A modulo x y) P'.
  by move=> hx hy; apply: w_bind (h_add hx hy) _ => z; exact: h_rem.
have hneg x : P x -> within k (quotient_neg A modulo x) P'.
  by move=> hx; apply: w_bind (h_neg hx) _ => z; exact: h_rem.
have hinv x : P' x -> within k (quotient_field_inv A modulo x) P'.
  move=> hx; apply: w_bind (hz x hx) _ => b _; apply: w_bind (w_assert _ _) _ => _ _.
  apply: w_bind (h_egcd hx) _ => -[[g s] r] [/= hg _ hr].
  apply: w_bind (h_try_inv hg) _ => o ho; apply: w_bind (w_unwrap _ _) _ => a oa.
  by apply: hmul => //; exact: ho.
split=> //.
- by move=> x y hx hy; apply: hadd; exact: h_red.
- by move=> x hx; apply: hneg; exact: h_red.
- move=> x y hx hy; apply: w_bind (hneg _ (h_red hy)) _ => z hz'.
  by apply: hadd; exact: h_red.
- by move=> x y hx hy; apply: hmul; exact: h_red.
- move=> x y hx hy; apply: w_bind (hinv _ hy) _ => i hi.
  by apply: hmul; exact: h_red.
- move=> x hx; apply: w_bind (hz x hx) _ => -[] _; first by apply: w_ret.
  by apply: w_bind (hinv x hx) _ => i hi; apply: w_ret => y [<-].
Qed.
End Quotient.

(** The integers modulo [m]. *)
Lemma modular_quick cfg m i k : (2 <= Z.abs m)%Z -> (Z.abs m <= fib i.+2)%Z -> (i < k)%N ->
  quick_field k (fun x => (0 <= x < Z.abs m)%Z) (QuotientField cfg ZZ m).
Proof.
move=> m2 mi ik; apply: (@quotient_quick _ _ _ _ _ (fun _ => True)).
- by [].
- by apply: w_ret; lia.
- by apply: w_ret; lia.
- by move=> x y _ _; exact: w_ret.
- by move=> x _; exact: w_ret.
- by move=> x y _ _; exact: w_ret.
- by move=> x _; exact: w_ret.
- by move=> x y _ _; exact: w_ret.
- move=> x _; have m0 : m <> Z0 by lia.
  rewrite /= /default_rem integers_quo_remE // bind_ret; apply: w_ret => /=.
  exact: zrem_bound.
- move=> x hx; apply: w_mono (zz_egcd_within (i := i) _ ik) _ => //.
  by right; left; lia.
- by move=> x _; rewrite /= /integers_try_inv /integers_invertible bind_ret; case: ifP => _; apply: w_ret.
Qed.

(** ** Polynomials over a field *)
Section Poly.
Variables (E : Type) (A : FieldAlg E) (k : nat) (P : E -> Prop).
Hypothesis hA : quick_field k P A.
Local Notation PP := (Forall P).

Lemma take_forall n v : PP v -> PP (take n v).
Proof. by move=> h; move: h; rewrite -{1}(cat_take_drop n v) Forall_app => -[]. Qed.
Lemma nseq_forall n x : P x -> PP (nseq n x).
Proof. by move=> hx; elim: n => //= n IH; constructor. Qed.
Lemma vresize_forall v n x : PP v -> P x -> PP (vresize v n x).
Proof. by move=> hv hx; apply/Forall_app; split; [exact: take_forall|exact: nseq_forall]. Qed.

Lemma trim_within v n : PP v -> (n < k)%N ->
  within k (poly_trim_index A v n) (fun i => (i <= n)%N).
Proof.
move=> hv nk; pose I i (j : nat) := i = j /\ (j <= n)%N.
suff h : within k (poly_trim_index A v n) (fun j => exists i, I i j).
  by apply: w_mono h _ => j [i []].
apply: (@w_while k _ _ _ I n) => // i j [-> jn].
case: ltnP => j0; last by apply: w_ret; left.
apply: w_bind (w_vget k _ hv) _ => x hx; apply: w_mono (qk_is_zero hA hx) _ => -[] _.
  by right; split=> //; split=> //; apply: w_ret; split; [rewrite subn1|rewrite leq_subLR (leq_trans jn) // leq_addl].
by left.
Qed.

Lemma poly_qr_within v u : PP v -> PP u -> (size u <= k)%N ->
  within k (poly_quo_rem A v u) (fun qr => [/\ PP qr.1, PP qr.2 & (size qr.2 < size u)%N]).
Proof.
move=> hv hu uk; apply: w_bind (w_assert _ _) _ => _ u0.
case: ltnP => vu; first by apply: w_ret; split=> //; exact: Forall_nil.
apply: w_bind (qk_zero hA) _ => z hz; apply: w_bind (w_vget k _ hu) _ => a ha.
apply: w_bind (qk_is_zero hA ha) _ => az _; apply: w_bind (w_assert _ _) _ => _ _.
apply: (@w_bind _ _ _ _ _ (fun qr => PP qr.1 /\ PP qr.2)).
  apply: w_for_rev; last by split=> //; exact: vresize_forall.
  move=> i [q r] [/= hq hr]; apply: w_bind (w_vget k _ hr) _ => x hx.
  apply: w_bind (qk_div hA hx ha) _ => c hc; apply: w_bind (w_vset k _ hq hc) _ => q' [hq' _].
  apply: w_bind (qk_neg hA hc) _ => b hb.
  apply: (@w_bind _ _ _ _ _ PP); last by move=> r' hr'; exact: w_ret.
  apply: w_for => // j r' hr'; apply: w_bind (w_vget k _ hu) _ => y hy.
  apply: w_bind (qk_mul hA hy hb) _ => d hd; apply: w_bind (w_vget k _ hr') _ => e he.
  apply: w_bind (qk_add hA he hd) _ => f hf; apply: w_mono (w_vset k _ hr' hf) _ => s [] //.
move=> [q r] [/= hq hr]; have uk' : (size u - 1 < k)%N.
  by apply: leq_trans uk; rewrite -subn_gt0 subKn // lt0n.
apply: w_bind (trim_within hr uk') _ => i hi; apply: w_ret; split=> //=; first exact: take_forall.
rewrite size_take; case: ifP => h; first by apply: leq_ltn_trans hi _; rewrite -subn_gt0 subKn // lt0n.
move/negbT: h; rewrite -leqNgt => h; apply: leq_ltn_trans (leq_trans h hi) _.
by rewrite -subn_gt0 subKn // lt0n.
Qed.

Lemma poly_mul_within v u : PP v -> PP u -> within k (poly_mul A A v u) PP.
Proof.
move=> hv hu; rewrite /poly_mul; case: ifP => _; first by apply: w_ret.
apply: w_bind (qk_zero hA) _ => z hz; apply: w_for; last exact: vresize_forall.
move=> i acc hacc; apply: w_for => // j acc' hacc'.
apply: w_bind (w_vget k _ hv) _ => x hx; apply: w_bind (w_vget k _ hu) _ => y hy.
apply: w_bind (qk_mul hA hx hy) _ => a ha; apply: w_bind (w_vget k _ hacc') _ => c hc.
by apply: w_bind (qk_add hA hc ha) _ => d hd; apply: w_mono (w_vset k _ hacc' hd) _ => s [].
Qed.

Lemma poly_add_within v u : PP v -> PP u -> within k (poly_add A v u) PP.
Proof.
move=> hv hu; rewrite /poly_add; case: ifP => _.
  have H v' u' : PP v' -> PP u' -> within k (for_loop 0 (size u') (fun i acc =>
      let! x := vget acc i in let! y := vget u' i in let! a := add A x y in vset acc i a) v') PP.
    move=> hv' hu'; apply: w_for => // i acc hacc.
    apply: w_bind (w_vget k _ hacc) _ => x hx; apply: w_bind (w_vget k _ hu') _ => y hy.
    by apply: w_bind (qk_add hA hx hy) _ => d hd; apply: w_mono (w_vset k _ hacc hd) _ => s [].
  by case: ifP => _; exact: H.
apply: w_for => // i acc hacc.
apply: w_bind (w_vget k _ hv) _ => x hx; apply: w_bind (w_vget k _ hu) _ => y hy.
apply: w_bind (qk_add hA hx hy) _ => d hd; apply: w_bind (qk_is_zero hA hd) _ => b _.
case: ifP => _; last exact: w_ret.
apply: w_bind (qk_zero hA) _ => z hz.
by apply: w_mono (w_vset k _ (vresize_forall _ hacc hz) hd) _ => s [].
Qed.

Lemma poly_neg_within v : PP v -> within k (poly_neg A v) PP.
Proof.
by move=> hv; apply: w_mono (w_mapM hv (qk_neg hA)) _ => s [].
Qed.

Lemma poly_sub_within v u : PP v -> PP u -> within k (sub (poly_abelian A) v u) PP.
Proof.
by move=> hv hu; apply: w_bind (poly_neg_within hu) _ => w hw; exact: poly_add_within.
Qed.

Lemma poly_one_within : within k (poly_one A A) (fun v => PP v /\ size v = 1%N).
Proof.
apply: w_bind (qk_one hA) _ => o ho; apply: w_bind (qk_is_zero hA ho) _ => b _.
apply: w_bind (w_assert _ _) _ => _ _; apply: w_bind (qk_one hA) _ => o' ho'.
by apply: w_ret; split=> //; constructor.
Qed.

Definition fewer i (v u : seq E) := [/\ PP v, PP u, (size u <= i)%N & (size u <= k)%N].

Lemma poly_gcd_within v u : PP v -> PP u -> (size u < k)%N ->
  within k (gcd (PolyEucl A) v u) PP.
Proof.
move=> hv hu uk; apply: (@gcd_within _ _ _ _ _ fewer (size u)) => //; last first.
  by split=> //; exact: ltnW.
move=> i {hv hu uk}{}v {}u [hv hu ui uk]; split=> //; apply: w_ret.
case: eqP => u0; [by left|right]; split=> //.
have i0 : (0 < i)%N by apply: leq_trans ui; rewrite lt0n; exact/eqP.
split=> //; apply: w_bind (poly_qr_within hv hu uk) _ => qr [_ hr hs]; apply: w_ret; split=> //.
  by rewrite -ltnS prednK // (leq_trans hs).
by exact: leq_trans (ltnW hs) uk.
Qed.

Lemma poly_egcd_within v u : PP v -> PP u -> (size u < k)%N ->
  within k (extended_gcd (PolyEucl A) v u) (fun g => [/\ PP g.1.1, PP g.1.2 & PP g.2]).
Proof.
move=> hv hu uk; apply: (@egcd_within _ PP _ _ _ _ _ _ _ fewer (size u)) => //.
- by apply: w_mono poly_one_within _ => w [].
- exact: w_ret.
- exact: poly_mul_within.
- exact: poly_sub_within.
- move=> i {hv hu uk}{}v {}u [hv hu ui uk]; split=> //; apply: w_ret.
  case: eqP => u0; [by left|right]; split=> //.
  have i0 : (0 < i)%N by apply: leq_trans ui; rewrite lt0n; exact/eqP.
  split=> //; apply: w_mono (poly_qr_within hv hu uk) _ => qr [hq hr hs]; split=> //; split=> //.
    by rewrite -ltnS prednK // (leq_trans hs).
  by exact: leq_trans (ltnW hs) uk.
- by split=> //; exact: ltnW.
Qed.

(** The extension of the field. *)
Lemma extension_quick cfg m : PP m -> (1 < size m)%N -> (size m <= k)%N ->
  quick_field k (fun v => PP v /\ (size v < size m)%N) (QuotientField cfg (PolyEucl A) m).
Proof.
move=> hm m2 mk; apply: (@quotient_quick _ _ _ _ _ PP).
- by move=> x [].
- by apply: w_ret; split=> //; exact: ltnW.
- by apply: w_mono poly_one_within _ => v [hv ->].
- move=> x y [hx _] [hy _]; rewrite /= /poly_equals; case: ifP => _; first by apply: w_ret.
  by apply: w_all2M hx hy _; exact: qk_equals hA.
- move=> x [hx _]; rewrite /= /poly_is_one; case: ifP => _; last exact: w_ret.
  by apply: w_bind (w_vget k _ hx) _ => a ha; exact: qk_is_one hA _ ha.
- exact: poly_add_within.
- exact: poly_neg_within.
- exact: poly_mul_within.
- move=> x hx; apply: w_bind (poly_qr_within hx hm mk) _ => qr [_ hr hs]; exact: w_ret.
- by move=> x [hx sx]; apply: poly_egcd_within => //; exact: leq_trans mk.
- move=> x hx; rewrite /= /poly_try_inv; case: ifP => _; last exact: w_ret.
  apply: w_bind (w_vget k _ hx) _ => a ha; apply: w_bind (qk_try_inv hA ha) _ => -[b|] hb.
    by apply: w_ret => y [<-]; constructor=> //; exact: hb.
  by apply: w_ret.
Qed.
End Poly.

(** Powers and multiples in a quotient field. *)
Lemma quotient_power_within cfg E (A : EuclAlg E) m k P i num x :
  quick_field k P (QuotientField cfg A m) -> is_isize cfg num -> (0 < ptr_bits cfg)%Z ->
  (Z.abs num < 2 ^ Z.of_nat i)%Z -> (i < k)%N -> P x ->
  within k (fpower (QuotientField cfg A m) num x) P /\
  within k (ztimes (QuotientField cfg A m) num x) P.
Proof.
move=> hA hn hw ni ik hx; split; last first.
  apply: (@gpower_within _ P _ _ cfg k i) => //.
  - exact: qk_zero hA.
  - exact: qk_add hA.
  - by move=> y hy; exact: (qk_add hA hy hy).
  - exact: qk_neg hA.
apply: w_bind (qk_is_zero hA hx) _ => -[] _; first exact: qk_zero hA.
apply: (@gpower_within _ P _ _ cfg k i) => //.
- exact: qk_one hA.
- exact: qk_mul hA.
- by move=> y hy; exact: (qk_mul hA hy hy).
- move=> y hy; apply: w_bind (qk_try_inv hA hy) _ => o ho.
  by apply: w_mono (w_unwrap _ _) _ => z; exact: ho.
Qed.

(** Modular arithmetic over machine integers. *)
Lemma modular_checked_quick cfg w m i k : (2 <= w)%Z -> in_i w m -> (2 <= Z.abs m)%Z ->
  (Z.abs m <= fib i.+2)%Z -> (i < k)%N ->
  quick_field k (fun x => (0 <= x < Z.abs m)%Z) (QuotientField cfg (CheckedInts cfg w) m).
Proof.
move=> w2 hm m2 mi ik; have m0 : m <> Z0 by lia.
have hin x : (0 <= x < Z.abs m)%Z -> in_i w x.
  by move=> hx; move/(in_iP w): hm => hm; apply/(in_iP w); have := imin_imax w2; lia.
apply: (@quotient_quick _ _ _ _ _ (fun x => is_true (in_i w x))).
- exact: hin.
- by apply: w_ret; lia.
- by apply: w_ret; lia.
- by move=> x y _ _; exact: w_ret.
- by move=> x _; exact: w_ret.
- by move=> x y _ _; exact: ci_unwrap.
- by move=> x _; exact: ci_unwrap.
- by move=> x y _ _; exact: ci_unwrap.
- move=> x hx; apply: w_bind (ci_qr_within cfg w2 k hx hm m0) _ => qr [_ _ e].
  by apply: w_ret; rewrite e; exact: zrem_bound.
- move=> x hx; apply: (ci_egcd_within cfg w2 hm (hin _ hx) _ ik).
  by right; left; lia.
- move=> x hx; rewrite /= /checked_ints_try_inv /checked_ints_invertible bind_ret.
  by case: ifP => _; apply: w_ret => // y [<-].
Qed.

Lemma ntimes_exact E (op : E -> E -> M E) dbl zero k i num x :
  (exists z, zero k = Done z) -> (forall x y, exists z, op x y k = Done z) ->
  (forall x, exists z, dbl x k = Done z) ->
  (2 ^ Z.of_nat i <= num)%Z -> (k <= i.+1)%N ->
  default_ntimes zero op dbl num x k = Unfinished.
Proof.
move=> [z hz] hop hdbl hn ki; rewrite /default_ntimes /bind hz (power_loop_exact _ _ _ _ _ hn) //.
by apply: Z.lt_le_trans hn; apply: Z.pow_pos_nonneg; lia.
Qed.

Lemma zz_lame i x y : (0 <= y < fib i.+2)%Z \/ (Z.abs y < fib i.+1)%Z ->
  finishes i.+1 (gcd ZZ x y) /\ finishes i.+1 (extended_gcd ZZ x y).
Proof.
move=> h; have hl : lame i x y by case: h => h; [right; left|left].
by split; [exact: zz_gcd_within hl _|exact: zz_egcd_within hl _].
Qed.

Lemma ci_lame cfg w i x y : (2 <= w)%Z -> in_i w x -> in_i w y -> (2 ^ (w - 1) < fib i.+1)%Z ->
  finishes i.+1 (gcd (CheckedInts cfg w) x y) /\
  finishes i.+1 (extended_gcd (CheckedInts cfg w) x y).
Proof.
move=> w2 hx hy h; have hl : lame i x y.
  by left; move/(in_iP w): (hy); rewrite /imin /imax; lia.
split; first exact: w_fin (ci_gcd_within cfg w2 hx hy hl _).
exact: w_fin (ci_egcd_within cfg w2 hx hy hl _).
Qed.

(** ** The bounds are attained *)
Lemma gpower_exact cfg E (op : E -> E -> M E) sq iv one k i num x :
  (exists z, one k = Done z) -> (forall x y, exists z, op x y k = Done z) ->
  (forall x, exists z, sq x k = Done z) -> (forall x, exists z, iv x k = Done z) ->
  (Z.abs num < 2 ^ (ptr_bits cfg - 1))%Z ->
  (2 ^ Z.of_nat i <= Z.abs num)%Z -> (k <= i.+1)%N ->
  default_gpower cfg one op sq iv num x k = Unfinished.
Proof.
move=> [z hz] hop hsq hiv hc hn ki.
have h0 : (0 < Z.abs num)%Z by apply: Z.lt_le_trans hn; apply: Z.pow_pos_nonneg; lia.
rewrite /default_gpower; case: Z.ltb_spec => n0; last first.
  by rewrite bind_ret /bind hz (@power_loop_exact _ _ _ k i) //=; lia.
have [y hy] := hiv x.
rewrite prim_in; last by apply/in_iP; rewrite /imin /imax; lia.
by rewrite bind_ret /bind hy /ret /= hz (@power_loop_exact _ _ _ k i) //=; lia.
Qed.

Lemma zz_egcd_worst k : extended_gcd ZZ (fib k.+2) (fib k.+1) k = Unfinished.
Proof.
rewrite /= /default_extended_gcd.
suff H n : forall j, (j <= n)%N -> extended_gcd_fuel j (is_zero ZZ) (one ZZ) (zero ZZ) (mul ZZ) (Traits.sub ZZ)
    (quo_rem ZZ) (fib n.+2) (fib n.+1) k = Unfinished by exact: H.
have fS j E (isz : E -> M bool) on ze ml sb qr x y : extended_gcd_fuel j.+1 isz on ze ml sb qr x y =
    let! b := isz y in if b then (let! o := on in let! z := ze in ret (x, o, z)) else
      let! qr0 := qr x y in let! gxy := extended_gcd_fuel j isz on ze ml sb qr y qr0.2 in
      let '(g, u, v) := gxy in let! vq := ml v qr0.1 in let! z := sb u vq in ret (g, v, z) by [].
elim: n => [|n IH] [|j] // jn; rewrite fS /bind.
have f1 := fib_gt0 n.+1; have f0 := fib_gt0 n.
have -> : is_zero ZZ (fib n.+2) k = Done false by rewrite /= /ret; congr Done; apply/Z.eqb_neq; lia.
have -> : quo_rem ZZ (fib n.+3) (fib n.+2) k = Done (zquo (fib n.+3) (fib n.+2), zrem (fib n.+3) (fib n.+2)).
  have e : integers_quo_rem (fib n.+3) (fib n.+2) = ret (zquo (fib n.+3) (fib n.+2), zrem (fib n.+3) (fib n.+2)).
    by rewrite integers_quo_remE; last by lia.
  by move: (f_equal (fun m => m k) e).
case: n IH jn f1 f0 => [|n] IH jn f1 f0; first by case: j jn => // -[].
have <- : fib n.+2 = (zquo (fib n.+4) (fib n.+3), zrem (fib n.+4) (fib n.+3)).2; last by rewrite IH.
apply: (proj2 (@zdiv_unique _ _ 1 _ _ _)); last by rewrite fibS; lia.
by have := fibS n.+1; have := fib_gt0 n; lia.
Qed.
