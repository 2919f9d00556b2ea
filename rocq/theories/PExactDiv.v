(** * PExactDiv.v -- dividing integer polynomials with exact floats. *)

From Coq Require Import ZArith Reals Lra Lia.
From mathcomp Require Import all_ssreflect zify.
From Flocq Require Import Core BinarySingleNaN.
From Verif Require Import Rust Traits MInts MConstr Wp MFloats FloatSpec PFloat ExactSpec PExact.

Set Implicit Arguments.
Unset Strict Implicit.
Unset Printing Implicit Defensive.

Section Div.
Variables (cfg : Cfg) (prec emax : Z).
Context (prec_gt_0 : Prec_gt_0 prec) (prec_lt_emax : Prec_lt_emax prec emax).
Local Notation F := (binary_float prec emax).
Local Notation G := (ExactFloats cfg prec_gt_0 prec_lt_emax).
Local Notation d0 := (B754_zero false : F).

(** The value is an integer at most [B] in absolute value. *)
Definition isb (B : Z) (x : F) : Prop := exists2 a, (Z.abs a <= B)%Z & float_is x (IZR a).

Let EA := exact_floats cfg prec_gt_0 prec_lt_emax.

Lemma isb_weak B B' x : isb B x -> (B <= B')%Z -> isb B' x.
Proof. by move=> [a ha xa] h; exists a => //; lia. Qed.
Lemma int_float a : (Z.abs a < 2 ^ prec)%Z -> is_float prec emax (IZR a).
Proof.
move=> ha; have h1 : (prec < emax)%Z := prec_lt_emax; have h0 : (0 < prec)%Z := prec_gt_0.
have e : IZR a = (IZR a * bpow radix2 0)%R by rewrite Rmult_1_r.
rewrite e; apply: dyadic_float => //; first lia.
rewrite -e -abs_IZR; apply: (Rlt_trans _ (bpow radix2 prec)); last exact: bpow_lt.
by rewrite bpow_2; [apply: IZR_lt|lia].
Qed.
Lemma yields_isb (m : M F) a B : exact_result m (IZR a) -> (Z.abs a <= B)%Z -> (B < 2 ^ prec)%Z ->
  ensures False m (isb B).
Proof.
move=> [h _] ha hB; have [|x r xa] := h _; first by apply: int_float; lia.
by apply: ensures_returns r _; exists a.
Qed.
Lemma isb_mul B C x y : isb B x -> isb C y -> (B * C < 2 ^ prec)%Z ->
  ensures False (mul G x y) (isb (B * C)).
Proof.
move=> [a ha xa] [b hb yb] h; have := ex_mul EA xa yb; rewrite -mult_IZR => r.
by apply: (yields_isb r) => //; rewrite Z.abs_mul; apply: Z.mul_le_mono_nonneg; lia.
Qed.
Lemma isb_add B C x y : isb B x -> isb C y -> (B + C < 2 ^ prec)%Z ->
  ensures False (add G x y) (isb (B + C)).
Proof.
move=> [a ha xa] [b hb yb] h; have := ex_add EA xa yb; rewrite -plus_IZR => r.
by apply: (yields_isb r) => //; lia.
Qed.
Lemma isb_neg B x : isb B x -> ensures False (neg G x) (isb B).
Proof.
move=> [a ha xa]; have [z r zv] := ex_neg EA xa; apply: ensures_returns r _.
by exists (- a)%Z; rewrite ?opp_IZR //; lia.
Qed.
Lemma isb_div B x y b : isb B x -> float_is y (IZR b) -> Z.abs b = 1%Z -> (B < 2 ^ prec)%Z ->
  ensures False (fdiv G x y) (isb B).
Proof.
move=> [a ha xa] yb b1 h.
have b0 : IZR b <> 0%R by apply: IZR_neq; lia.
have e : (IZR a / IZR b = IZR (a * b))%R.
  have [->|->] : b = 1%Z \/ b = (-1)%Z by lia.
    by rewrite Z.mul_1_r; field.
  by rewrite mult_IZR; field.
have := ex_div EA xa yb b0; rewrite e => r; apply: (yields_isb r) => //.
by rewrite Z.abs_mul b1; lia.
Qed.

Section Rows.
Variables (v w : seq F) (B C b : Z).
Local Notation l := (size v - size w + 1).
Hypothesis hv : forall k, k < size v -> isb B (nth d0 v k).
Hypothesis hw : forall k, k < size w -> isb C (nth d0 w k).
Hypotheses (w0 : 0 < size w) (vw : size w <= size v).
Hypotheses (hb : float_is (nth d0 w (size w).-1) (IZR b)) (b1 : Z.abs b = 1%Z).
Hypothesis small : (B * (1 + C) ^ Z.of_nat l < 2 ^ prec)%Z.

Let bound t : Z := (B * (1 + C) ^ Z.of_nat t)%Z.
Lemma B0 : (0 <= B)%Z.
Proof. by have [a ha _] := hv (leq_trans w0 vw); lia. Qed.
Lemma C0 : (0 <= C)%Z.
Proof. by have [a ha _] := hw w0; lia. Qed.
Lemma boundS t : bound t.+1 = (bound t + bound t * C)%Z.
Proof. by rewrite /bound Nat2Z.inj_succ Z.pow_succ_r; [ring|lia]. Qed.
Lemma bound0 t : (0 <= bound t)%Z.
Proof. by apply: Z.mul_nonneg_nonneg; [exact: B0|apply: Z.pow_nonneg; have := C0; lia]. Qed.
Lemma bound_le t : t <= l -> (bound t < 2 ^ prec)%Z.
Proof.
move=> tl; apply: Z.le_lt_trans small; apply: Z.mul_le_mono_nonneg_l; first exact: B0.
by apply: Z.pow_le_mono_r; have := C0; lia.
Qed.

Definition ints t (s : seq F * seq F) : Prop :=
  [/\ size s.1 = l, size s.2 = size v & forall k, k < size v -> isb (bound t) (nth d0 s.2 k)].

Lemma ints_step i (s : seq F * seq F) a : i < l -> a = nth d0 w (size w - 1) ->
  ints (l - i.+1) s -> ensures False
  (let '(quo, rem) := s in
      let! x := vget rem (i + size w - 1) in
      let! q := fdiv G x a in
      let! quo := vset quo i q in
      let! b := neg G q in
      let! rem := for_loop 0 (size w - 1) (fun j rem =>
        let! y := vget w j in
        let! c := mul G y b in
        let! d := vget rem (i + j) in
        let! d := add G d c in
        vset rem (i + j) d) rem in
      ret (quo, rem)) (ints (l - i)).
Proof.
move=> il -> ; set t := l - i.+1; have tE : l - i = t.+1 by rewrite /t; lia.
have tl : t.+1 <= l by rewrite /t; lia.
have bt : (bound t + bound t * C < 2 ^ prec)%Z by rewrite -boundS; exact: bound_le.
have b0' := @bound0 t; have c0' := C0; have bc : (0 <= bound t * C)%Z by apply: Z.mul_nonneg_nonneg.
rewrite tE; case: s => quo rem [/= sq sr hr].
rewrite (vgetE d0); last by rewrite sr; lia.
rewrite bind_ret (subn1 (size w)).
apply: ensures_bind (isb_div (hr _ _) hb b1 _) _; [lia|lia|move=> q hq].
rewrite (vsetE d0); last by rewrite sq.
rewrite bind_ret; apply: ensures_bind (isb_neg hq) _ => nq hnq.
pose I j (r : seq F) := [/\ size r = size v,
  forall k, k < size v -> isb (bound t.+1) (nth d0 r k) &
  forall k, i + j <= k < size v -> isb (bound t) (nth d0 r k)].
have I0 : I 0 rem.
  split=> // k; last by move=> /andP[_]; exact: hr.
  by move=> /hr h; apply: isb_weak h _; rewrite boundS; lia.
apply: ensures_bind (@ensures_for _ False 0 _ _ _ I I0 _) _; last first.
  move=> r [sr' hr' _]; apply: ensures_ret; split=> //=.
  by rewrite size_set_nth sq; apply/maxn_idPr.
move=> j r /andP[_]; rewrite add0n => jw [sr' hr' hl].
rewrite (vgetE d0); last lia.
rewrite bind_ret; apply: ensures_bind (isb_mul (hw _) hnq _) _; [lia|rewrite Z.mul_comm; lia|move=> c hc].
rewrite (vgetE d0); last by rewrite sr'; lia.
rewrite bind_ret.
apply: ensures_bind (isb_add (hl _ _) hc _) _; [lia|by rewrite (Z.mul_comm C); lia|move=> y].
rewrite (Z.mul_comm C) -boundS => hy.
rewrite (vsetE d0); last by rewrite sr'; lia.
apply: ensures_ret; split.
- by rewrite size_set_nth sr'; apply/maxn_idPr; lia.
- by move=> k kv; rewrite nth_set_nth /=; case: eqP => // _; exact: hr'.
- move=> k hk; rewrite nth_set_nth /=; case: eqP => [e|_]; first by lia.
  by apply: hl; lia.
Qed.

Lemma ints_trim r : size r = size v -> (forall k, k < size v -> is_finite (nth d0 r k)) ->
  ensures False (poly_trim_index G r (size w - 1)) (fun _ => True).
Proof.
move=> sr fr; pose I i := i <= size w - 1; have I0 : I (size w - 1) by exact: leqnn.
apply: (@ensures_while _ False _ _ I _ id _ I0) => i iI.
case: ltnP => i0; last exact: ensures_ret.
have ir : i - 1 < size v by rewrite /I in iI; lia.
rewrite (vgetE d0); last by rewrite sr.
rewrite bind_ret; have [c rc _] := exact_is_zero cfg prec_gt_0 prec_lt_emax (fr _ ir).
by apply: ensures_returns rc _; case: c => //; apply: ensures_ret; rewrite /I in iI *; split; lia.
Qed.

Lemma ints_division : ensures False (poly_quo_rem G v w) (fun _ => True).
Proof.
rewrite /poly_quo_rem -lt0n w0 /= bind_ret ltnNge vw /=.
have w1 : size w - 1 < size w by lia.
rewrite bind_ret (vgetE d0 w1) bind_ret.
have [fa ea] : float_is (nth d0 w (size w - 1)) (IZR b) by rewrite subn1.
have [c rc hc] := exact_is_zero cfg prec_gt_0 prec_lt_emax fa.
apply: (@ensures_bind _ _ _ _ _ (eq c)); [exact: ensures_returns rc _|move=> _ <-].
have -> : c = false.
  by case: c hc {rc} => // -[h _]; have := h erefl; rewrite ea => /eq_IZR; lia.
rewrite [assert _]/= bind_ret; have -> : vresize [::] l d0 = nseq l d0 by rewrite /vresize /= subn0.
rewrite size_nseq.
apply: (@ensures_bind _ _ _ _ _ (ints l)).
  rewrite -[in ints _](subn0 l).
  apply: (@ensures_for_rev _ False l _ _ (fun i => ints (l - i))).
    split=> //=; first by rewrite size_nseq.
    by move=> k kv; rewrite subnn /bound Z.pow_0_r Z.mul_1_r; exact: hv.
  move=> i s il hs; exact: ints_step.
move=> [quo rem] [_ sr hr]; apply: ensures_bind (ints_trim _ _) _ => //.
  by move=> k /hr [a _ []].
by move=> i _; exact: ensures_ret.
Qed.
End Rows.
End Div.
