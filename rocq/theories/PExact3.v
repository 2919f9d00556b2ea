(** * PExact3.v -- determinants and inverses of integer matrices whose minors are powers
    of two are exact over floats. *)

From mathcomp Require Import all_ssreflect all_fingroup all_algebra zify ssrZ.
From Coq Require Import ZArith Lia Reals Lra.
From Flocq Require Import Core BinarySingleNaN.
From Verif Require Import Rust Traits MInts MConstr Wp Spec PFloat MFloats FloatSpec PVec POrders MatFacts PMat DetSpec
  PDet FitSpec PMinor PFit PFitInt ProfSpec FloatProfSpec ExactSpec ExactQSpec PExact PExact2.

Set Implicit Arguments.
Unset Strict Implicit.
Unset Printing Implicit Defensive.

Import GRing.Theory.
Local Open Scope ring_scope.
Local Notation ZR := [idomainType of Z].
Local Notation QF := rationals.
Local Notation phi := [rmorphism of @FracField.tofrac ZR].

Lemma stricter_refl c : stricter c c.
Proof. by []. Qed.

Section Powers.
Variables (cfg : Cfg) (prec emax : Z).
Context (prec_gt_0 : Prec_gt_0 prec) (prec_lt_emax : Prec_lt_emax prec emax).
Local Notation F := (binary_float prec emax).
Local Notation G := (ExactFloats cfg prec_gt_0 prec_lt_emax).
Local Notation A := (ApproxFloats cfg prec_gt_0 prec_lt_emax).
Local Notation rep := (@denotes prec emax).
Variable K : Z.
Hypothesis hK : (3 * K + 2 <= prec)%Z.
Hypothesis hcfg : (2 <= ptr_bits cfg)%Z.

Definition goodp (q : QF) : Prop := exists2 v, same_number q v & power K v.

Lemma good_float x q : rep x q -> goodp q -> power K (B2R x).
Proof. by move=> [_ h1] [v h2 h3]; have /(same_unique h1 h2) -> := erefl q. Qed.

Let EA := exact_floats cfg prec_gt_0 prec_lt_emax.
Let hf (x : F) q : rep x q -> float_is x (B2R x).
Proof. by case. Qed.

Lemma yields_rep (m : M F) v q : exact_result m v -> is_float prec emax v -> same_number q v ->
  ensures False m (rep^~ q).
Proof.
move=> [h _] hv hq; have [x r xv] := h hv; apply: ensures_returns r _.
exact: float_denotes xv hq.
Qed.

Lemma fit_powers : (0 <= K)%Z -> fit_spec rep goodp G.
Proof.
move=> K0.
have hmul x a y b : rep x a -> rep y b -> goodp a -> goodp b ->
    ensures False (mul G x y) (rep^~ (a * b)).
  move=> xa yb ga gb; apply: (yields_rep (ex_mul EA (hf xa) (hf yb))).
    apply: (power_float prec_gt_0 prec_lt_emax hK).
    rewrite (_ : (2 * K = K + K)%Z); last lia.
    by apply: power_mul; [exact: good_float ga|exact: good_float gb].
  exact: same_mul (proj2 xa) (proj2 yb).
split.
- exact: rep_zero.
- exact: rep_one.
- have [z r zv] := exact_int1 cfg prec_gt_0 prec_lt_emax ltac:(lia).
  by apply: ensures_returns r _; apply: float_denotes zv same_1.
- by move=> x a; exact: rep_is_zero.
- by move=> x a y b; exact: rep_equals.
- exact: hmul.
- exact: hmul.
- move=> x a y b c xa ybc ga gb gc.
  have hs := same_add (proj2 xa) (proj2 ybc).
  apply: (yields_rep (ex_add EA (hf xa) (hf ybc))) => //.
  apply: (power_sum prec_gt_0 prec_lt_emax hK); first exact: good_float ga.
  case: gb gc => [v hv pv] [w hw pw]; have /(same_unique (proj2 ybc) (same_mul hv hw)) -> := erefl (b * c).
  by rewrite (_ : (2 * K = K + K)%Z); [exact: power_mul|lia].
- move=> x a xa ga; have [z r zv] := ex_neg EA (hf xa); apply: ensures_returns r _.
  by apply: float_denotes zv _; exact: same_opp (proj2 xa).
- move=> x a xa ga a0; have x0 : B2R x <> 0%R by move/(same_eq0 (proj2 xa)); exact/negP.
  apply: (yields_rep (ex_inv EA (hf xa) x0)); last exact: same_inv (proj2 xa) a0.
  have [s [i [h1 h2 e]]] := power_inv (good_float xa ga) x0.
  by apply: (power_float prec_gt_0 prec_lt_emax hK); exists s, i; split=> //; lia.
- by move=> a [v h1 h2]; exists (- v)%R; [exact: same_opp|exact: power_opp].
- move=> a [v h1 h2] a0; exists (/ v)%R; first exact: same_inv.
  by apply: power_inv h2 _; move/(same_eq0 h1); exact/negP.
Qed.

Section Matrices.
Variables (n : nat) (N : 'M[Z]_n) (v : seq F).
Hypothesis hv : int_entries v N.
Hypothesis hN : power_minors K N.
Local Notation NF := (map_mx rat_of N : 'M[QF]_n).

Lemma K_pos : (0 <= K)%Z.
Proof.
have := @hN 0%nat (fun x : 'I_0 => widen_ord (leq0n n) x) (fun x => widen_ord (leq0n n) x).
by rewrite /= det_mx00 => -[|[k hk _]]; [|lia].
Qed.

Lemma int_denotes (x : F) a : is_int x a -> rep x (rat_of a).
Proof. by move=> h; apply: float_denotes h _; exact: same_int. Qed.
Lemma entries_denote : mat_rep rep v NF.
Proof.
have [sv ev] := hv; set z : F := B754_zero false.
pose q (k : nat) : QF := if @insub _ (fun i => i < n)%nat _ (k %/ n)%nat is Some a then
  if @insub _ (fun i => i < n)%nat _ (k %% n)%nat is Some b then rat_of (N a b) else 0 else 0.
exists (mkseq q (n * n)); split.
- apply: (@reps_nthP _ _ _ z (0 : QF)); first by rewrite size_mkseq.
  move=> k; rewrite size_mkseq => kn; rewrite nth_mkseq //.
  have [h1 h2 h3] := ix_div kn.
  rewrite /q (insubT (fun i => i < n)%nat h1) (insubT (fun i => i < n)%nat h2).
  by have := int_denotes (ev (Ordinal h1) (Ordinal h2)); rewrite /= -h3.
- by rewrite size_mkseq.
- move=> i j; have kn : (i * n + j < n * n)%nat by have := ltn_ord i; have := ltn_ord j; nia.
  rewrite mxE nth_mkseq // /q.
  have n0 : (0 < n)%nat by have := ltn_ord i; lia.
  rewrite divnMDl // divn_small ?addn0 // modnMDl modn_small //.
  rewrite (insubT (fun i => i < n)%nat (ltn_ord i)) (insubT (fun i => i < n)%nat (ltn_ord j)).
  by congr (rat_of (N _ _)); exact: val_inj.
Qed.

Lemma power_ratio (a b : Z) : b != 0 ->
  (a = 0 \/ exists2 k, (0 <= k <= K)%Z & Z.abs a = (2 ^ k)%Z) ->
  (b = 0 \/ exists2 k, (0 <= k <= K)%Z & Z.abs b = (2 ^ k)%Z) -> goodp (rat_of a / rat_of b).
Proof.
move=> b0 ha [e|[j hj bj]]; first by rewrite e eqxx in b0.
have b0' : b <> Z0 by apply/eqP.
exists (IZR a / IZR b)%R; first by exists a, b.
have sgn (c : Z) l : (0 <= l)%Z -> Z.abs c = (2 ^ l)%Z -> exists2 s, (Z.abs s = 1)%Z & IZR c = (IZR s * bpow radix2 l)%R.
  move=> l0 e; exists (Z.sgn c); last by rewrite bpow_2 // -mult_IZR -e Z.mul_comm Z.abs_sgn.
  by have := Z.pow_pos_nonneg 2 l; case: c e => //= *; lia.
have [t ht eb] := sgn b j ltac:(lia) bj.
case: ha => [->|[i hi ai]].
  exists Z0, Z0; split=> //; first lia.
  by rewrite /Rdiv !Rmult_0_l.
have [s hs ea] := sgn a i ltac:(lia) ai.
exists (s * t)%Z, (i - j)%Z; split; [by rewrite Z.abs_mul; nia|lia|].
rewrite ea eb mult_IZR /Zminus bpow_plus bpow_opp.
have p := bpow_gt_0 radix2 j.
have [->|->] : t = 1%Z \/ t = (-1)%Z by lia.
  by field; lra.
by field; lra.
Qed.
Lemma ratio_power q : ratio (NF : 'I_n -> 'I_n -> QF) q -> goodp q.
Proof.
have e m (f g : 'I_m -> 'I_n) : FitSpec.sub f g NF = map_mx phi (FitSpec.sub f g N).
  by apply/matrixP => a b; rewrite !mxE.
move=> [m [f [g [m' [f' [g' [-> d0 _ _]]]]]]]; rewrite !e !det_map_mx in d0 *.
rewrite phi0 in d0; apply: power_ratio => //; exact: hN.
Qed.
Lemma aug_power m (f : 'I_m -> 'I_n) (g : 'I_m -> 'I_n + 'I_n) : injective f ->
  let d := \det (FitSpec.sub f g (zaug N)) in
  d = 0 \/ exists2 k, (0 <= k <= K)%Z & Z.abs d = (2 ^ k)%Z.
Proof.
move=> fi /=; case: (zaug_minor N g fi) => [->|[m' [f' [g' [b ->]]]]]; first by left.
case: (hN f' g') => [->|[k hk e]]; first by left; rewrite mulr0.
by right; exists k => //; rewrite sign_abs.
Qed.
Lemma ratio_aug_power q : ratio (aug NF 1%:M) q -> goodp q.
Proof.
have e m (f : 'I_m -> 'I_n) g : FitSpec.sub f g (aug NF 1%:M) = map_mx phi (FitSpec.sub f g (zaug N)).
  by apply/matrixP => a b; rewrite !mxE; case: (g b) => c /=; rewrite !mxE ?rmorph_nat.
move=> [m [f [g [m' [f' [g' [-> d0 fi fi']]]]]]]; rewrite !e !det_map_mx in d0 *.
rewrite phi0 in d0; apply: power_ratio => //; exact: aug_power.
Qed.

Lemma power_determinant : exists2 x, returns (determinant A n v) x &
  is_int x ((-1) ^+ exchanges NF * \det N).
Proof.
have h1 := determinant_sign (exact_field_ok cfg prec_gt_0 prec_lt_emax) hcfg entries_denote.
have [x [r _]] := ensures_False (fit_determinant (fit_powers K_pos) ratio_power entries_denote).
have := ensures_value h1 r; rewrite (det_map_mx phi) -(rmorph1 phi) -rmorphN -rmorphX -rmorphM.
move=> [fx hx]; exists x; last first.
  by split=> //; apply/(same_unique hx (same_int _)).
have [_ h] := exact_field prec_gt_0 prec_lt_emax (stricter_refl cfg) (on_reals _).
have Qv : in_vec (fun _ : F => True) v by elim: (v).
by have [] := h n v Qv x r.
Qed.

Lemma power_inverse :
  if \det N == 0 then returns (try_inv (MatrixRing cfg A n) v) None
  else exists2 u, returns (try_inv (MatrixRing cfg A n) v) (Some u) &
    size u = (n * n)%nat /\ forall i j : 'I_n,
      float_is (nth (B754_zero false) u (i * n + j)) (IZR ((\adj N) i j) / IZR (\det N))%R.
Proof.
have h1 := mat_try_inv (exact_field_ok cfg prec_gt_0 prec_lt_emax) hcfg entries_denote.
have [o [r _]] := ensures_False (fit_try_inv cfg (fit_powers K_pos) ratio_aug_power entries_denote).
have Qv : in_vec (fun _ : F => True) v by elim: (v).
have hr := exact_ring_on prec_gt_0 prec_lt_emax (stricter_refl cfg)
  (on_MatrixRing n (isT : true) (on_reals (fun _ : F => True))).
have [r' _] := try_inv_rel (mo_monoid_rel (ri_monoid_alg_rel hr)) Qv o r.
have := ensures_value h1 r; case: o r r' => [u|] r r' h.
  case: h => T uT [NT TN].
  have dT : phi (\det N) * \det T = 1 by rewrite -det_map_mx -det_mulmx NT det1.
  have d0 : \det N != 0.
    by apply/eqP => e; move/eqP: dT; rewrite e rmorph0 mul0r eq_sym oner_eq0.
  rewrite (negbTE d0); exists u => //; have [s [us ss sE]] := uT.
  split; first by rewrite (reps_size us) ss.
  move=> i j; have kn : (i * n + j < n * n)%nat by have := ltn_ord i; have := ltn_ord j; nia.
  have := reps_nth (B754_zero false) (0 : QF) us (i := (i * n + j)%nat); rewrite ss -sE => /(_ kn).
  move=> [fx hx]; split=> //.
  have e : phi (\det N) *: T = map_mx phi (\adj N).
    by rewrite map_mx_adj -[RHS]mulmx1 -NT mulmxA mul_adj_mx mul_scalar_mx det_map_mx.
  have e1 := congr1 (fun Y : 'M__ => Y i j) e; rewrite [LHS]mxE [RHS]mxE in e1.
  have d0' : \det N <> Z0 by apply/eqP.
  apply/(same_unique hx (q' := rat_of ((\adj N) i j) / rat_of (\det N))).
    by exists ((\adj N) i j), (\det N).
  apply: (canRL (mulfK (rat_of_neq0 d0'))); rewrite mulrC; exact: e1.
case: eqP => [//|/eqP d0]; exfalso.
have u : NF \in unitmx by rewrite unitmxE (det_map_mx phi) unitfE phi0.
by apply: (h (invmx NF)); split; [exact: mulmxV|exact: mulVmx].
Qed.
End Matrices.
End Powers.
