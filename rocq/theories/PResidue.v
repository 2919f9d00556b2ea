(** * PResidue.v -- residues of polynomials in coordinates. *)

From Coq Require Import ZArith Lia List.
From mathcomp Require Import all_ssreflect all_algebra zify ssrZ.
From Verif Require Import Rust Traits MInts MConstr RingTac Wp Spec PropSpec RingSpec PDefaults.
From Verif Require Import PInts POrders Quotient PQuot PPoly PTower Laws PLaws GcdLaw PGcdLaw HomLaw PHom EvalLaw.
From Verif Require Import ArgSpec PArgs PEval PFrac PCases ResidueSpec.

Set Implicit Arguments.
Unset Strict Implicit.
Unset Printing Implicit Defensive.

Import GRing.Theory.
Local Open Scope ring_scope.

Section Poly.
Variable F : fieldType.
Implicit Types P Q R m : {poly F}.

Lemma small_mod m R Q P : (size R < size m)%N -> P = Q * m + R -> P %% m = R.
Proof. by move=> h ->; rewrite modp_addl_mul_small. Qed.

Lemma size_line a b : (size (line a b : {poly F}) <= 2)%N.
Proof.
rewrite (leq_trans (size_add _ _)) // geq_max (leq_trans (size_polyC_leq1 _)) //.
by rewrite (leq_trans (size_mul_leq _ _)) // size_polyX addn2 /= ltnS size_polyC_leq1.
Qed.

(** Modulo x^n *)
Lemma mod_Xn n P : P %% 'X^n = \poly_(k < n) P`_k.
Proof.
apply: (@small_mod _ _ (\poly_(k < size P - n) P`_(k + n))).
  by rewrite size_polyXn ltnS size_poly.
apply/polyP => k; rewrite coefD coefMXn !coef_poly; case: ltnP => h; first by rewrite add0r.
rewrite subnK // addr0; case: ltnP => // h2; apply: nth_default.
by move: h2; rewrite leq_subLR subnKC.
Qed.

(** Modulo x^n - 1 *)
Lemma size_Xn1 n : (0 < n)%N -> size ('X^n - 1 : {poly F}) = n.+1.
Proof. by move=> n0; rewrite size_Xn_sub_1. Qed.
Lemma mod_cyclic n P Q : (0 < n)%N -> (size P <= n)%N -> (size Q <= n)%N ->
  (P * Q) %% ('X^n - 1) = \poly_(k < n) \sum_(i < n) P`_i * Q`_((k + (n - i)) %% n).
Proof.
move=> n0 sP sQ.
apply: (@small_mod _ _ (\poly_(k < n) (P * Q)`_(k + n))).
  by rewrite size_Xn1 // ltnS size_poly.
have sPQ k : (n + n <= k)%N -> (P * Q)`_k = 0.
  move=> h; apply: nth_default; apply: leq_trans (size_mul_leq _ _) _.
  apply: leq_trans (leq_pred _) _; apply: leq_trans h; exact: leq_add.
have cE k : (k < n)%N -> \sum_(i < n) P`_i * Q`_((k + (n - i)) %% n) = (P * Q)`_k + (P * Q)`_(k + n).
  move=> kn; rewrite !coefM.
  have e1 : \sum_(j < k.+1) P`_j * Q`_(k - j) = \sum_(i < n | (i <= k)%N) P`_i * Q`_(k - i).
    rewrite (big_ord_widen n (fun j => P`_j * Q`_(k - j))) //.
  have e2 : \sum_(j < (k + n).+1) P`_j * Q`_(k + n - j) =
      \sum_(i < n | ~~ (i <= k)%N) P`_i * Q`_(k + n - i).
    rewrite -(big_mkord xpredT (fun j => P`_j * Q`_(k + n - j))).
    rewrite (@big_cat_nat _ _ _ n) //=; last by rewrite leqW // leq_addl.
    rewrite [X in _ + X]big_nat [X in _ + X]big1 ?addr0; last first.
      by move=> i /andP[h _]; rewrite (nth_default _ (leq_trans sP h)) mul0r.
    rewrite (@big_cat_nat _ _ _ k.+1) //=.
    rewrite [X in X + _]big_nat [X in X + _]big1 ?add0r; last first.
      move=> i /andP[_ h]; rewrite (@nth_default _ 0 Q) ?mulr0 //.
      apply: leq_trans sQ _; rewrite addnC -addnBA ?leq_addr //.
    rewrite -(big_mkord (fun i => ~~ (i <= k)%N) (fun i => P`_i * Q`_(k + n - i))).
    rewrite [RHS](@big_cat_nat _ _ _ k.+1) //=.
    rewrite [X in _ = X + _]big_nat_cond [X in _ = X + _]big_pred0 ?add0r; last first.
      by move=> i; lia.
    rewrite big_nat_cond [RHS]big_nat_cond; apply: eq_bigl => i.
    by lia.
  rewrite e1 e2 (bigID (fun i : 'I_n => (i <= k)%N)) /=; congr (_ + _); apply: eq_bigr => i h.
    congr (_ * Q`_ _); rewrite addnBA ?(ltnW (ltn_ord i)) // addnC -addnBA //.
    by rewrite modnDl modn_small // (leq_ltn_trans (leq_subr _ _)).
  congr (_ * Q`_ _); rewrite addnBA ?(ltnW (ltn_ord i)) // modn_small //.
  by have := ltn_ord i; move: h; lia.
apply/polyP => k; rewrite mulrBr mulr1 coefD coefB coefMXn !coef_poly.
case: (ltnP k n) => h; first by rewrite cE // add0r addrCA addNr addr0.
rewrite subnK // subr0 addr0; case: ltnP => // h2.
by apply: sPQ; rewrite -leq_subRL.
Qed.

(** Modulo x^2 + s x + t *)
Lemma size_quad (s t : F) : size (quad s t : {poly F}) = 3%N.
Proof.
rewrite /quad -addrA size_addl ?size_polyXn // ltnS addrC; exact: size_line.
Qed.
Lemma quad_mul (s t a b c d : F) : (line a b * line c d) %% quad s t =
  line (a * c - t * (b * d)) (a * d + b * c - s * (b * d)).
Proof.
apply: (@small_mod _ _ (b * d)%:P); first by rewrite size_quad ltnS size_line.
rewrite /line /quad !polyCB !polyCD !polyCM; set X := 'X; set Y := 'X^2.
have -> : Y = X * X by rewrite /Y expr2.
by move: (X) => x; cring.
Qed.

(** ** Congruences *)
Variable m : {poly F}.
Lemma congE P Q : congruent (m : poly_idomainType F) P Q <-> P %% m = Q %% m.
Proof.
split=> [[c e]|e].
  have -> : Q = P + c * m by rewrite -[c * m]e addrC subrK.
  by rewrite modpD modp_mull addr0.
have /dvdpP[c h] : m %| Q - P by rewrite /dvdp modpD modpN e subrr.
by exists c.
Qed.
Lemma inverse_uniq P Q R : congruent (m : poly_idomainType F) (P * Q) 1 ->
  congruent (m : poly_idomainType F) (P * R) 1 -> Q %% m = R %% m.
Proof.
move=> [c h1] [d h2]; apply/congE; exists (R * c - Q * d).
rewrite mulrBl -!mulrA -[c * _]h1 -[d * _]h2; move: P Q R {h1 h2}; rewrite /= => P Q R; cring.
Qed.
End Poly.

Section Field.
Variables (cfg : Cfg) (p : Prop) (E : Type) (F : fieldType) (rep : E -> F -> Prop).
Variable A : FieldAlg E.
Hypothesis hA : field_alg_spec cfg p rep A.
Let hP := @PolyEucl_ok cfg p E F rep A hA.
Let hR := id_ring_ok (eu_idom_ok (fi_eucl_ok hA)).
Variables (m : {poly F}) (modulo : seq E).
Hypotheses (sm : (1 < size m)%N) (hm : poly_of rep modulo m).
Let m0 : (m : poly_idomainType F) != 0.
Proof. by rewrite -size_poly_eq0 -lt0n ltnW. Qed.
Let mu : (m : poly_idomainType F) \isn't a GRing.unit.
Proof. by rewrite poly_unitE gtn_eqF. Qed.
Local Notation computes c P := (ensures p c (fun z => poly_of rep z P)).
Let qr := QuotientRing cfg (PolyEucl A) modulo.
Let qf := QuotientField cfg (PolyEucl A) modulo.

Lemma gives_modp c P : mod_gives p (poly_estruct F) (m : poly_idomainType F) (poly_of rep) c P ->
  computes c (P %% m).
Proof.
move=> h; apply: ensures_mono h _ => z [Q [zQ e] /congE <-].
by have <- : Q = Q %% m by rewrite -{1}e.
Qed.
Let args_r := quotient_ring_any hP m0 mu hm.
Let args_f := quotient_field_args_any hP m0 mu hm.

Lemma ring_mul x P y Q : poly_of rep x P -> poly_of rep y Q -> computes (mul qr x y) ((P * Q) %% m).
Proof. by move=> xP yQ; have [[_ _ h] _] := args_r.1 _ _ _ _ xP yQ; exact: gives_modp. Qed.
Lemma ring_add x P y Q : poly_of rep x P -> poly_of rep y Q -> computes (add qr x y) ((P + Q) %% m).
Proof. by move=> xP yQ; have [[h _ _] _] := args_r.1 _ _ _ _ xP yQ; exact: gives_modp. Qed.
Lemma field_mul x P y Q : poly_of rep x P -> poly_of rep y Q -> computes (mul qf x y) ((P * Q) %% m).
Proof. by move=> xP yQ; have [[_ _ h] _] := args_f.1 _ _ _ _ xP yQ; exact: gives_modp. Qed.

Lemma ring_try_inv x P : poly_of rep x P -> ensures p (try_inv qr x) (fun o =>
  if o is Some y then inverse_mod (poly_estruct F) (m : poly_idomainType F) (poly_of rep) P y
  else ~ has_inverse (m : poly_idomainType F) P).
Proof. by move=> xP; have [h _] := args_r.2 _ _ xP. Qed.
Lemma inverse_value P Q : congruent (m : poly_idomainType F) (P * Q) 1 -> forall y,
  inverse_mod (poly_estruct F) (m : poly_idomainType F) (poly_of rep) P y ->
  poly_of rep y (Q %% m).
Proof.
move=> h y [R [yR e] hR']; rewrite (inverse_uniq h hR').
by have <- : R = R %% m by rewrite -{1}e.
Qed.
Lemma field_inv x P Q : poly_of rep x P -> congruent (m : poly_idomainType F) (P * Q) 1 ->
  computes (finv qf x) (Q %% m).
Proof.
move=> xP h; have hi : has_inverse (m : poly_idomainType F) P by exists Q.
have [h1 _] := args_f.2 _ _ _ _ xP xP.
apply: ensures_mono (h1 hi) _ => y; exact: inverse_value.
Qed.
Lemma field_panic x P : poly_of rep x P -> ~ has_inverse (m : poly_idomainType F) P ->
  panics (finv qf x).
Proof. by move=> xP h; have [_ [h1 _]] := args_f.2 _ _ _ _ xP xP; exact: h1. Qed.
Lemma field_div x P y Q R : poly_of rep x P -> poly_of rep y Q ->
  congruent (m : poly_idomainType F) (Q * R) 1 -> computes (fdiv qf x y) ((P * (R %% m)) %% m).
Proof.
move=> xP yQ h; apply: ensures_bind (field_inv yQ h) _ => z zR; exact: field_mul.
Qed.
Lemma field_div_panic x P y Q : poly_of rep x P -> poly_of rep y Q ->
  ~ has_inverse (m : poly_idomainType F) Q -> panics (fdiv qf x y).
Proof. by move=> xP yQ h; apply: panics_bind; exact: field_panic yQ h. Qed.
End Field.

(** ** Quadratic extensions *)
Section Quadratic.
Variables (cfg : Cfg) (p : Prop) (E : Type) (F : fieldType) (rep : E -> F -> Prop).
Variable A : FieldAlg E.
Hypothesis hA : field_alg_spec cfg p rep A.
Variables (s t : F) (modulo : seq E).
Hypothesis hm : poly_of rep modulo (quad s t).
Let sm : (1 < size (quad s t))%N. Proof. by rewrite size_quad. Qed.
Local Notation N := (quad_norm s t).
Local Notation cong := (congruent (quad s t : poly_idomainType F)).

Lemma line_small a b : line a b %% quad s t = line a b.
Proof. by apply: modp_small; rewrite size_quad ltnS size_line. Qed.
Lemma line1 : line 1 0 = 1 :> {poly F}. Proof. by rewrite /line mul0r addr0. Qed.
Lemma line0 : line 0 0 = 0 :> {poly F}. Proof. by rewrite /line mul0r addr0. Qed.
Lemma line_inj a b c d : line a b = line c d :> {poly F} -> a = c /\ b = d.
Proof.
move=> e; split.
  by have := congr1 (fun P : {poly F} => P`_0) e; rewrite /line !coefD !coefC !coefMX /= !addr0.
by have := congr1 (fun P : {poly F} => P`_1) e; rewrite /line !coefD !coefC !coefMX /= !add0r !coefC.
Qed.

Lemma quad_conj a b : (line a b * line (a - s * b) (- b)) %% quad s t = line (N a b) 0.
Proof. rewrite quad_mul /quad_norm; congr line; cring. Qed.
Lemma quad_inverse a b : N a b <> 0 ->
  cong (line a b * line ((a - s * b) / N a b) (- b / N a b)) 1.
Proof.
move=> /eqP n0; apply/congE; rewrite quad_mul -line1 line_small; congr line.
  have -> : a * ((a - s * b) / N a b) - t * (b * (- b / N a b)) = N a b / N a b.
    by rewrite {3}/quad_norm; move: (_^-1) => i; cring.
  exact: divff.
by move: (_^-1) => i; cring.
Qed.
Lemma quad_no_inverse a b : N a b = 0 -> ~ has_inverse (quad s t : poly_idomainType F) (line a b).
Proof.
move=> n0 [Q /congE h].
have e : line (a - s * b) (- b) = 0 :> {poly F}.
  rewrite -line_small -[line _ _]mulr1 -modp_mul -h modp_mul.
  have -> (U V W : {poly F}) : U * (V * W) = W * (V * U) by cring.
  by rewrite -modp_mul quad_conj n0 line0 mulr0 mod0p.
have [h1 h2] := line_inj (etrans e (esym line0)).
have b0 : b = 0 by rewrite -[b]opprK h2 oppr0.
have a0 : a = 0 by rewrite -h1 b0 mulr0 subr0.
move: h; rewrite a0 b0 line0 mul0r mod0p -line1 line_small => /esym.
by rewrite -line0 => /line_inj[/eqP]; rewrite oner_eq0.
Qed.

Lemma quadratic_ring_ok : quadratic_ring_laws p rep s t (QuotientRing cfg (PolyEucl A) modulo).
Proof.
split=> [x a b y c d xa yc|x a b xa]; first by rewrite -quad_mul; exact: ring_mul.
have h := ring_try_inv hA sm hm xa; apply: ensures_mono h _ => -[z hi|hi].
  have n0 : N a b <> 0 by move/quad_no_inverse; case; case: hi => Q _ e; exists Q.
  by split=> //; have := inverse_value (quad_inverse n0) hi; rewrite line_small.
by apply/eqP; apply/negP => /negP/eqP n0; apply: hi; exists (line ((a - s * b) / N a b) (- b / N a b));
  exact: quad_inverse.
Qed.

Lemma quadratic_ok : quadratic_laws p rep s t (QuotientField cfg (PolyEucl A) modulo).
Proof.
split=> [x a b y c d xa yc|x a b xa n0|x a b xa n0|x a b y c d xa yc n0|x a b y c d xa yc n0|].
- by rewrite -quad_mul; exact: field_mul.
- by have := field_inv hA sm hm xa (quad_inverse n0); rewrite line_small.
- exact: (field_panic hA sm hm xa (quad_no_inverse n0)).
- have := field_div hA sm hm xa yc (quad_inverse n0); rewrite line_small quad_mul.
  set u := line _ _; set v := line _ _; suff -> : u = v by [].
  by rewrite /u /v; congr line; move: (_^-1) => i; cring.
- exact: (field_div_panic hA sm hm xa yc (quad_no_inverse n0)).
move=> hr a b; have [-> |b0] := eqVneq b 0.
  rewrite /quad_norm !mulr0 subr0 addr0 => /eqP; rewrite mulf_eq0 orbb => /eqP.
  by split.
move=> n0; case: (hr (- a / b)).
have -> : - a / b * (- a / b) + s * (- a / b) + t = N a b / b / b.
  have e : b * b^-1 = 1 := mulfV b0.
  apply/eqP; rewrite -subr_eq0; apply/eqP; rewrite /quad_norm; move: (b^-1) e => i e.
  transitivity (s * a * i * (b * i - 1) + t * (1 - b * i * (b * i))); first cring.
  by rewrite e subrr mulr1 subrr !mulr0 addr0.
by rewrite n0 !mul0r.
Qed.
End Quadratic.

(** ** Lists of the moduli *)
Section Lists.
Variables (E : Type) (F : fieldType) (rep : E -> F -> Prop) (z o : E).
Hypotheses (z0 : rep z 0) (o1 : rep o 1).
Lemma zeros_of n : Forall2 rep (nseq n z) (nseq n 0).
Proof. by elim: n => [|n IH]; [exact: Forall2_nil|exact: Forall2_cons]. Qed.
Lemma Xn_of n : poly_of rep (rcons (nseq n z) o) ('X^n).
Proof.
by rewrite /poly_of polyseqXn -!cats1; apply: Forall2_app; [exact: zeros_of|repeat constructor].
Qed.
Lemma quad_of x y s t : rep x t -> rep y s -> poly_of rep [:: x; y; o] (quad s t).
Proof.
move=> xt ys; have -> : quad s t = Poly [:: t; s; 1].
  by rewrite /quad /= !cons_poly_def mul0r add0r polyC1; cring_in [comRingType of {poly F}].
by rewrite /poly_of (@PolyK _ 0) //= ?oner_neq0 //; repeat constructor.
Qed.
Lemma cyclic_of x n : (0 < n)%N -> rep x (- 1) ->
  poly_of rep (x :: rcons (nseq n.-1 z) o) ('X^n - 1).
Proof.
case: n => // n _ x1; have -> : 'X^n.+1 - 1 = Poly (-1 :: rcons (nseq n 0) 1) :> {poly F}.
  rewrite /= cons_poly_def -polyseqXn polyseqK -exprSr polyCN polyC1 //.
rewrite /poly_of (@PolyK _ 0) /= ?last_rcons ?oner_neq0 //; constructor=> //.
by rewrite -!cats1; apply: Forall2_app; [exact: zeros_of|repeat constructor].
Qed.
End Lists.

(** ** Truncated power series *)
Section Series.
Variables (cfg : Cfg) (p : Prop) (E : Type) (F : fieldType) (rep : E -> F -> Prop).
Variable A : FieldAlg E.
Hypothesis hA : field_alg_spec cfg p rep A.
Let hP := @PolyEucl_ok cfg p E F rep A hA.
Variables (n : nat) (modulo : seq E).
Hypotheses (n0 : (0 < n)%N) (hm : poly_of rep modulo 'X^n).
Let sm : (1 < size ('X^n : {poly F}))%N. Proof. by rewrite size_polyXn. Qed.
Let m0 : ('X^n : poly_idomainType F) != 0.
Proof. by rewrite -size_poly_eq0 size_polyXn. Qed.
Let mu : ('X^n : poly_idomainType F) \isn't a GRing.unit.
Proof. by rewrite poly_unitE gtn_eqF. Qed.
Implicit Types P Q : {poly F}.

Lemma series_coef P Q : congruent ('X^n : poly_idomainType F) P Q <->
  forall k, (k < n)%N -> P`_k = Q`_k.
Proof.
rewrite congE !mod_Xn; split=> [/polyP h k kn|h].
  by have := h k; rewrite !coef_poly kn.
by apply/polyP => k; rewrite !coef_poly; case: ifP => // /h.
Qed.
Lemma series_inverse_coef P Q : congruent ('X^n : poly_idomainType F) (P * Q) 1 ->
  P`_0 != 0 /\ Q`_0 = (P`_0)^-1 /\
  forall k, (0 < k < n)%N -> Q`_k = - (\sum_(i < k) P`_(k - i) * Q`_i) / P`_0.
Proof.
move/series_coef => h.
have e0 : P`_0 * Q`_0 = 1 by have := h 0%N n0; rewrite coefM big_ord1 subnn coefC.
have p0 : P`_0 != 0 by apply/eqP => z; move/eqP: e0; rewrite z mul0r eq_sym oner_eq0.
split=> //; split; first by apply: (mulfI p0); rewrite e0 mulfV.
move=> k /andP[k0 kn]; have := h k kn; rewrite coefMr coefC gtn_eqF //.
rewrite big_ord_recr /= subnn => e.
apply: (mulfI p0); rewrite mulrCA mulfV // mulr1.
by apply/eqP; rewrite -addr_eq0 addrC e.
Qed.
Lemma series_has_inverse P : has_inverse ('X^n : poly_idomainType F) P <-> P`_0 <> 0.
Proof.
split=> [[Q /series_inverse_coef[/eqP]] //|/eqP h].
have : coprimep P 'X^n.
  by apply: coprimep_expr; rewrite coprimepX rootE horner_coef0.
case/Bezout_eq1_coprimepP => -[u v] /= e; exists u, v.
by rewrite -e [P * u]mulrC addrC addKr.
Qed.

Lemma series_ok : series_laws p rep n (QuotientRing cfg (PolyEucl A) modulo).
Proof.
have [_ h] := quotient_ring_any hP m0 mu hm.
split=> [x P y Q xP yQ|x P y Q xP yQ|x P xP|x P xP].
- have := ring_add hA sm hm xP yQ; rewrite mod_Xn.
  set U := \poly_(_ < _) _; set V := \poly_(_ < _) _; suff -> : U = V by [].
  by apply: eq_poly => k; rewrite coefD.
- have := ring_mul hA sm hm xP yQ; rewrite mod_Xn.
  set U := \poly_(_ < _) _; set V := \poly_(_ < _) _; suff -> : U = V by [].
  by apply: eq_poly => k; rewrite coefM.
- have [h1 _] := h _ _ xP; apply: ensures_mono h1 _ => -[z [Q [zQ e] hi]|hi]; last first.
    by apply/eqP; apply/negP => /negP/eqP/series_has_inverse.
  have [p0 [q0 qk]] := series_inverse_coef hi; split; first exact/eqP.
  exists Q => //; split=> //; have eQ : Q = Q %% 'X^n by rewrite -{1}e.
  by rewrite -ltnS eQ -[n.+1](size_polyXn F) ltn_modp.
have [_ h2] := h _ _ xP; apply: ensures_mono h2 _ => b [h3 h4].
by split=> [/h3/series_has_inverse|/series_has_inverse/h4].
Qed.

End Series.

Section Cyclic.
Variables (cfg : Cfg) (p : Prop) (E : Type) (F : fieldType) (rep : E -> F -> Prop).
Variable A : FieldAlg E.
Hypothesis hA : field_alg_spec cfg p rep A.
Let hR := id_ring_ok (eu_idom_ok (fi_eucl_ok hA)).

Lemma cyclic_ok n modulo : (0 < n)%N -> poly_of rep modulo ('X^n - 1) ->
  cyclic_law p rep n (QuotientRing cfg (PolyEucl A) modulo).
Proof.
move=> n0 hm x P y Q xP yQ sP sQ; rewrite -mod_cyclic //.
by apply: (ring_mul hA _ hm xP yQ); rewrite size_Xn1.
Qed.

Lemma dual_mul a b c d : (line a b * line c d : {poly F}) %% 'X^2 = line (a * c) (a * d + b * c).
Proof.
apply: (@small_mod _ _ _ (b * d)%:P); first by rewrite size_polyXn ltnS size_line.
rewrite /line !polyCD !polyCM; have -> : 'X^2 = 'X * 'X :> {poly F} by rewrite expr2.
by move: ('X) => X; cring.
Qed.
Lemma dual_value modulo u s x a b : poly_of rep modulo 'X^2 ->
  Forall2 (fun z c => poly_of rep z c%:P) u s -> poly_of rep x (line a b) ->
  ensures p (value (QuotientRing cfg (PolyEucl A) modulo) u x)
    (fun z => poly_of rep z (line (Poly s).[a] ((Poly s)^`().[a] * b))).
Proof.
move=> hm us xa; have sm : (1 < size ('X^2 : {poly F}))%N by rewrite size_polyXn.
elim: us => [|y c u' s' yc _ IH] /=.
  rewrite deriv0 !horner0 mul0r; apply: ensures_ret.
  rewrite /poly_of /line mul0r addr0 polyseq0; exact: Forall2_nil.
apply: ensures_bind IH _ => z hz; apply: ensures_bind (ring_mul hA sm hm hz xa) _ => t ht.
apply: ensures_mono (ring_add hA sm hm ht yc) _ => w; rewrite dual_mul cons_poly_def.
set U := _ %% _; set V := line _ _; suff -> : U = V by [].
rewrite /U modp_small; last first.
  rewrite size_polyXn (leq_ltn_trans (size_add _ _)) // ltnS geq_max size_line.
  exact: leq_trans (size_polyC_leq1 _) _.
have e1 : (Poly s' * 'X + c%:P).[a] = (Poly s').[a] * a + c by rewrite !hornerE.
have e2 : (Poly s' * 'X + c%:P)^`().[a] = (Poly s')^`().[a] * a + (Poly s').[a].
  by rewrite derivD derivM derivX derivC addr0 mulr1 !hornerE.
rewrite /V e1 e2; move: {U V}((Poly s').[a]) ((Poly s')^`().[a]) => h h'.
have : line (h * a) (h * b + h' * b * a) + c%:P = line (h * a + c) ((h' * a + h) * b).
  by rewrite /line !(polyCD, polyCM); cring.
by [].
Qed.
Lemma derivative_ok modulo : poly_of rep modulo 'X^2 ->
  derivative_law p rep A (QuotientRing cfg (PolyEucl A) modulo).
Proof.
move=> hm v P x a b vP xa; have h : ensures p (mapM (to_constant A) v)
    (fun u => Forall2 (fun z c => poly_of rep z c%:P) u P).
  elim: vP => [|c e v' s' ce _ IH]; first by apply: ensures_ret; exact: Forall2_nil.
  apply: ensures_bind (to_constant_ok hR ce) _ => y hy.
  by apply: ensures_bind IH _ => u hu; apply: ensures_ret; exact: Forall2_cons.
by apply: ensures_bind h _ => u hu; have := dual_value hm hu xa; rewrite polyseqK.
Qed.
End Cyclic.

(** Integers as rational numbers. *)
Definition of_int : {rmorphism Z -> {fraction [idomainType of Z]}} :=
  [rmorphism of @FracField.tofrac [idomainType of Z]].
Lemma qq_int (k : Z) : qq_rep (k, Z.one) (of_int k).
Proof.
exists k, 1; split=> //; last by rewrite -[RHS]/(of_int k / of_int 1) rmorph1 divr1.
by split=> //; exists 0, 1; rewrite mul0r mulr1 add0r.
Qed.
Lemma qq_minus1 : qq_rep (Zneg 1, Zpos 1) (- 1).
Proof. by have := qq_int (- 1)%R; rewrite rmorphN rmorph1. Qed.
Lemma qq_minus2 : qq_rep (Zneg 2, Zpos 1) (- (1 + 1)).
Proof. by have := qq_int (- (1 + 1))%R; rewrite rmorphN rmorphD rmorph1. Qed.
Lemma qq_0 : qq_rep (Z0, Zpos 1) 0.
Proof. by have := qq_int 0%R; rewrite rmorph0. Qed.
Lemma qq_1 : qq_rep (Zpos 1, Zpos 1) 1.
Proof. by have := qq_int 1%R; rewrite rmorph1. Qed.
