(** * PSqf.v -- derivatives and repeated factors. *)

From Coq Require Import ZArith Lia List.
From mathcomp Require Import all_ssreflect all_fingroup all_solvable all_algebra all_field ssrZ zify.
From Verif Require Import Rust Traits MInts MConstr Wp Spec PropSpec RingSpec PDefaults Quotient.
From Verif Require Import RingTac PPoly PQuot TowerSpec PTower PCount3 FFSpec PFF IrrSpec PIrr PIrr2 HomLaw PHom Laws PLaws SqfSpec.

Set Implicit Arguments.
Unset Strict Implicit.
Unset Printing Implicit Defensive.

Import GRing.Theory.
Local Open Scope ring_scope.

(** Over a finite field a polynomial with derivative zero is a power. *)
Section Perfect.
Variables (F : fieldType) (s : seq F) (us : uniq s) (hs : forall u, u \in s).

Lemma deriv0_power (U : {poly F}) : U^`() = 0 ->
  exists r (W : {poly F}), (1 < r)%N /\ U = W ^+ r.
Proof.
move=> dU; have [r [d [pr rF d0 kE]]] := char_card us hs.
have rp : r \in [char {poly F}] by exact: (rmorph_char (polyC_rmorphism F) rF).
pose root a := a ^+ (r ^ d.-1) : F.
have rootE a : root a ^+ r = a.
  by rewrite /root -exprM -expnSr prednK // -kE (fermat us hs).
have cU i : ~~ (r %| i)%N -> U`_i = 0.
  case: i => [|i]; first by rewrite dvdn0.
  move=> ri; have := coef_deriv U i; rewrite dU coef0 => /esym /eqP.
  rewrite -mulr_natr mulf_eq0 => /orP[/eqP //|]; rewrite -(dvdn_charf rF) => h.
  by rewrite h in ri.
exists r, (\sum_(i < size U) (root U`_(i * r))%:P * 'X^i); split; first exact: prime_gt1.
rewrite -(Frobenius_autE rp) rmorph_sum /=.
under eq_bigr => i _ do rewrite rmorphM /= !Frobenius_autE -polyC_exp rootE -exprM.
apply/polyP => j; rewrite coef_sum.
under eq_bigr => i _ do rewrite coefCM coefXn.
have [rj|rj] := boolP (r %| j)%N; last first.
  rewrite cU // big1 // => i _; case: eqP => [jE|]; rewrite ?mulr0 //.
  by move: rj; rewrite jE dvdn_mull.
have jE := divnK rj; have r0 := prime_gt0 pr.
have [ju|ju] := ltnP j (size U); last first.
  rewrite nth_default // big1 // => i _; case: eqP => [iE|]; rewrite ?mulr0 //.
  by rewrite nth_default ?mul0r // -iE.
have iu : (j %/ r < size U)%N by apply: leq_ltn_trans ju; exact: leq_div.
rewrite (bigD1 (Ordinal iu)) //= jE eqxx mulr1 big1 ?addr0 // => i iN.
case: eqP => [iE|]; rewrite ?mulr0 //; case/eqP: iN; apply: val_inj => /=.
by rewrite iE mulnK.
Qed.

End Perfect.

(** Where this holds, common factors with the derivative are the repeated factors. *)
Section Repeated.
Variable F : fieldType.
Hypothesis perf : forall U : {poly F}, U^`() = 0 -> (1 < size U)%N ->
  exists r (W : {poly F}), (1 < r)%N /\ U = W ^+ r.

Lemma squarefreeP (P : {poly F}) : coprimep P P^`() <->
  (forall W : {poly F}, (1 < size W)%N -> ~~ (W * W %| P)).
Proof.
split=> [h W W1|h].
  have /separable_polyP[sq _] : separable_poly P by [].
  apply/negP => /sq; rewrite coprimepp => /eqP sW; by rewrite sW in W1.
have : separable_poly P; last by [].
apply/separable_polyP; split=> [U V uv|U UP U1]; last first.
  apply/negP => /eqP dU; have [r [W [r1 UE]]] := perf dU U1.
  have W1 : (1 < size W)%N.
    rewrite ltnNge; apply/negP => sW; move: U1; rewrite UE ltnNge; case/negP.
    by rewrite [W]size1_polyC // -polyC_exp size_polyC_leq1.
  have := h _ W1; rewrite (dvdp_trans _ UP) // UE -expr2.
  by rewrite -(subnK r1) exprD dvdp_mull.
have [//|ncop] := boolP (coprimep U V).
pose D := gcdp U V; have DD : D * D %| P.
  by apply: dvdp_trans uv; apply: dvdp_mul; [exact: dvdp_gcdl|exact: dvdp_gcdr].
have [D0|D0] := eqVneq D 0.
  move: DD; rewrite D0 mul0r dvd0p => /eqP P0.
  by have := h 'X; rewrite size_polyX P0 dvdp0 => /(_ isT).
have D1 : (1 < size D)%N.
  by rewrite ltn_neqAle eq_sym ncop lt0n size_poly_eq0.
by have := h _ D1; rewrite DD.
Qed.
End Repeated.

Lemma perfect_finite (F : fieldType) (s : seq F) : uniq s -> (forall u, u \in s) ->
  forall U : {poly F}, U^`() = 0 -> (1 < size U)%N -> exists r (W : {poly F}), (1 < r)%N /\ U = W ^+ r.
Proof. by move=> us hs U dU _; exact: (deriv0_power us hs dU). Qed.
Lemma perfect_char0 (F : fieldType) : [char F] =i pred0 ->
  forall U : {poly F}, U^`() = 0 -> (1 < size U)%N -> exists r (W : {poly F}), (1 < r)%N /\ U = W ^+ r.
Proof.
move=> c0 U dU U1; have := coef_deriv U (size U).-2; rewrite dU coef0 => /esym /eqP.
have -> : (size U).-2.+1 = (size U).-1 by case: (size U) U1 => [|[|n]].
rewrite -mulr_natr mulf_eq0 => /orP[|].
  by rewrite -lead_coefE lead_coef_eq0 -size_poly_eq0; case: size U1.
by move/charf0P: c0 => ->; case: (size U) U1 => [|[|n]].
Qed.

Section Programs.
Variables (cfg : Cfg) (p : Prop) (E : Type) (F : fieldType) (rep : E -> F -> Prop) (A : FieldAlg E).
Hypothesis hA : field_alg_spec cfg p rep A.
Local Notation R := (poly_idomainType F).
Local Notation ring := (PolyEucl A).
Let hE := PolyEucl_ok hA.
Let hR := id_ring_ok (eu_idom_ok hE).
Let hr := id_ring_ok (eu_idom_ok (fi_eucl_ok hA)).

Lemma derive_loop_ok x v (P : {poly F}) s : poly_of rep x 'X -> Forall2 rep v s -> P = Poly s ->
  ensures p (derive_loop A x v) (fun dp => poly_of rep dp.1 P^`() /\ poly_of rep dp.2 P).
Proof.
move=> xX h; elim: h P => [|a b {}v {}s ab vs IH] P -> /=.
  rewrite linear0.
  apply: ensures_bind (zero_ok (ri_cm_ok hR)) _ => d dE.
  apply: ensures_bind (zero_ok (ri_cm_ok hR)) _ => q qE.
  by apply: ensures_ret; split.
apply: ensures_bind (IH _ erefl) _ => -[d q] /= [dE qE].
apply: ensures_bind (to_constant_ok hr ab) _ => c cE.
apply: ensures_bind (mul_ok (mo_sg_ok (ri_mon_ok hR)) dE xX) _ => y yE.
apply: ensures_bind (add_ok (ri_cm_ok hR) yE qE) _ => d' d'E.
apply: ensures_bind (mul_ok (mo_sg_ok (ri_mon_ok hR)) qE xX) _ => t tE.
apply: ensures_bind (add_ok (ri_cm_ok hR) tE cE) _ => q' q'E.
apply: ensures_ret; rewrite cons_poly_def /=; split; last exact: q'E.
by rewrite derivD derivC addr0 derivM derivX mulr1.
Qed.

Lemma derivative_ok v (P : {poly F}) : poly_of rep v P ->
  gives p (poly_of rep) (derivative A v) P^`().
Proof.
move=> vP; apply: ensures_bind (zero_ok (ri_cm_ok hr)) _ => o oE.
apply: ensures_bind (one_ok (mo_mo_ok (ri_mon_ok hr))) _ => l lE.
have xX : poly_of rep [:: o; l] ('X : {poly F}).
  by rewrite /poly_of polyseqX; repeat constructor.
apply: ensures_bind (derive_loop_ok xX vP (esym (polyseqK P))) _ => dp [dE _].
exact: ensures_ret.
Qed.

Lemma squarefree_coprime v (P : {poly F}) : poly_of rep v P ->
  decides p (squarefree_test A v) (coprimep P P^`()).
Proof.
move=> vP; apply: ensures_bind (derivative_ok vP) _ => d dE.
apply: ensures_mono (relative_primes_ok (eu_eu_ok hE) vP dE) _ => b h.
exact: iff_trans h (coprime_coprimep _ _).
Qed.

Lemma derivative_product v (P : {poly F}) w (Q : {poly F}) : poly_of rep v P -> poly_of rep w Q ->
  holds p (same ring (let! a := mul ring v w in derivative A a)
    (let! d := derivative A v in let! e := derivative A w in
     let! s := mul ring d w in let! t := mul ring v e in add ring s t)).
Proof.
move=> vP wQ; apply: (same_eq (mo_dom_ok (ri_mon_ok hR)) (u := (P * Q)^`() : R) (v := P^`() * Q + P * Q^`())) => //.
- apply: ensures_bind (mul_ok (mo_sg_ok (ri_mon_ok hR)) vP wQ) _ => a aE.
  exact: derivative_ok aE.
- apply: ensures_bind (derivative_ok vP) _ => d dE.
  apply: ensures_bind (derivative_ok wQ) _ => e eE.
  apply: ensures_bind (mul_ok (mo_sg_ok (ri_mon_ok hR)) dE wQ) _ => s sE.
  apply: ensures_bind (mul_ok (mo_sg_ok (ri_mon_ok hR)) vP eE) _ => t tE.
  by have := add_ok (ri_cm_ok hR) sE tE.
- exact: derivM.
Qed.

Definition no_square (v : seq E) : Prop := forall w, (exists W : {poly F}, poly_of rep w W) -> (1 < size w)%N ->
  answers p (let! s := mul ring w w in divisible ring v s) false.

Lemma square_divides v (P : {poly F}) w (W : {poly F}) : poly_of rep v P -> poly_of rep w W ->
  decides p (let! s := mul ring w w in divisible ring v s) (W * W %| P).
Proof.
move=> vP wW; apply: ensures_bind (mul_ok (mo_sg_ok (ri_mon_ok hR)) wW wW) _ => s sE.
apply: ensures_mono (divisible_ok (id_id_ok (eu_idom_ok hE)) vP sE) _ => b h; apply: iff_trans h _.
by split=> [[q ->]|/dvdpP[q ->]]; [exact: dvdp_mull|exists q].
Qed.

Lemma squarefree_true v (P : {poly F}) : poly_of rep v P ->
  returns (squarefree_test A v) true -> no_square v.
Proof.
move=> vP ht w [W wW] w1; have h := (ensures_value (squarefree_coprime vP) ht).1 isT.
have /separable_polyP[sq _] : separable_poly P by [].
apply: ensures_mono (square_divides vP wW) _ => b [hb _].
apply/negP => /hb /sq; rewrite coprimepp -(reps_size wW) => /eqP sW; by rewrite sW in w1.
Qed.
End Programs.

Section Decide.
Variables (cfg : Cfg) (E : Type) (F : fieldType) (rep : E -> F -> Prop) (A : FieldAlg E).
Hypothesis hA : field_alg_spec cfg False rep A.
Hypothesis perf : forall U : {poly F}, U^`() = 0 -> (1 < size U)%N ->
  exists r (W : {poly F}), (1 < r)%N /\ U = W ^+ r.
Hypothesis surj : forall W : {poly F}, exists w, poly_of rep w W.

Lemma squarefree_decides v (P : {poly F}) : poly_of rep v P ->
  decides False (squarefree_test A v) (no_square False rep A v).
Proof.
move=> vP; have h := squarefree_coprime hA vP.
have [[b [rb hb]]|[[]]] := h; left; exists b; split=> //; split=> [bt|ns].
  by apply: squarefree_true hA _ _ vP _; rewrite bt in rb.
apply/hb/(squarefreeP perf) => W W1; have [w wW] := surj W.
have w1 : (1 < size w)%N by rewrite (reps_size wW).
have [[c [rc cE]]|[[]]] := ns w (ex_intro _ W wW) w1.
have [_ hc] := ensures_value (square_divides hA vP wW) rc.
by apply/negP => /hc; rewrite cE.
Qed.
End Decide.
