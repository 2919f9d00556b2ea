(** * PComplex.v -- complex numbers with float components. *)

From Coq Require Import ZArith Reals Lra Lia.
From mathcomp Require Import all_ssreflect.
From Flocq Require Import Core BinarySingleNaN.
From Verif Require Import Rust Traits Wp MConstr MFloats FloatSpec FloatLaw FloatErrSpec ComplexSpec.
From Verif Require Import PFloat PFloat4 PFloatErr PLu2.

Set Implicit Arguments.
Unset Strict Implicit.
Unset Printing Implicit Defensive.

(** ** Running programs that panic exactly when some condition fails *)
Lemma settled_iff (P Q : Prop) T (m : M T) X : (P <-> Q) -> settled P m X -> settled Q m X.
Proof. by move=> e [h1 h2]; split=> h; [apply: h1|apply: h2]; rewrite e. Qed.
Section Settled.
Variables (T U : Type).
Implicit Types (m : M T) (f : T -> M U) (P Q : Prop).

Lemma settled_ret (v : T) (X : T -> Prop) : X v -> settled True (ret v) X.
Proof. by move=> h; split=> // _; exists v => //; exact: returns_ret. Qed.
Lemma settled_panic (X : T -> Prop) : settled False panic X.
Proof. by split=> // _; exact: panics_panic. Qed.
Lemma settled_bind P Q m f (X : T -> Prop) (Y : U -> Prop) : settled P m X ->
  P \/ ~ P -> (forall x, X x -> settled Q (f x) Y) -> settled (P /\ Q) (bind m f) Y.
Proof.
move=> [h1 h2] [p|np] h.
  have [x mx Xx] := h1 p; have [h3 h4] := h x Xx.
  split=> [[_ q]|nq].
    by have [y fy Yy] := h3 q; exists y => //; apply: returns_bind mx fy.
  by apply: panics_bind2 mx _; apply: h4 => q; apply: nq.
split=> [[]//|_]; exact: panics_bind (h2 np).
Qed.
Lemma settled_total Q m f (X : T -> Prop) (Y : U -> Prop) : settled True m X ->
  (forall x, X x -> settled Q (f x) Y) -> settled Q (bind m f) Y.
Proof.
move=> h1 h2; apply: (settled_iff _ (settled_bind h1 (or_introl I) h2)).
by split=> [[]|].
Qed.
Lemma settled_imp P m (X Y : T -> Prop) : (forall v, X v -> Y v) -> settled P m X -> settled P m Y.
Proof. by move=> h [h1 h2]; split=> // p; have [z mz] := h1 p; exists z; auto. Qed.
Lemma settled_eventually P m m' (X : T -> Prop) :
  (exists n, forall k, (n <= k)%N -> m k = m' k) -> settled P m' X -> settled P m X.
Proof.
move=> [n e] [h1 h2]; split=> [p|np].
  have [z [j mz] Xz] := h1 p; exists z => //; exists (maxn n j) => k.
  by rewrite geq_max => /andP[k1 k2]; rewrite e // mz.
have [j mz] := h2 np; exists (maxn n j) => k.
by rewrite geq_max => /andP[k1 k2]; rewrite e // mz.
Qed.
End Settled.
Lemma settled_assoc P T U V (m : M T) (f : T -> M U) (g : U -> M V) X :
  settled P (bind m (fun x => bind (f x) g)) X -> settled P (bind (bind m f) g) X.
Proof.
move=> h; apply: settled_eventually h; exists 0 => k _; rewrite /bind; by case: (m k).
Qed.

Ltac norm := repeat (rewrite ?bind_ret /=; apply: settled_assoc); rewrite ?bind_ret /=.

Section Complex.
Variables (cfg : Cfg) (prec emax : Z).
Context (prec_gt_0 : Prec_gt_0 prec) (prec_lt_emax : Prec_lt_emax prec emax).
Local Notation F := (binary_float prec emax).
Local Notation fexp := (FLT_exp (3 - emax - prec) prec).
Local Notation rnd := (rounded prec emax).
Local Notation over := (overflows prec emax).
Local Notation fits := (fits prec emax).
Variable A : FieldAlg F.
Hypothesis RA : rounding_arithmetic A.
Variable i2 : seq F.
Hypothesis i2P : square_plus_one i2.
Local Notation C := (QuotientField cfg (PolyEucl A) i2).
Implicit Types (v w : seq F) (x y z : F) (a b c d r s : R).
Local Open Scope R_scope.

Lemma fits_dec r : fits r \/ ~ fits r.
Proof. by case: (over_dec prec emax r) => h; [right => n; exact: n|left]. Qed.
Lemma s_rounds (m : M F) r : rounds m r -> settled (fits r) m (fun x => float_is x (rnd r)).
Proof.
move=> [h1 h2]; split=> // n; apply: h2.
by case: (over_dec prec emax r) => // h; case: n.
Qed.
Lemma s_yields (m : M F) r : yields m r -> settled True m (fun x => float_is x r).
Proof. by move=> [x mx xr]; split=> // _; exists x. Qed.
Lemma s_tells (m : M bool) P : tells m P -> settled True m (fun e => e = true <-> P).
Proof. by move=> [b mb e]; split=> // _; exists b. Qed.

Lemma step_rounds (m : M F) r P T (f : F -> M T) X : rounds m r ->
  (forall x, float_is x (rnd r) -> settled P (f x) X) -> settled (fits r /\ P) (bind m f) X.
Proof. by move=> h; apply: settled_bind (s_rounds h) (fits_dec r). Qed.
Lemma step_exact (m : M F) r P T (f : F -> M T) X : rounds m r ->
  generic_format radix2 fexp r -> Rabs r < bpow radix2 emax ->
  (forall x, float_is x r -> settled P (f x) X) -> settled P (bind m f) X.
Proof. by move=> h g l; apply: settled_total (s_yields (exact_yields h g l)). Qed.
Lemma step_yields (m : M F) r P T (f : F -> M T) X : yields m r ->
  (forall x, float_is x r -> settled P (f x) X) -> settled P (bind m f) X.
Proof. by move=> h; apply: settled_total (s_yields h). Qed.
Lemma step_zero x a P T (f : bool -> M T) X : float_is x a ->
  (forall e, (e = true <-> a = 0) -> settled P (f e) X) -> settled P (bind (is_zero A x) f) X.
Proof. by move=> h; apply: settled_total (s_tells (fl_is_zero RA h)). Qed.
(** An operation whose result is the known float [y] is exact. *)
Lemma step_same (m : M F) r y s P T (f : F -> M T) X : rounds m r -> float_is y s -> r = s ->
  (forall x, float_is x s -> settled P (f x) X) -> settled P (bind m f) X.
Proof.
move=> h ys e; rewrite e in h; apply: (step_exact h); last exact: bounded ys.
exact: gf ys.
Qed.

(** ** Reduction modulo x^2 + 1 *)
Local Notation z0 := (B754_zero false : F).

Lemma s_trim v i : (i <= size v)%N -> (forall k, (k < i)%N -> finite (nth z0 v k)) ->
  settled True (poly_trim_index A v i) (fun j =>
    [/\ (j <= i)%N, forall k, (j <= k < i)%N -> B2R (nth z0 v k) = 0 &
        (0 < j)%N -> B2R (nth z0 v j.-1) <> 0]).
Proof.
move=> iv fv; set Y := (fun j => _); have h : ensures False (poly_trim_index A v i) Y.
  pose I j := (j <= i)%N /\ forall k, (j <= k < i)%N -> B2R (nth z0 v k) = 0%R.
  have I0 : I i by split=> // k /andP[h1 h2]; exfalso; lia.
  apply: (@ensures_while _ False _ _ I _ id i I0) => j [ji hj].
  case: ltnP => j0; last by apply: ensures_ret; split=> //; lia.
  have jv : (j - 1 < size v)%N by lia.
  rewrite (vgetE z0 jv) bind_ret.
  have fj : float_is (nth z0 v (j - 1)) (B2R (nth z0 v (j - 1))) by split=> //; apply: fv; lia.
  apply: (tells_true False (fl_is_zero RA fj)) => -[] hb.
    have z : B2R (nth z0 v (j - 1)) = 0%R by exact/hb.
    apply: ensures_ret; split; last by rewrite /=; lia.
    split; first lia; move=> k /andP[k1 k2]; case: (leqP j k) => jk; first by apply: hj; rewrite jk.
    by have -> : k = (j - 1)%N by lia.
  by split=> // _; rewrite -subn1 => z; move/hb: z.
by split=> // _; case: h => [[j [h1 h2]]|[]//]; exists j.
Qed.

Lemma float_inv x a : float_is x a -> B2R x = a. Proof. by case. Qed.

Lemma rem_small v : (size v <= 2)%N -> poly_quo_rem A v i2 = ret ([::], v).
Proof.
move: i2P; case: i2 => [|x [|y [|z []]]] //= _ h.
by rewrite /poly_quo_rem /= bind_ret ltnS h.
Qed.

Lemma rem_three x y z a b c : float_is x a -> float_is y b -> float_is z c ->
  settled (fits (a - c)) (poly_quo_rem A [:: x; y; z] i2)
    (fun qr => complex_is qr.2 (rnd (a - c)) b /\ trimmed qr.2).
Proof.
move: i2P; case: i2 => [|m0 [|m1 [|m2 []]]] //= [h0 [h1 h2]] xa yb zc.
rewrite /poly_quo_rem /= bind_ret.
apply: (step_yields (fl_zero RA)) => zz zz0; norm.
apply: (step_zero h2) => e; case: e => he.
  by exfalso; have := proj1 he erefl; lra.
norm.
apply: (step_same (fl_div RA zc h2 _) zc); [lra|field|] => q qc; norm.
apply: (step_yields (fl_neg RA qc)) => p pc; norm.
apply: (step_same (fl_mul RA h0 pc) pc); [lra|] => r rc; norm.
eapply settled_iff; last first.
  apply: (step_rounds (fl_add RA xa rc)) => x' xa'; norm.
  apply: (step_same (fl_mul RA h1 pc) zz0); [lra|] => r' rc'; norm.
  apply: (step_same (fl_add RA yb rc') yb); [lra|] => y' yb'; norm.
  apply: (settled_total (s_trim (v := [:: x'; y'; z]) (i := 2) _ _)) => //.
    by case=> [|[]] //= _; case: xa'; case: yb'.
  move=> j [j2 hj nj]; apply: settled_ret => /=.
  have e : rnd (a + - c) = rnd (a - c) by congr (rnd _); lra.
  rewrite -e; case: j j2 hj nj => [|[|[]]] // _ hj nj /=.
  - have := hj 0%N erefl; have := hj 1%N erefl; rewrite /= (float_inv xa') (float_inv yb') => -> ->.
    by split.
  - have := hj 1%N erefl; rewrite /= (float_inv yb') => ->; split=> // _ /=; exact: nj.
  - by split=> // _ /=; exact: nj.
rewrite /Rminus; split=> [[h _]|h]; [exact: h|by split; [exact: h|]].
Qed.

(** ** Addition, negation and subtraction *)
Lemma fits0 r : r = 0 -> fits r.
Proof.
move=> ->; rewrite /ComplexSpec.fits /overflows /rounded round_0 Rabs_R0.
by have := bpow_gt_0 radix2 emax; lra.
Qed.
Lemma rnd0 : rnd 0 = 0. Proof. exact: round_0. Qed.
Lemma rnd_is x a : float_is x a -> rnd a = a.
Proof. by move=> h; apply: rnd_gf; apply: gf h. Qed.
Lemma fits_is x a : float_is x a -> fits a.
Proof.
by move=> h; rewrite /ComplexSpec.fits /overflows (rnd_is h); have := bounded h; lra.
Qed.

(** Sums of one coefficient. *)
Lemma s_poly_add1 x y a c : float_is x a -> float_is y c ->
  settled (fits (a + c)) (poly_add A [:: x] [:: y])
    (fun t => complex_is t (rnd (a + c)) 0 /\ trimmed t).
Proof.
move=> xa yc; rewrite /poly_add /=.
eapply settled_iff; last first.
  norm; apply: (step_rounds (fl_add RA xa yc)) => e he; norm.
  apply: (step_zero he) => -[] hz; norm.
    apply: settled_ret; split=> //=.
    by have e0 : rnd (a + c) = 0 by exact/hz.
  apply: (step_yields (fl_zero RA)) => z _; norm.
  apply: settled_ret; split=> //= _ /=.
  by rewrite (float_inv he) => e0; move/hz: e0.
by split=> [[h _]|h] //; split.
Qed.
Lemma s_poly_add2 x y x' y' a b c d : float_is x a -> float_is y c ->
    float_is x' b -> float_is y' d ->
  settled (fits (a + c) /\ fits (b + d)) (poly_add A [:: x; x'] [:: y; y'])
    (fun t => complex_is t (rnd (a + c)) (rnd (b + d)) /\ trimmed t).
Proof.
move=> xa yc xb yd; rewrite /poly_add /=.
norm; apply: (step_rounds (fl_add RA xa yc)) => e he; norm.
apply: (step_zero he) => -[] hz; norm.
  have e0 : rnd (a + c) = 0 by exact/hz.
  eapply settled_iff; last first.
    apply: (step_rounds (fl_add RA xb yd)) => e' he'; norm.
    apply: (step_zero he') => -[] hz'; norm.
      apply: settled_ret; split=> //=.
      by have e1 : rnd (b + d) = 0 by exact/hz'.
    apply: (step_yields (fl_zero RA)) => z z0; norm.
    apply: settled_ret; rewrite e0; split=> //= _ /=.
    by rewrite (float_inv he') => e1; move/hz': e1.
  by split=> [[h _]|h] //; split.
apply: (step_yields (fl_zero RA)) => z z0; norm.
eapply settled_iff; last first.
  apply: (step_rounds (fl_add RA xb yd)) => e' he'; norm.
  apply: (step_zero he') => -[] hz'; norm.
    have e1 : rnd (b + d) = 0 by exact/hz'.
    apply: settled_ret; split=> //= _ /=.
    by rewrite (float_inv he) => e0; move/hz: e0.
  apply: (step_yields (fl_zero RA)) => z' z0'; norm.
  apply: settled_ret; split=> //= _ /=.
  by rewrite (float_inv he') => e1; move/hz': e1.
by split=> [[h _]|h] //; split.
Qed.

Lemma s_rem_small P (m : M (seq F)) Y : settled P m Y -> (forall t, Y t -> (size t <= 2)%N) ->
  settled P (let! t := m in let! qr := poly_quo_rem A t i2 in ret qr.2) Y.
Proof.
move=> h1 h2; split=> p; last by apply: panics_bind; exact: h1.2 p.
have [t mt Yt] := h1.1 p; exists t => //; apply: returns_bind mt _.
by rewrite rem_small ?bind_ret; [exact: returns_ret|exact: h2].
Qed.
Lemma complex_size v a b : complex_is v a b -> (size v <= 2)%N.
Proof. by case: v => [|? [|? []]]. Qed.

Lemma c_add v w a b c d : complex_is v a b -> complex_is w c d ->
  settled (fits (a + c) /\ fits (b + d)) (add C v w)
    (fun t => complex_is t (rnd (a + c)) (rnd (b + d)) /\
              (trimmed v -> trimmed w -> trimmed t)).
Proof.
move=> hv hw; rewrite /= /quotient_add /= /default_rem.
apply: s_rem_small; last by move=> t [ht _]; exact: complex_size ht.
move: hv hw.
case: v => [|v0 [|v1 []]] //=; case: w => [|w0 [|w1 []]] //= [h1 h2] [h3 h4];
  rewrite ?h1 ?h2 ?h3 ?h4 ?Rplus_0_r ?Rplus_0_l ?(rnd_is h1) ?(rnd_is h2) ?(rnd_is h3) ?(rnd_is h4) ?rnd0 /=.
- apply: settled_iff; last by apply: settled_ret.
  by split=> // _; split; apply: fits0.
- apply: settled_iff; last by apply: settled_ret.
  by split=> // _; split; [exact: fits_is h3|exact: fits0].
- apply: settled_iff; last by apply: settled_ret.
  by split=> // _; split; [exact: fits_is h3|exact: fits_is h4].
- apply: settled_iff; last by apply: settled_ret.
  by split=> // _; split; [exact: fits_is h1|exact: fits0].
- apply: settled_imp (settled_iff _ (s_poly_add1 h1 h3)); first by move=> t [].
  by split=> [h|[h _]] //; split=> //; exact: fits0.
- eapply settled_iff; last first.
    rewrite /poly_add /=; norm; apply: (step_rounds (fl_add RA h3 h1)) => e he; norm.
    apply: settled_ret; rewrite [a + c]Rplus_comm; split=> //= _ h /=.
    by move=> _; apply: h.
  rewrite [a + c]Rplus_comm; split=> [[h _]|[h _]]; split=> //; exact: fits_is h4.
- apply: settled_iff; last by apply: settled_ret.
  by split=> // _; split; [exact: fits_is h1|exact: fits_is h2].
- eapply settled_iff; last first.
    rewrite /poly_add /=; norm; apply: (step_rounds (fl_add RA h1 h3)) => e he; norm.
    apply: settled_ret; split=> //= h _ /=.
    by move=> _; apply: h.
  split=> [[h _]|[h _]]; split=> //; exact: fits_is h2.
- by apply: settled_imp (s_poly_add2 h1 h3 h2 h4) => t [].
Qed.

Lemma c_neg v a b : complex_is v a b ->
  settled True (neg C v) (fun t => complex_is t (- a) (- b) /\ (trimmed v -> trimmed t)).
Proof.
move=> hv; rewrite /= /quotient_neg /= /default_rem.
apply: s_rem_small; last by move=> t [ht _]; exact: complex_size ht.
move: hv; case: v => [|v0 [|v1 []]] //= [h1 h2]; rewrite /poly_neg /=.
- by rewrite h1 h2; apply: settled_ret; rewrite Ropp_0.
- norm; apply: (step_yields (fl_neg RA h1)) => e he; norm.
  apply: settled_ret; rewrite h2 Ropp_0; split=> //= h _ /=.
  rewrite (float_inv he) => e0; apply: (h) => //=; rewrite (float_inv h1); lra.
- norm; apply: (step_yields (fl_neg RA h1)) => e he; norm.
  apply: (step_yields (fl_neg RA h2)) => e' he'; norm.
  apply: settled_ret; split=> //= h _ /=.
  rewrite (float_inv he') => e0; apply: (h) => //=; rewrite (float_inv h2); lra.
Qed.

Lemma c_sub v w a b c d : complex_is v a b -> complex_is w c d ->
  settled (fits (a - c) /\ fits (b - d)) (Traits.sub C v w)
    (fun t => complex_is t (rnd (a - c)) (rnd (b - d)) /\
              (trimmed v -> trimmed w -> trimmed t)).
Proof.
move=> hv hw; rewrite /= /default_sub /=.
apply: (settled_total (c_neg hw)) => n [hn tn].
rewrite /Rminus ![_ + - _]Rplus_comm.
apply: settled_imp (c_add hn hv) => t [ht tt]; split=> //; auto.
Qed.

(** ** Multiplication *)
(** The products of polynomials of degree at most one. *)
Lemma s_mul11 x y a c : float_is x a -> float_is y c ->
  settled (fits (a * c)) (poly_mul A A [:: x] [:: y]) (fun t => complex_is t (rnd (a * c)) 0).
Proof.
move=> xa yc; rewrite /poly_mul /=; norm; apply: (step_yields (fl_zero RA)) => z z0; norm.
eapply settled_iff; last first.
  apply: (step_rounds (fl_mul RA xa yc)) => e he; norm.
  apply: (step_same (fl_add RA z0 he) he); [lra|] => e1 he1; norm.
  exact: settled_ret.
by split=> [[]|].
Qed.
Lemma s_mul12 x y y' a c d : float_is x a -> float_is y c -> float_is y' d ->
  settled (fits (a * c) /\ fits (a * d)) (poly_mul A A [:: x] [:: y; y'])
    (fun t => complex_is t (rnd (a * c)) (rnd (a * d))).
Proof.
move=> xa yc yd; rewrite /poly_mul /=; norm; apply: (step_yields (fl_zero RA)) => z z0; norm.
eapply settled_iff; last first.
  apply: (step_rounds (fl_mul RA xa yc)) => e he; norm.
  apply: (step_same (fl_add RA z0 he) he); [lra|] => e1 he1; norm.
  apply: (step_rounds (fl_mul RA xa yd)) => f hf; norm.
  apply: (step_same (fl_add RA z0 hf) hf); [lra|] => f1 hf1; norm.
  exact: settled_ret.
by split=> [[h1 []]|[]].
Qed.
Lemma s_mul21 x x' y a b c : float_is x a -> float_is x' b -> float_is y c ->
  settled (fits (a * c) /\ fits (b * c)) (poly_mul A A [:: x; x'] [:: y])
    (fun t => complex_is t (rnd (a * c)) (rnd (b * c))).
Proof.
move=> xa xb yc; rewrite /poly_mul /=; norm; apply: (step_yields (fl_zero RA)) => z z0; norm.
eapply settled_iff; last first.
  apply: (step_rounds (fl_mul RA xa yc)) => e he; norm.
  apply: (step_same (fl_add RA z0 he) he); [lra|] => e1 he1; norm.
  apply: (step_rounds (fl_mul RA xb yc)) => f hf; norm.
  apply: (step_same (fl_add RA z0 hf) hf); [lra|] => f1 hf1; norm.
  exact: settled_ret.
by split=> [[h1 []]|[]].
Qed.
Lemma s_mul22 x x' y y' a b c d : float_is x a -> float_is x' b -> float_is y c -> float_is y' d ->
  settled ((fits (a * c) /\ fits (a * d) /\ fits (b * c) /\ fits (b * d)) /\
           fits (rnd (a * d) + rnd (b * c)))
    (poly_mul A A [:: x; x'] [:: y; y'])
    (fun t => exists e f g, [/\ t = [:: e; f; g], float_is e (rnd (a * c)),
       float_is f (rnd (rnd (a * d) + rnd (b * c))) & float_is g (rnd (b * d))]).
Proof.
move=> xa xb yc yd; rewrite /poly_mul /=; norm; apply: (step_yields (fl_zero RA)) => z z0; norm.
eapply settled_iff; last first.
  apply: (step_rounds (fl_mul RA xa yc)) => e he; norm.
  apply: (step_same (fl_add RA z0 he) he); [lra|] => e1 he1; norm.
  apply: (step_rounds (fl_mul RA xa yd)) => f hf; norm.
  apply: (step_same (fl_add RA z0 hf) hf); [lra|] => f1 hf1; norm.
  apply: (step_rounds (fl_mul RA xb yc)) => g hg; norm.
  apply: (step_rounds (fl_add RA hf1 hg)) => f2 hf2; norm.
  apply: (step_rounds (fl_mul RA xb yd)) => h hh; norm.
  apply: (step_same (fl_add RA z0 hh) hh); [lra|] => h1 hh1; norm.
  by apply: settled_ret; exists e1, f2, h1.
by split=> [[h1 [h2 [h3 [h4 [h5 _]]]]]|[[h1 [h2 [h3 h4]]] h5]].
Qed.

Lemma fits_rnd x a : float_is x (rnd a) -> fits a.
Proof.
by move=> h; have := bounded h; rewrite /ComplexSpec.fits /overflows; lra.
Qed.
Lemma rnd_rnd r : rnd (rnd r) = rnd r.
Proof. by apply: rnd_gf; apply: generic_format_round; exact: valid_rnd_N. Qed.
Lemma fits_rnd2 r : fits (rnd r) <-> fits r.
Proof. by rewrite /ComplexSpec.fits /overflows rnd_rnd. Qed.
Lemma rnd_m r : rnd (- r) = - rnd r. Proof. exact: rnd_opp. Qed.
Lemma fits_m r : fits (- r) <-> fits r.
Proof. by rewrite /ComplexSpec.fits over_opp. Qed.

Lemma c_mul v w a b c d : complex_is v a b -> complex_is w c d ->
  settled (product_fits prec emax a b c d) (mul C v w)
    (fun t => complex_is t (product_re prec emax a b c d) (product_im prec emax a b c d) /\
       (size v = 2%nat -> size w = 2%nat -> trimmed t)).
Proof.
move=> hv hw; rewrite /= /quotient_mul /= /default_rem.
have f0 := fits0 (erefl 0).
have f1 := fits_rnd2 (a * c); have f2 := fits_rnd2 (a * d); have f3 := fits_rnd2 (b * c).
case s2 : ((size v == 2%nat) && (size w == 2%nat)); last first.
  apply: s_rem_small; last by move=> t [ht _]; exact: complex_size ht.
  move: hv hw s2; case: v => [|v0 [|v1 []]] //=; case: w => [|w0 [|w1 []]] //= [h1 h2] [h3 h4] _;
  rewrite /product_re /product_im /product_fits ?h1 ?h2 ?h3 ?h4 ?Rmult_0_r ?Rmult_0_l ?rnd0 ?Rplus_0_r ?Rplus_0_l ?Rminus_0_r ?rnd_rnd ?rnd0 ?fits_rnd2.
  - by apply: settled_iff (settled_ret _).
  - by apply: settled_iff (settled_ret _).
  - by apply: settled_iff (settled_ret _).
  - by apply: settled_iff (settled_ret _).
  - apply: settled_imp (settled_iff _ (s_mul11 h1 h3)); first by move=> t; split.
    by clear -f0 f1 f2 f3; tauto.
  - apply: settled_imp (settled_iff _ (s_mul12 h1 h3 h4)); first by move=> t; split.
    by clear -f0 f1 f2 f3; tauto.
  - by apply: settled_iff (settled_ret _).
  - apply: settled_imp (settled_iff _ (s_mul21 h1 h2 h3)); first by move=> t; split.
    by clear -f0 f1 f2 f3; tauto.
move: hv hw s2; case: v => [|v0 [|v1 []]] //=; case: w => [|w0 [|w1 []]] //= [h1 h2] [h3 h4] _.
eapply settled_iff; last first.
  apply: (settled_bind (s_mul22 h1 h2 h3 h4)).
    by case: (fits_dec (a * c)) (fits_dec (a * d)) (fits_dec (b * c)) (fits_dec (b * d))
      (fits_dec (rnd (a * d) + rnd (b * c))) => [?|?] [?|?] [?|?] [?|?] [?|?]; tauto.
  move=> t [e [f [g [-> he hf hg]]]].
  apply: (settled_iff _ (settled_bind (rem_three he hf hg) (fits_dec _) _)); last first.
    by move=> qr [h5 h6]; apply: settled_ret; split.
  split=> [[h _]|h]; [exact: h|by split; [exact: h|]].
rewrite /product_fits; tauto.
Qed.

(** ** Inversion *)
Lemma fits_le r s : fits s -> Rabs r <= Rabs s -> fits r.
Proof.
rewrite /ComplexSpec.fits /overflows => h rs o; apply: h; apply: Rle_trans o _.
have ab t : Rabs (rnd t) = rnd (Rabs t) by rewrite /rounded -round_NE_abs.
by rewrite !ab; apply: round_le.
Qed.

(** One unfolding of the extended Euclidean algorithm, with [j] units of fuel spent. *)
Local Notation egcd j x y := (fun k : nat => extended_gcd_fuel (k - j)
  (fun v : seq F => ret (size v == 0%nat)) (poly_one A A) (ret [::]) (poly_mul A A)
  (Traits.sub (poly_abelian A)) (poly_quo_rem A) x y k).
Lemma egcd_unfold (j : nat) (x y : seq F) P Y :
  settled P (if size y == 0%nat then
      let! o := poly_one A A in ret (x, o, [::])
    else
      let! qr := poly_quo_rem A x y in
      let! gxy := egcd j.+1 y qr.2 in
      let '(g, u, v) := gxy in
      let! vq := poly_mul A A v qr.1 in
      let! t := Traits.sub (poly_abelian A) u vq in
      ret (g, v, t)) Y ->
  settled P (egcd j x y) Y.
Proof.
apply: settled_eventually; exists j.+1 => k jk.
have -> : (k - j = (k - j.+1).+1)%N by rewrite -subSn.
by rewrite /=; case: ifP.
Qed.
Lemma s_poly_one : settled True (poly_one A A) (fun t => exists2 o, t = [:: o] & float_is o 1).
Proof.
rewrite /poly_one; apply: (step_yields (fl_one RA)) => o ho; norm.
apply: (step_zero ho) => -[] h; first by have := proj1 h erefl; lra.
norm; apply: (step_yields (fl_one RA)) => o' ho'.
by apply: settled_ret; exists o'.
Qed.

Local Notation iq1 := (inverse_q1 prec emax).
Local Notation is' := (inverse_s prec emax).
Local Notation iq0 := (inverse_q0 prec emax).
Local Notation it := (inverse_t prec emax).
Local Notation ir := (inverse_r prec emax).

Lemma rnd_pos r : 0 <= r -> 0 <= rnd r.
Proof. by move=> h; rewrite -rnd0; apply: round_le. Qed.
Lemma rnd_neg r : r <= 0 -> rnd r <= 0.
Proof. by move=> h; rewrite -rnd0; apply: round_le. Qed.
(** The products have the right signs. *)
Lemma it_pos a b : 0 <= it a b.
Proof.
apply: rnd_pos; rewrite /inverse_q0 /inverse_s /inverse_q1.
case: (Rle_lt_dec 0 b) => hb.
  have b0 : 0 <= / b by case: hb => hb; [left; exact: Rinv_0_lt_compat|rewrite -hb Rinv_0; lra].
  have q0 := rnd_pos b0.
  case: (Rle_lt_dec 0 a) => ha.
    have : rnd (rnd (- (a * rnd (/ b))) / b) <= 0.
      apply: rnd_neg; have : rnd (- (a * rnd (/ b))) <= 0 by apply: rnd_neg; nra.
      by rewrite /Rdiv; nra.
    by nra.
  have : 0 <= rnd (rnd (- (a * rnd (/ b))) / b).
    apply: rnd_pos; have : 0 <= rnd (- (a * rnd (/ b))) by apply: rnd_pos; nra.
    by rewrite /Rdiv; nra.
  by nra.
have b0 : / b <= 0 by left; exact: Rinv_lt_0_compat.
have q0 := rnd_neg b0.
case: (Rle_lt_dec 0 a) => ha.
  have : rnd (rnd (- (a * rnd (/ b))) / b) <= 0.
    apply: rnd_neg; have : 0 <= rnd (- (a * rnd (/ b))) by apply: rnd_pos; nra.
    by rewrite /Rdiv; nra.
  by nra.
have : 0 <= rnd (rnd (- (a * rnd (/ b))) / b).
  apply: rnd_pos; have : rnd (- (a * rnd (/ b))) <= 0 by apply: rnd_neg; nra.
  by rewrite /Rdiv; nra.
by nra.
Qed.
Lemma ir_ge1 a b : 1 <= ir a b.
Proof.
have [o _ ho] := fl_one RA.
rewrite -{1}(rnd_is ho); apply: round_le; have := it_pos a b; lra.
Qed.

Lemma quo_rem_first x y a b : float_is x a -> float_is y b -> b <> 0 ->
  settled (inverse_fits prec emax a b) (poly_quo_rem A i2 [:: x; y])
    (fun qr => exists q0 q1 (r : F), [/\ qr = ([:: q0; q1], [:: r]), float_is q0 (iq0 a b),
       float_is q1 (iq1 b) & float_is r (ir a b)]).
Proof.
move=> xa yb b0; move: i2P; case: i2 => [|m0 [|m1 [|m2 []]]] //= [h0 [h1 h2]].
rewrite /poly_quo_rem /=; norm.
apply: (step_yields (fl_zero RA)) => z hz; norm.
apply: (step_zero yb) => -[] h; first by case: b0; exact/h.
norm.
have e1 : 1 / b = / b by rewrite /Rdiv Rmult_1_l.
have es r : a * - r = - (a * r) by lra.
eapply settled_iff; last first.
  apply: (step_rounds (fl_div RA h2 yb b0)); rewrite e1 => q1 hq1; norm.
  apply: (step_yields (fl_neg RA hq1)) => n1 hn1; norm.
  apply: (step_rounds (fl_mul RA xa hn1)); rewrite es => s hs; norm.
  apply: (step_same (fl_add RA h1 hs) hs); [lra|] => s' hs'; norm.
  apply: (step_rounds (fl_div RA hs' yb b0)) => q0 hq0; norm.
  apply: (step_yields (fl_neg RA hq0)) => n0 hn0; norm.
  apply: (step_rounds (fl_mul RA xa hn0)); rewrite es => t ht; norm.
  apply: (step_rounds (fl_add RA h0 ht)) => r hr; norm.
  apply: (settled_total (s_trim (v := [:: r; s'; m2]) (i := 1) _ _)) => //.
    by case=> //= _; case: hr.
  move=> j [j1 hj nj]; apply: settled_ret.
  have r1 := ir_ge1 a b.
  case: j j1 hj nj => [|[]] // _ hj _ /=.
    by exfalso; have := hj 0%nat erefl; rewrite /= (float_inv hr); move: r1; rewrite /inverse_r /inverse_t /inverse_q0 /inverse_s /inverse_q1; lra.
  by exists q0, q1, r.
rewrite /inverse_fits e1 !es.
have f1 := fits_m (a * iq1 b); have f2 := fits_m (a * iq0 a b).
clear -f1 f2; rewrite /inverse_r /inverse_t /inverse_q0 /inverse_s /inverse_q1 in f1 f2 *; tauto.
Qed.

Lemma div_ge1 r s : 1 <= s -> Rabs (r / s) <= Rabs r.
Proof.
move=> h; rewrite /Rdiv Rabs_mult -{2}[Rabs r]Rmult_1_r.
apply: Rmult_le_compat_l; first exact: Rabs_pos.
rewrite Rabs_pos_eq; last by left; apply: Rinv_0_lt_compat; lra.
by rewrite -Rinv_1; apply: Rinv_le_contravar; lra.
Qed.
Lemma quo_rem_second x y (r : F) a b c : float_is x a -> float_is y b -> float_is r c -> 1 <= c ->
  settled True (poly_quo_rem A [:: x; y] [:: r]) (fun qr => qr.2 = [::]).
Proof.
move=> xa yb rc c1; rewrite /poly_quo_rem /=; norm.
apply: (step_yields (fl_zero RA)) => z hz; norm.
have c0 : c <> 0 by lra.
apply: (step_zero rc) => -[] h; first by case: c0; exact/h.
norm.
have fa : fits (a / c) := fits_le (fits_is xa) (div_ge1 a c1).
have fb : fits (b / c) := fits_le (fits_is yb) (div_ge1 b c1).
eapply settled_iff; last first.
  apply: (step_rounds (fl_div RA yb rc c0)) => q1 hq1; norm.
  apply: (step_yields (fl_neg RA hq1)) => n1 hn1; norm.
  apply: (step_rounds (fl_div RA xa rc c0)) => q0 hq0; norm.
  apply: (step_yields (fl_neg RA hq0)) => n0 hn0; norm.
  apply: (settled_total (s_trim (v := [:: x; y]) (i := 0) _ _)) => //.
  by move=> j [j1 _ _]; apply: settled_ret; move: j1; rewrite leqn0 => /eqP->.
by [].
Qed.

(** The algorithm ends with the pair of a constant and zero. *)
Lemma egcd_end (j : nat) (v : seq F) :
  settled True (egcd j v [::]) (fun t => exists2 o, t = (v, [:: o], [::]) & float_is o 1).
Proof.
apply: egcd_unfold => /=; apply: (settled_total s_poly_one) => t [o -> ho].
by apply: settled_ret; exists o.
Qed.

Lemma sub_nil v : Traits.sub (poly_abelian A) v [::] = ret v.
Proof.
rewrite /= /default_sub /= /poly_neg /= bind_ret /default_add_assign /poly_add.
by case: v.
Qed.
Lemma egcd_first (j : nat) x y a b : float_is x a -> float_is y b -> b <> 0 ->
  settled (inverse_fits prec emax a b) (egcd j i2 [:: x; y])
    (fun gst => exists g n0 n1, [/\ gst.1.1 = [:: g], gst.2 = [:: n0; n1],
       float_is g (ir a b), float_is n0 (- iq0 a b) & float_is n1 (- iq1 b)]).
Proof.
move=> xa yb b0; apply: egcd_unfold; rewrite -[size _ == _]/false.
eapply settled_iff; last first.
  apply: (settled_bind (quo_rem_first xa yb b0)).
    rewrite /inverse_fits.
    by case: (fits_dec (/ b)) (fits_dec (a * iq1 b)) (fits_dec (is' a b / b)) (fits_dec (a * iq0 a b))
      (fits_dec (1 + it a b)) => [?|?] [?|?] [?|?] [?|?] [?|?]; tauto.
  move=> qr [q0 [q1 [r [-> hq0 hq1 hr]]]]; rewrite -[(_, _).1]/[:: q0; q1] -[(_, _).2]/[:: r].
  have R1 := ir_ge1 a b.
  apply: (settled_total (X := fun t => exists2 o, t = ([:: r], [::], [:: o]) & float_is o 1)).
    apply: egcd_unfold; rewrite -[size _ == _]/false.
    apply: (settled_total (quo_rem_second xa yb hr R1)) => qr' ->.
    apply: (settled_total (egcd_end _ _)) => t [o -> ho].
    rewrite /poly_mul -[size [::] == _]/true bind_ret sub_nil bind_ret.
    by apply: settled_ret; exists o.
  move=> t [o -> ho] /=.
  rewrite /poly_mul /=; norm; apply: (step_yields (fl_zero RA)) => z hz; norm.
  apply: (step_same (fl_mul RA ho hq0) hq0); [lra|] => e1 he1; norm.
  apply: (step_same (fl_add RA hz he1) he1); [lra|] => e2 he2; norm.
  apply: (step_same (fl_mul RA ho hq1) hq1); [lra|] => f1 hf1; norm.
  apply: (step_same (fl_add RA hz hf1) hf1); [lra|] => f2 hf2; norm.
  rewrite /default_sub /poly_neg /=; norm.
  apply: (step_yields (fl_neg RA he2)) => n0 hn0; norm.
  apply: (step_yields (fl_neg RA hf2)) => n1 hn1; norm.
  rewrite /default_add_assign /poly_add /=; norm.
  by apply: settled_ret; exists r, n0, n1.
by split=> [[]|h].
Qed.

Lemma s_extended_gcd (x y : seq F) P Y : settled P (egcd 0 x y) Y -> settled P (extended_gcd (PolyEucl A) x y) Y.
Proof. by apply: settled_eventually; exists 0%nat => k _; rewrite subn0. Qed.

Lemma one_is : exists o : F, float_is o 1.
Proof. by have [o _ ho] := fl_one RA; exists o. Qed.
Lemma small_inverse r : 1 <= r -> fits (/ r) /\ 0 <= rnd (/ r) <= 1.
Proof.
move=> r1; have [o ho] := one_is.
have p : 0 < / r by apply: Rinv_0_lt_compat; lra.
have q : / r <= 1 by rewrite -Rinv_1; apply: Rinv_le_contravar; lra.
split; last by split; [apply: rnd_pos; lra|rewrite -(rnd_is ho); apply: round_le].
by apply: fits_le (fits_is ho) _; rewrite !Rabs_pos_eq; lra.
Qed.
Lemma fits_scaled x a c : float_is x a -> 0 <= c <= 1 -> fits (c * a).
Proof.
move=> xa [h1 h2]; apply: fits_le (fits_is xa) _.
rewrite Rabs_mult (Rabs_pos_eq c) //; have := Rabs_pos a; nra.
Qed.

Lemma s_is_zero v : default_is_zero (poly_equals A) (ret [::]) v = ret (if v is [::] then true else false).
Proof. by rewrite /default_is_zero bind_ret /poly_equals; case: v. Qed.

Lemma c_inv v a b : complex_is v a b -> b <> 0 ->
  settled (inverse_fits prec emax a b) (finv C v)
    (fun t => complex_is t (inverse_re prec emax a b) (inverse_im prec emax a b)).
Proof.
case: v => [|x [|y []]] //= [xa yb] b0; try by case: b0.
rewrite /quotient_field_inv /= s_is_zero bind_ret /= bind_ret.
eapply settled_iff; last first.
  apply: (settled_bind (s_extended_gcd (egcd_first 0 xa yb b0))).
    rewrite /inverse_fits.
    by case: (fits_dec (/ b)) (fits_dec (a * iq1 b)) (fits_dec (is' a b / b)) (fits_dec (a * iq0 a b))
      (fits_dec (1 + it a b)) => [?|?] [?|?] [?|?] [?|?] [?|?]; tauto.
  move=> [[g s] t] /= [g' [n0 [n1 [-> -> hg h0 h1]]]].
  have R1 := ir_ge1 a b; have [f1 f2] := small_inverse R1.
  have ne0 : ir a b <> 0 by lra.
  have [k rk hk] := (fl_try_inv RA hg ne0).1 f1.
  apply: (settled_total (X := fun o => o = Some [:: k])).
    split=> // _; exists (Some [:: k]) => //.
    rewrite /poly_try_inv /= bind_ret; apply: returns_bind rk _; exact: returns_ret.
  move=> o ->; rewrite /= bind_ret /quotient_mul /= /default_rem.
  apply: s_rem_small; last by move=> u; exact: complex_size.
  apply: (settled_iff _ (s_mul12 hk h0 h1)).
  have := fits_scaled h0 f2; have := fits_scaled h1 f2; by split.
by split=> [[]|h].
Qed.

Lemma quo_rem_real x a : float_is x a -> a <> 0 ->
  settled (fits (/ a)) (poly_quo_rem A i2 [:: x]) (fun qr => qr.2 = [::]).
Proof.
move=> xa a0; move: i2P; case: i2 => [|m0 [|m1 [|m2 []]]] //= [h0 [h1 h2]].
rewrite /poly_quo_rem /=; norm.
apply: (step_yields (fl_zero RA)) => z hz; norm.
apply: (step_zero xa) => -[] h; first by case: a0; exact/h.
norm.
have e1 : 1 / a = / a by rewrite /Rdiv Rmult_1_l.
eapply settled_iff; last first.
  apply: (step_rounds (fl_div RA h2 xa a0)); rewrite e1 => q2 hq2; norm.
  apply: (step_yields (fl_neg RA hq2)) => n2 hn2; norm.
  apply: (step_same (fl_div RA h1 xa a0) h1); [by rewrite /Rdiv Rmult_0_l|] => q1 hq1; norm.
  apply: (step_yields (fl_neg RA hq1)) => n1 hn1; norm.
  apply: (step_rounds (fl_div RA h0 xa a0)); rewrite e1 => q0 hq0; norm.
  apply: (step_yields (fl_neg RA hq0)) => n0 hn0; norm.
  apply: (settled_total (s_trim (v := [:: m0; m1; m2]) (i := 0) _ _)) => //.
  by move=> j [j1 _ _]; apply: settled_ret; move: j1; rewrite leqn0 => /eqP->.
by rewrite e1; split=> [[]|].
Qed.

Lemma c_inv_real x a : float_is x a -> a <> 0 ->
  settled (fits (/ a)) (finv C [:: x]) (fun t => complex_is t (rnd (/ a)) 0).
Proof.
move=> xa a0.
rewrite /= /quotient_field_inv /= s_is_zero bind_ret /= bind_ret.
split=> [fa|fa]; last first.
  apply: panics_bind; suff : settled False (extended_gcd (PolyEucl A) i2 [:: x]) (fun _ => False).
    by move=> [_]; apply.
  apply: s_extended_gcd; apply: egcd_unfold; rewrite -[size _ == _]/false.
  split=> // _; apply: panics_bind; exact: (quo_rem_real xa a0).2.
suff h : settled True
  (let! gst := extended_gcd (PolyEucl A) i2 [:: x] in
   let '(g, _, t) := gst in
   let! o := poly_try_inv A g in let! u := unwrap o in
   quotient_mul (PolyEucl A) i2 u t) (fun t => complex_is t (rnd (/ a)) 0) by exact: h.1.
apply: (settled_total (X := fun gst => exists2 o, gst = ([:: x], [::], [:: o]) & float_is o 1)).
  apply: s_extended_gcd; apply: egcd_unfold; rewrite -[size _ == _]/false.
  apply: (settled_total (settled_iff (Q := True) _ (quo_rem_real xa a0))); first by split.
  move=> qr ->; apply: (settled_total (egcd_end _ _)) => t [o -> ho].
  rewrite /poly_mul -[size [::] == _]/true bind_ret sub_nil bind_ret.
  by apply: settled_ret; exists o.
move=> t [o -> ho].
have [k rk hk] := (fl_try_inv RA xa a0).1 fa.
apply: (settled_total (X := fun o => o = Some [:: k])).
  split=> // _; exists (Some [:: k]) => //.
  rewrite /poly_try_inv /= bind_ret; apply: returns_bind rk _; exact: returns_ret.
move=> o' ->; rewrite /= bind_ret /quotient_mul /= /default_rem.
apply: s_rem_small; last by move=> u; exact: complex_size.
have e : rnd (/ a) * 1 = rnd (/ a) by lra.
apply: settled_imp (settled_iff _ (s_mul11 hk ho)); rewrite e ?rnd_rnd //.
by split=> // _; apply/fits_rnd2.
Qed.

Lemma c_inv_zero : panics (finv C [::]).
Proof.
rewrite /= /quotient_field_inv /= s_is_zero bind_ret /=.
exact: panics_bind (panics_panic _).
Qed.
Lemma c_inv_untrimmed x y a : float_is x a -> float_is y 0 -> panics (finv C [:: x; y]).
Proof.
move=> xa y0.
rewrite /= /quotient_field_inv /= s_is_zero bind_ret /= bind_ret.
apply: panics_bind; suff : settled False (extended_gcd (PolyEucl A) i2 [:: x; y]) (fun _ => False).
  by move=> [_]; apply.
apply: s_extended_gcd; apply: egcd_unfold; rewrite -[size _ == _]/false.
split=> // _; apply: panics_bind.
suff : settled False (poly_quo_rem A i2 [:: x; y]) (fun _ => False) by move=> [_]; apply.
move: i2P; case: i2 => [|m0 [|m1 [|m2 []]]] //= [h0 [h1 h2]].
rewrite /poly_quo_rem /=; norm.
apply: (step_yields (fl_zero RA)) => z hz; norm.
apply: (step_zero y0) => -[] h; last by have := proj2 h erefl.
split=> // _; exact: panics_bind (panics_panic _).
Qed.
End Complex.
