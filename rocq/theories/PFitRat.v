(** * PFitRat.v -- matrices of fractions of machine integers, with denominators. *)

From mathcomp Require Import all_ssreflect all_fingroup all_algebra zify ssrZ.
From Coq Require Import ZArith Lia Znumtheory.
From Verif Require Import Rust Traits MInts MConstr RingTac Wp Spec ZFacts PIntsZ PInts PFrac PFracProps
  PropSpec ModSpec NumSpec PNum PChecked FracSpec RatSpec PRational PRat MatFacts PMat DetSpec PDet
  FitSpec PMinor PFit PFitInt FitRatSpec.

Set Implicit Arguments.
Unset Strict Implicit.
Unset Printing Implicit Defensive.

Import GRing.Theory.
Local Open Scope ring_scope.
Local Notation ZR := [idomainType of Z].
Local Notation QF := [fieldType of {fraction ZR}].
Local Notation phi := [rmorphism of @FracField.tofrac ZR].

(** ** Minors of the augmented matrix, over any field *)
Section Aug.
Variables (F : fieldType) (n : nat) (N : 'M[F]_n).
Local Notation au := (aug N 1%:M).

Lemma aug_minor m (f : 'I_m -> 'I_n) (g : 'I_m -> 'I_n + 'I_n) : injective f ->
  \det (sub f g au) = 0 \/
  exists m' (f' g' : 'I_m' -> 'I_n) (b : bool), injective f' /\
    \det (sub f g au) = (-1) ^+ b * \det (sub f' g' N).
Proof.
elim: m f g => [|m IH] f g hf.
  right; exists 0%N, f, f, false; rewrite !det_mx00 expr0 mulr1 //.
case: (pickP (fun b => if g b is inr _ then true else false)) => [b|no]; last first.
  have hg b : {c | g b = inl c}.
    by case e : (g b) => [c|c]; [exists c|have := no b; rewrite e].
  right; exists m.+1, f, (fun b => sval (hg b)), false; rewrite expr0 mul1r; split=> //.
  congr (\det _); apply/matrixP => a b; rewrite !mxE.
  by case: (hg b) => c /= ->.
case gb : (g b) => [//|y] _.
case: (pickP (fun a => f a == y)) => [a /eqP fa|no]; last first.
  left; rewrite (expand_det_col _ b) big1 // => a _.
  by rewrite mxE gb /= mxE no mul0r.
have e : \det (sub f g au) = (-1) ^+ odd (a + b)%nat * \det (sub (f \o lift a) (g \o lift b) au).
  rewrite (expand_det_col _ b) (bigD1 a) //= big1 ?addr0.
    rewrite mxE gb /= mxE fa eqxx mul1r /cofactor signr_odd; congr (_ * \det _).
    by apply/matrixP => x z; rewrite !mxE.
  by move=> x xa; rewrite mxE gb /= mxE -fa (eqtype.inj_eq hf) (negbTE xa) mul0r.
have hf' : injective (f \o lift a) by apply: inj_comp => //; exact: lift_inj.
case: (IH _ (g \o lift b) hf') => [z|[m' [f' [g' [b' [i' z]]]]]].
  by left; rewrite e z mulr0.
right; exists m', f', g', (odd (a + b)%nat (+) b'); split=> //; rewrite e z mulrA -signr_addb //.
Qed.
End Aug.

(** ** Products of denominators *)
Section Dens.
Variables (n : nat) (D : 'I_n -> Z).
Hypothesis D1 : forall i, (1 <= D i)%Z.

Lemma prod_ge1 (I : Type) (r : seq I) (P : pred I) (F : I -> Z) : (forall i, (1 <= F i)%Z) ->
  (1 <= (\prod_(i <- r | P i) F i)%R)%Z.
Proof.
move=> h; apply: (big_ind (fun x : Z => (1 <= x)%Z)) => // x y hx hy.
by change (1 <= x * y)%Z; nia.
Qed.

Lemma dens_within m (f : 'I_m -> 'I_n) : injective f ->
  (1 <= (\prod_a D (f a))%R <= all_dens D)%Z.
Proof.
move=> hf; split; first by apply: prod_ge1.
have -> : (\prod_a D (f a))%R = (\prod_(i in [set f a | a : 'I_m]) D i)%R.
  by rewrite big_imset //= => x y _ _; exact: hf.
rewrite /all_dens [X in (_ <= X)%Z](bigID (mem [set f a | a : 'I_m])) /=.
set x := (\prod_(i in _) _)%R; set y := (\prod_(i | _) _)%R.
have x1 : (1 <= x)%Z by apply: prod_ge1.
have y1 : (1 <= y)%Z by apply: prod_ge1.
by change (x <= x * y)%Z; nia.
Qed.
End Dens.

Lemma le_mul_both (a b : Z) : (1 <= a)%Z -> (1 <= b)%Z -> (a <= a * b /\ b <= a * b)%Z.
Proof. nia. Qed.
Lemma le_cube (l : Z) : (1 <= l)%Z -> (l <= 2 * l * l * l)%Z.
Proof. nia. Qed.

Section Rat.
Variables (cfg : Cfg) (w : Z).
Hypothesis w2 : (2 <= w)%Z.
Local Notation RF := (ReducedFractions cfg (CheckedInts cfg w)).
Local Notation rep := (frac_rep (F := QF) phi Z_assoc (ci_rep w)).

Lemma rep_pair x : canonical_pair x -> in_i w x.1 -> in_i w x.2 -> rep x (phi x.1 / phi x.2).
Proof.
move=> [d0 g1] h1 h2; have d1 : (x.2 : ZR) <> 0 by move=> e; rewrite e in d0.
exists x.1, x.2; split=> //; split.
- exact/eqP.
- by apply/arep_acoef; [exact/eqP|apply/Z_arep].
- exact/Z_coprime.
Qed.

Variable M : Z.
Hypothesis hcfg : (2 <= ptr_bits cfg)%Z.
Variables (n : nat) (N : 'M[Z]_n) (D : 'I_n -> Z) (v : seq (Z * Z)).
Local Notation L := (M * all_dens D)%Z.
Hypothesis hL : (2 * L * L * L < 2 ^ (w - 1))%Z.
Hypothesis hv : ratio_entries v N D.
Hypothesis hN : minors_within M N.
Local Notation NQ := (ratio_matrix N D : 'M[QF]_n).

Lemma D1 i : (1 <= D i)%Z. Proof. by have [] := hv. Qed.
Lemma phiD i : phi (D i) != 0 :> QF.
Proof. by rewrite phi0; apply/eqP => e; have := @D1 i; rewrite e. Qed.

Lemma ratio_minor m (f g : 'I_m -> 'I_n) :
  \det (sub f g NQ) = phi (\det (sub f g N)) / phi (\prod_a D (f a)).
Proof.
have -> : sub f g NQ = diag_mx (\row_a (phi (D (f a)))^-1) *m map_mx phi (sub f g N).
  by apply/matrixP => a b; rewrite mul_diag_mx !mxE mulrC.
rewrite det_mulmx det_diag det_map_mx mulrC; congr (_ * _).
rewrite rmorph_prod /= -prodfV; apply: eq_bigr => a _; by rewrite mxE.
Qed.

Lemma goodz_ratio m1 m2 p1 p2 : (Z.abs m1 <= M)%Z -> (Z.abs m2 <= M)%Z ->
  (1 <= p1 <= all_dens D)%Z -> (1 <= p2 <= all_dens D)%Z ->
  phi m2 / phi p2 != 0 -> goodz L ((phi m1 / phi p1) / (phi m2 / phi p2)).
Proof.
move=> h1 h2 h3 h4 h0.
have m20 : m2 != 0 by apply/eqP => e; move/eqP: h0; rewrite e rmorph0 mul0r.
have p10 : (p1 : ZR) != 0 by apply/eqP => e; move: h3; rewrite e => -[].
have p20 : (p2 : ZR) != 0 by apply/eqP => e; move: h4; rewrite e => -[].
have b a b : (Z.abs a <= M)%Z -> (1 <= b <= all_dens D)%Z -> (Z.abs (a * b) <= L)%Z.
  by move=> ? ?; rewrite Z.abs_mul; apply: Z.mul_le_mono_nonneg; lia.
exists (m1 * p2)%R, (m2 * p1)%R; split; [exact: b|exact: b|exact: mulf_neq0|].
by rewrite !(rmorphM phi) invf_div mulf_div [phi m2 * _]mulrC.
Qed.

Lemma ratio_matrix_good q : ratio (NQ : 'I_n -> 'I_n -> QF) q -> goodz L q.
Proof.
move=> [m [f [g [m' [f' [g' [-> d0 hf hf']]]]]]]; rewrite !ratio_minor in d0 *.
by apply: goodz_ratio d0; [exact: hN|exact: hN|exact: (@dens_within _ _ (@D1) _ _ hf)|exact: (@dens_within _ _ (@D1) _ _ hf')].
Qed.

Lemma M1 : (1 <= M)%Z. Proof. exact: M_pos hN. Qed.
Lemma dens1 : (1 <= all_dens D)%Z. Proof. exact: prod_ge1 (@D1). Qed.

Lemma aug_value m (f : 'I_m -> 'I_n) g : injective f -> exists m1 p1 : Z,
  [/\ (Z.abs m1 <= M)%Z, (1 <= p1 <= all_dens D)%Z & \det (sub f g (aug NQ 1%:M)) = phi m1 / phi p1].
Proof.
move=> hf; case: (aug_minor NQ g hf) => [e|[m' [f' [g' [b [hf' e]]]]]].
  exists 0%Z, 1%Z; rewrite e rmorph0 mul0r; split=> //; first by have := M1; rewrite /=; lia.
  by have := dens1; lia.
exists ((-1) ^+ b * \det (sub f' g' N))%R, (\prod_a D (f' a))%R; split.
- by rewrite sign_abs; exact: hN.
- exact: (@dens_within _ _ (@D1) _ _ hf').
- by rewrite e ratio_minor mulrA rmorphM rmorphX rmorphN1.
Qed.

Lemma ratio_aug_matrix_good q : ratio (aug NQ 1%:M) q -> goodz L q.
Proof.
move=> [m [f [g [m' [f' [g' [-> d0 hf hf']]]]]]].
have [m1 [p1 [a1 a2 a3]]] := aug_value g hf; have [m2 [p2 [b1 b2 b3]]] := aug_value g' hf'.
by rewrite a3 b3 in d0 *; exact: goodz_ratio.
Qed.

Lemma L_le : (M <= L /\ all_dens D <= L)%Z.
Proof. exact: le_mul_both M1 dens1. Qed.
Lemma L_fits a : (Z.abs a <= L)%Z -> in_i w a.
Proof.
move=> h; apply/fitsP; have [h1 h2] := L_le; have m1 := M1; rewrite /fits.
have : (L <= 2 * L * L * L)%Z by apply: le_cube; apply: Z.le_trans h1.
by move: h hL; lia.
Qed.

Lemma entry_rep (i j : 'I_n) : rep (nth (0%Z, 1%Z) v (i * n + j)) (NQ i j).
Proof.
have [_ _ /(_ i j)] := hv; set x := nth _ _ _ => -[cx e].
have [d0 g1] := cx; have d1 : (x.2 : ZR) != 0 by apply/eqP => h; rewrite h in d0.
have -> : NQ i j = phi x.1 / phi x.2.
  rewrite mxE; apply/eqP; rewrite eq_sym eqr_div ?phi0 //; last by rewrite -phi0; exact: phiD.
  by rewrite -!rmorphM (eqtype.inj_eq (@tofrac_inj ZR)); apply/eqP; rewrite [RHS]mulrC; exact: e.
have [k ek] : (x.2 | D i)%Z.
  apply: (Gauss _ x.1); last by apply: rel_prime_sym; apply/Zgcd_1_rel_prime.
  by exists (N i j); rewrite e Z.mul_comm.
have k1 : (1 <= k)%Z by have := @D1 i; nia.
have e1 : (x.1 * k = N i j)%Z by apply: (Z.mul_reg_r _ _ x.2); [lia|move: e; rewrite ek; lia].
have hD : (D i <= all_dens D)%Z.
  have [|_] := @dens_within _ _ (@D1) 1 (fun=> i); first by move=> a b _; rewrite !ord1.
  by rewrite big_ord1.
have hN1 := @entry_bound _ _ _ hN i j.
apply: rep_pair => //; apply: L_fits; have [h1 h2] := L_le.
  by apply: Z.le_trans h1; rewrite -e1 in hN1; have := Z.abs_nonneg x.1; nia.
by rewrite Z.abs_eq; nia.
Qed.

Lemma ratio_entries_rep : mat_rep rep v NQ.
Proof.
have [sv _ _] := hv.
exists (map (fun x : Z * Z => phi x.1 / phi x.2) v); split; last first.
- move=> i j; have := entry_rep i j; rewrite (nth_map (0%Z, 1%Z)); last first.
    by rewrite sv; have := ltn_ord i; have := ltn_ord j; nia.
  by move=> /repP[_ _ _ ->].
- by rewrite size_map.
apply: (@reps_nthP _ _ _ (0%Z, 1%Z) 0%R); first by rewrite size_map.
move=> k; rewrite size_map => kv; rewrite (nth_map (0%Z, 1%Z)) //.
have kn : (k < n * n)%nat by rewrite -sv.
have [h1 h2 h3] := ix_div kn.
have := entry_rep (Ordinal h1) (Ordinal h2); rewrite /= -h3 => h.
by have [_ _ _ <-] := repP h.
Qed.

Lemma det_ratio : \det NQ = phi (\det N) / phi (all_dens D).
Proof.
have e (R : ringType) (T : 'M[R]_n) : sub id id T = T by apply/matrixP => i j; rewrite mxE.
by have := @ratio_minor n id id; rewrite !e.
Qed.

Lemma cross x (a b : ZR) : canonical_pair x -> b != 0 -> phi x.1 / phi x.2 = phi a / phi b :> QF ->
  (x.1 * b = x.2 * a)%Z.
Proof.
move=> [d0 _] b0 /eqP; have d1 : (x.2 : ZR) != 0 by apply/eqP => h; rewrite h in d0.
rewrite eqr_div ?phi0 // -!rmorphM (eqtype.inj_eq (@tofrac_inj ZR)) => /eqP e.
by rewrite [RHS]Z.mul_comm; exact: e.
Qed.
Lemma dens0 : (all_dens D : ZR) != 0.
Proof. by apply/eqP => e; have := dens1; rewrite e. Qed.

Lemma rational_determinant : exists2 x, returns (determinant RF n v) x &
  canonical_pair x /\ (x.1 * all_dens D = x.2 * ((-1) ^+ exchanges NQ * \det N)%R)%Z.
Proof.
have h1 := determinant_sign (rf_field cfg w2) hcfg ratio_entries_rep.
have [x [r _]] := ensures_False (fit_determinant (fit_ints w2 hcfg hL) ratio_matrix_good ratio_entries_rep).
exists x => //; have := ensures_value h1 r; rewrite det_ratio => /repP[cx _ _ e]; split=> //.
apply: cross => //; first exact: dens0.
by rewrite -e rmorphM rmorphX rmorphN1 mulrA.
Qed.

Lemma rational_invertible : returns (matrix_invertible RF n v) (\det N != 0).
Proof.
have [x r [cx e]] := rational_determinant.
apply: returns_bind r _.
have -> : (\det N != 0) = ~~ (x.1 == 0).
  congr (~~ _); apply/eqP/eqP => h.
    have : (x.1 * all_dens D = 0)%Z by rewrite e h mulr0 Z.mul_0_r.
    by move=> /Z.mul_eq_0[//|/eqP]; rewrite (negbTE dens0).
  have [d0 _] := cx; rewrite h /= in e.
  have /eqP : ((-1) ^+ exchanges NQ * \det N)%R = 0 :> Z.
    by move: e; set y := (_ * _)%R; nia.
  by rewrite mulf_eq0 signr_eq0 => /eqP.
exists 0%nat => k _.
case: x cx {e} => a b [/= d0 g1].
rewrite /notM /bind /= /default_is_zero /bind /= /fractions_equals /andM /bind /=.
rewrite (_ : (a == 0) = (a =? 0)%Z) //; case: Z.eqb_spec => // a0.
rewrite a0 Z.gcd_0_l in g1; rewrite /=; suff -> : b = 1%Z by [].
by move: g1; lia.
Qed.

Lemma rational_inverse :
  if \det N == 0 then returns (matrix_try_inv cfg RF n v) None
  else exists2 u, returns (matrix_try_inv cfg RF n v) (Some u) &
    size u = (n * n)%nat /\ forall i j : 'I_n, let x := nth (0%Z, 1%Z) u (i * n + j) in
      canonical_pair x /\ (x.1 * \det N = x.2 * ((\adj N) i j * D j))%Z.
Proof.
have h1 := mat_try_inv (rf_field cfg w2) hcfg ratio_entries_rep.
have [o [r _]] := ensures_False (fit_try_inv cfg (fit_ints w2 hcfg hL) ratio_aug_matrix_good ratio_entries_rep).
have := ensures_value h1 r; case: o r => [u|] r h.
  case: h => T uT [NT TN].
  have dT : (\det NQ * \det T)%R = 1 by rewrite -det_mulmx NT det1.
  have d0 : \det N != 0.
    by apply/eqP => e; move/eqP: dT; rewrite det_ratio e rmorph0 !mul0r eq_sym oner_eq0.
  rewrite (negbTE d0); exists u => //; have [s [us ss sE]] := uT.
  split; first by rewrite (reps_size us) ss.
  move=> i j; have kn : (i * n + j < n * n)%nat by have := ltn_ord i; have := ltn_ord j; nia.
  have := reps_nth (0%Z, 1%Z) 0%R us (i := (i * n + j)%nat); rewrite ss -sE => /(_ kn).
  move=> /repP[cx _ _ xE]; split=> //; apply: cross => //; rewrite -xE.
  have NE : map_mx phi N = diag_mx (\row_a phi (D a)) *m NQ.
    by apply/matrixP => a b; rewrite mul_diag_mx !mxE mulrC divfK // phiD.
  have e : (phi (\det N) *: T)%R = map_mx phi (\adj N) *m diag_mx (\row_a phi (D a)).
    rewrite map_mx_adj -[RHS]mulmx1 -NT mulmxA -[_ *m diag_mx _ *m NQ]mulmxA -NE.
    by rewrite mul_adj_mx mul_scalar_mx det_map_mx.
  have e1 := congr1 (fun Y : 'M__ => Y i j) e; rewrite [LHS]mxE mul_mx_diag !mxE in e1.
  have p0 : phi (\det N) != 0 :> QF by rewrite phi0.
  apply: (mulfI p0); rewrite [LHS]e1 [RHS]mulrC divfK //.
  by rewrite mxE; exact: (esym (rmorphM phi _ _)).
case: eqP => [//|/eqP d0]; exfalso.
have u : NQ \in unitmx.
  by rewrite unitmxE det_ratio unitfE mulf_neq0 ?invr_eq0 // ?phi0 //; exact: dens0.
by apply: (h (invmx NQ)); split; [exact: mulmxV|exact: mulVmx].
Qed.
End Rat.

(** ** Products *)
Section Product.
Variables (cfg : Cfg) (w : Z).
Hypothesis w2 : (2 <= w)%Z.
Local Notation RF := (ReducedFractions cfg (CheckedInts cfg w)).
Definition prep (x : Z * Z) (q : QF) : Prop := canonical_pair x /\ q = phi x.1 / phi x.2.

Lemma canonical_bounds x d a : canonical_pair x -> (1 <= d)%Z -> (x.1 * d = x.2 * a)%Z ->
  (Z.abs x.1 <= Z.abs a /\ 1 <= x.2 <= d)%Z.
Proof.
move=> [d0 g1] h e.
have [k ek] : (x.2 | d)%Z.
  apply: (Gauss _ x.1); last by apply: rel_prime_sym; apply/Zgcd_1_rel_prime.
  by exists a; rewrite e Z.mul_comm.
have k1 : (1 <= k)%Z by nia.
have e1 : (x.1 * k = a)%Z by apply: (Z.mul_reg_r _ _ x.2); [lia|move: e; rewrite ek; lia].
by rewrite -e1 Z.abs_mul ek; split; [have := Z.abs_nonneg x.1|]; nia.
Qed.

Lemma lowest_spec n d : (0 < d)%Z -> let x := RatSpec.lowest n d in
  canonical_pair x /\ (x.1 * d = x.2 * n)%Z.
Proof.
move=> d0 /=; have g0 : (0 < Z.gcd n d)%Z.
  have := Z.gcd_nonneg n d; case: (Z.eq_dec (Z.gcd n d) 0) => [/Z.gcd_eq_0_r|]; lia.
have [a ea] := Z.gcd_divide_l n d; have [b eb] := Z.gcd_divide_r n d.
rewrite /canonical_pair /RatSpec.lowest /=; set g := Z.gcd n d in g0 ea eb *.
have -> : (n / g = a)%Z by rewrite ea Z.div_mul; lia.
have -> : (d / g = b)%Z by rewrite eb Z.div_mul; lia.
split; last by rewrite ea eb; ring.
split; first by nia.
have : (Z.gcd (a * g) (b * g) = g)%Z by rewrite -ea -eb.
by rewrite Z.gcd_mul_mono_r_nonneg; nia.
Qed.

Lemma frac_mul_fits x y q r a b : canonical_pair x -> canonical_pair y -> (1 <= q)%Z -> (1 <= r)%Z ->
  (x.1 * q = x.2 * a)%Z -> (y.1 * r = y.2 * b)%Z ->
  (Z.abs (a * b) < 2 ^ (w - 1))%Z -> (q * r < 2 ^ (w - 1))%Z ->
  exists2 z, returns (mul RF x y) z & canonical_pair z /\ (z.1 * (q * r) = z.2 * (a * b))%Z.
Proof.
move=> cx cy q1 r1 ex ey h1 h2.
have [x1 x2] := canonical_bounds cx q1 ex; have [y1 y2] := canonical_bounds cy r1 ey.
have ab : (Z.abs (x.1 * y.1) <= Z.abs (a * b))%Z.
  by rewrite !Z.abs_mul; apply: Z.mul_le_mono_nonneg; try exact: Z.abs_nonneg.
have dd : (1 <= x.2 * y.2 <= q * r)%Z by clear -x2 y2; nia.
have [rm _] := @rat_mul cfg w w2 x.1 x.2 y.1 y.2 ltac:(clear -x2; lia) ltac:(clear -y2; lia).
exists (RatSpec.lowest (x.1 * y.1) (x.2 * y.2)).
  by move: rm; rewrite -!surjective_pairing; apply; rewrite /fits; clear -ab dd h1 h2; lia.
have [cp ep] := @lowest_spec (x.1 * y.1) (x.2 * y.2) ltac:(clear -dd; lia).
split=> //; set pr := RatSpec.lowest _ _ in cp ep *.
apply: (Z.mul_reg_r _ _ (x.2 * y.2)); first by clear -dd; lia.
transitivity ((pr.1 * (x.2 * y.2)) * (q * r))%Z; first by ring.
rewrite ep; transitivity (pr.2 * ((x.1 * q) * (y.1 * r)))%Z; first by ring.
by rewrite ex ey; ring.
Qed.

Lemma frac_add_fits x y q a b : canonical_pair x -> canonical_pair y -> (1 <= q)%Z ->
  (x.1 * q = x.2 * a)%Z -> (y.1 * q = y.2 * b)%Z ->
  ((Z.abs a + Z.abs b) * q < 2 ^ (w - 1))%Z -> (q * q < 2 ^ (w - 1))%Z ->
  exists2 z, returns (add RF x y) z & canonical_pair z /\ (z.1 * q = z.2 * (a + b))%Z.
Proof.
move=> cx cy q1 ex ey h1 h2.
have [x1 x2] := canonical_bounds cx q1 ex; have [y1 y2] := canonical_bounds cy q1 ey.
have qq : (q <= q * q)%Z by clear -q1; nia.
have b1 : (Z.abs x.1 * y.2 + x.2 * Z.abs y.1 <= (Z.abs a + Z.abs b) * q)%Z.
  have := Z.abs_nonneg x.1; have := Z.abs_nonneg y.1; clear -x1 x2 y1 y2; nia.
have b2 : (x.2 * y.2 <= q * q)%Z by clear -x2 y2; nia.
have := @rat_add cfg w w2 x.1 x.2 y.1 y.2 ltac:(rewrite /fits; clear -x2 qq h2; lia)
  ltac:(clear -x2; lia) ltac:(clear -y2; lia).
rewrite -!surjective_pairing; case: Z.eqb_spec => [e|_] [r _].
  exists (RatSpec.lowest (x.1 + y.1) x.2).
    apply: r; rewrite /fits; move: b1; rewrite -e.
    have := Z.abs_nonneg x.1; have := Z.abs_nonneg y.1; clear -x2 h1 => *; nia.
  have [c ez] := @lowest_spec (x.1 + y.1) x.2 ltac:(clear -x2; lia).
  split=> //; set z := RatSpec.lowest _ _ in c ez *.
  apply: (Z.mul_reg_r _ _ x.2); first by clear -x2; lia.
  transitivity ((z.1 * x.2) * q)%Z; first by ring.
  rewrite ez; transitivity (z.2 * (x.1 * q + y.1 * q))%Z; first by ring.
  by rewrite ex ey -e; ring.
have nx : Z.abs (x.1 * y.2) = (Z.abs x.1 * y.2)%Z by rewrite Z.abs_mul (Z.abs_eq y.2) //; clear -y2; lia.
have ny : Z.abs (x.2 * y.1) = (x.2 * Z.abs y.1)%Z by rewrite Z.abs_mul (Z.abs_eq x.2) //; clear -x2; lia.
exists (RatSpec.lowest (x.1 * y.2 + x.2 * y.1) (x.2 * y.2)).
  have xy : (1 <= x.2 * y.2)%Z by clear -x2 y2; nia.
  by apply: r; rewrite /fits; clear -nx ny b1 b2 h1 h2 xy; lia.
have [c ez] := @lowest_spec (x.1 * y.2 + x.2 * y.1) (x.2 * y.2) ltac:(clear -x2 y2; nia).
split=> //; set z := RatSpec.lowest _ _ in c ez *.
apply: (Z.mul_reg_r _ _ (x.2 * y.2)); first by clear -x2 y2; nia.
transitivity ((z.1 * (x.2 * y.2)) * q)%Z; first by ring.
rewrite ez; transitivity (z.2 * ((x.1 * q) * y.2 + x.2 * (y.1 * q)))%Z; first by ring.
by rewrite ex ey; ring.
Qed.

Lemma entries_prep n v (N : 'M[QF]_n) : size v = (n * n)%nat ->
  (forall i j : 'I_n, prep (nth (0%Z, 1%Z) v (i * n + j)) (N i j)) -> mat_rep prep v N.
Proof.
move=> sv ev.
exists (map (fun x : Z * Z => phi x.1 / phi x.2) v); split; last first.
- move=> i j; have [_ ->] := ev i j; rewrite (nth_map (0%Z, 1%Z)) // sv.
  by have := ltn_ord i; have := ltn_ord j; nia.
- by rewrite size_map.
apply: (@reps_nthP _ _ _ (0%Z, 1%Z) 0%R); first by rewrite size_map.
move=> k; rewrite size_map => kv; rewrite (nth_map (0%Z, 1%Z)) //.
have kn : (k < n * n)%nat by rewrite -sv.
have [h1 h2 h3] := ix_div kn.
by have [/= h _] := ev (Ordinal h1) (Ordinal h2); rewrite /= -h3 in h.
Qed.
Lemma cross_prep x (d a : ZR) : canonical_pair x -> (1 <= d)%Z -> (x.1 * d = x.2 * a)%Z ->
  prep x (phi a / phi d).
Proof.
move=> cx h e; split=> //; have [d0 _] := cx.
have d1 : (x.2 : ZR) != 0 by apply/eqP => h1; rewrite h1 in d0.
have d2 : (d : ZR) != 0 by apply/eqP => h1; rewrite h1 in h.
apply/eqP; rewrite eq_sym eqr_div ?phi0 // -!rmorphM (eqtype.inj_eq (@tofrac_inj ZR)).
by apply/eqP; rewrite [RHS]mulrC; exact: e.
Qed.

Lemma rational_product n v u (N T : 'M[Z]_n) (D E : 'I_n -> Z) (B C d e : Z) :
  ratio_entries v N D -> column_entries u T E ->
  (forall i j, (Z.abs (N i j) <= B)%Z) -> (forall i j, (Z.abs (T i j) <= C)%Z) ->
  (forall i, (D i <= d)%Z) -> (forall j, (E j <= e)%Z) ->
  (Z.of_nat n * (B * C) * (d * e) < 2 ^ (w - 1))%Z -> ((d * e) * (d * e) < 2 ^ (w - 1))%Z ->
  exists2 z, returns (matrix_mul RF n v u) z & size z = (n * n)%nat /\
    forall i j : 'I_n, let x := nth (0%Z, 1%Z) z (i * n + j) in
      canonical_pair x /\ (x.1 * (D i * E j) = x.2 * (N *m T)%R i j)%Z.
Proof.
move=> [sv D1 ev] [su E1 eu] hB hC hd he h1 h2.
pose NQ : 'M[QF]_n := \matrix_(i, j) (phi (N i j) / phi (D i)).
pose TQ : 'M[QF]_n := \matrix_(i, j) (phi (T i j) / phi (E j)).
pose PQ : 'M[QF]_n := \matrix_(i, j) (phi ((N *m T) i j) / phi (D i * E j)).
have vN : mat_rep prep v NQ.
  by apply: entries_prep => // i j; rewrite mxE; have [c r] := ev i j; apply: cross_prep.
have uT : mat_rep prep u TQ.
  by apply: entries_prep => // i j; rewrite mxE; have [c r] := eu i j; apply: cross_prep.
have DE i j : (1 <= D i * E j <= d * e)%Z.
  by have := D1 i; have := E1 j; have := hd i; have := he j; nia.
suff h : ensures False (matrix_mul RF n v u) (fun z => mat_rep prep z PQ).
  have [z [r hz]] := ensures_False h; exists z => //.
  have [s [us ss sE]] := hz; split; first by rewrite (reps_size us) ss.
  move=> i j; have kn : (i * n + j < n * n)%nat by have := ltn_ord i; have := ltn_ord j; nia.
  have := reps_nth (0%Z, 1%Z) 0%R us (i := (i * n + j)%nat); rewrite ss -sE => /(_ kn).
  move=> -[cx xE]; split=> //; apply: cross => //.
    by apply/eqP => e0; have := DE i j; rewrite (_ : (D i * E j)%Z = 0) //; case.
  by rewrite -xE mxE.
rewrite /matrix_mul; apply: ensures_assert_bind.
  by rewrite /matrix_len sv su eqxx.
apply: ensures_bind (mat_transpose False uT) _ => u' u'T.
apply: mrep_build => i j res.
apply: (@ensures_bind _ _ _ _ _ (fun s => s = (0, 1)%Z)).
  by apply: (@ensures_returns _ _ _ _ (0, 1)%Z) => //; exists 0%nat.
move=> _ ->.
pose S m := (\sum_(k < n | (k < m)%nat) N i k * T k j)%R.
have SB m : (m <= n)%nat -> (Z.abs (S m) <= Z.of_nat m * (B * C))%Z.
  elim: m => [|m IH] mn; first by rewrite /S big_pred0.
  have -> : S m.+1 = (S m + N i (Ordinal mn) * T (Ordinal mn) j)%R.
    rewrite /S (bigD1 (Ordinal mn)) //= addrC; congr (_ + _); apply: eq_bigl => k.
    by rewrite ltnS ltn_neqAle andbC -(eqtype.inj_eq val_inj).
  have := IH (ltnW mn); have := hB i (Ordinal mn); have := hC (Ordinal mn) j.
  set a := N _ _; set b := T _ _; set s := S m => hb ha hs.
  change (Z.abs (s + a * b) <= Z.of_nat m.+1 * (B * C))%Z.
  have : (Z.abs (a * b) <= B * C)%Z.
    by rewrite Z.abs_mul; apply: Z.mul_le_mono_nonneg => //; exact: Z.abs_nonneg.
  by have := Z.abs_triangle s (a * b); clear -hs; lia.
pose I m (s : Z * Z) := canonical_pair s /\ (s.1 * (D i * E j) = s.2 * S m)%Z.
have I0 : I 0%nat (0, 1)%Z by rewrite /I /S big_pred0.
apply: ensures_bind (@ensures_for _ False 0 n _ _ I I0 _) _; last first.
  move=> s [cs es]; apply: ensures_ret; exists s => //; rewrite mxE; apply: cross_prep => //.
    by have [] := DE i j.
  rewrite es; congr (_ * _)%Z; rewrite mxE /S; apply: eq_bigl => k.
  by rewrite add0n ltn_ord.
move=> m s /andP[_]; rewrite add0n => mlt [cs es].
apply: ensures_bind (mrep_get False (ltn_ord i) mlt vN) _ => x xN.
apply: ensures_bind (mrep_get False (ltn_ord j) mlt u'T) _ => y yT.
set om := Ordinal mlt; rewrite ordE mxE in xN; rewrite ordE !mxE in yT.
have nz (a : Z) : (1 <= a)%Z -> (a : ZR) != 0 by move=> a1; apply/eqP => a0; move: a1; rewrite a0.
case: xN => cx ex; case: yT => cy ey.
have {}ex := cross cx (nz _ (D1 i)) (esym ex); have {}ey := cross cy (nz _ (E1 j)) (esym ey).
have nB := hB i om; have nC := hC om j; have de2 := DE i j.
have ab : (Z.abs (N i om * T om j) <= B * C)%Z.
  by rewrite Z.abs_mul; apply: Z.mul_le_mono_nonneg => //; exact: Z.abs_nonneg.
have BC0 : (0 <= B * C)%Z by have := Z.abs_nonneg (N i om * T om j); clear -ab; lia.
have n1 : (Z.of_nat m.+1 <= Z.of_nat n)%Z by have := mlt; clear; lia.
have le1 : (Z.of_nat m.+1 * (B * C) * (D i * E j) <= Z.of_nat n * (B * C) * (d * e))%Z.
  clear -BC0 n1 de2; apply: Z.mul_le_mono_nonneg; try lia; nia.
have le2 : (D i * E j <= (d * e) * (d * e))%Z by clear -de2; nia.
have [||p rp [cp ep]] := frac_mul_fits cx cy (D1 i) (E1 j) ex ey.
- apply: Z.le_lt_trans h1; apply: Z.le_trans ab _; apply: Z.le_trans le1.
  by clear -BC0 de2; nia.
- by clear -le2 h2; lia.
apply: ensures_bind (ensures_returns _ rp (erefl _)) _ => _ <-.
have [||z rz [cz ez]] := frac_add_fits cs cp (proj1 de2) es ep.
- apply: Z.le_lt_trans h1; apply: Z.le_trans le1; apply: Z.mul_le_mono_nonneg_r; first by clear -de2; lia.
  by rewrite Nat2Z.inj_succ Z.mul_succ_l; apply: Z.add_le_mono (SB m (ltnW mlt)) ab.
- by apply: Z.le_lt_trans h2; apply: Z.mul_le_mono_nonneg; clear -de2; lia.
apply: ensures_returns rz _; split=> //; rewrite ez; congr (_ * _)%Z.
rewrite [RHS](_ : S m.+1 = S m + N i om * T om j)%R //.
rewrite /S (bigD1 om) //= addrC; congr (_ + _); apply: eq_bigl => k.
by rewrite ltnS ltn_neqAle andbC -(eqtype.inj_eq val_inj).
Qed.
End Product.
