(** * PFitInt.v -- matrices of fractions of machine integers with small minors. *)

From mathcomp Require Import all_ssreflect all_fingroup all_algebra zify ssrZ.
From Coq Require Import ZArith Lia Znumtheory.
From Verif Require Import Rust Traits MInts MConstr RingTac Wp Spec ZFacts PIntsZ PInts PFrac PFracProps
  PropSpec ModSpec NumSpec PNum PChecked FracSpec RatSpec PRational PRat MatFacts PMat DetSpec PDet
  FitSpec PMinor PFit.

Set Implicit Arguments.
Unset Strict Implicit.
Unset Printing Implicit Defensive.

Import GRing.Theory.
Local Open Scope ring_scope.
Local Notation ZR := [idomainType of Z].
Local Notation QF := [fieldType of {fraction ZR}].
Local Notation phi := [rmorphism of @FracField.tofrac ZR].

(** ** Minors of the augmented matrix *)
Section Aug.
Variables (n : nat) (N : 'M[Z]_n).
Definition zaug (a : 'I_n) (b : 'I_n + 'I_n) : Z :=
  match b with inl b => N a b | inr b => (1%:M : 'M[Z]_n) a b end.

Lemma zaug_minor m (f : 'I_m -> 'I_n) (g : 'I_m -> 'I_n + 'I_n) : injective f ->
  \det (sub f g zaug) = 0 \/
  exists m' (f' g' : 'I_m' -> 'I_n) (b : bool), \det (sub f g zaug) = (-1) ^+ b * \det (sub f' g' N).
Proof.
elim: m f g => [|m IH] f g hf.
  right; exists 0%N, f, f, false; rewrite !det_mx00 expr0 mulr1 //.
case: (pickP (fun b => if g b is inr _ then true else false)) => [b|no]; last first.
  have hg b : {c | g b = inl c}.
    by case e : (g b) => [c|c]; [exists c|have := no b; rewrite e].
  right; exists m.+1, f, (fun b => sval (hg b)), false; rewrite expr0 mul1r.
  congr (\det _); apply/matrixP => a b; rewrite !mxE.
  by case: (hg b) => c /= ->.
case gb : (g b) => [//|y] _.
case: (pickP (fun a => f a == y)) => [a /eqP fa|no]; last first.
  left; rewrite (expand_det_col _ b) big1 // => a _.
  by rewrite mxE gb /= mxE no mul0r.
have e : \det (sub f g zaug) = (-1) ^+ odd (a + b)%nat * \det (sub (f \o lift a) (g \o lift b) zaug).
  rewrite (expand_det_col _ b) (bigD1 a) //= big1 ?addr0.
    rewrite mxE gb /= mxE fa eqxx mul1r /cofactor signr_odd; congr (_ * \det _).
    by apply/matrixP => x z; rewrite !mxE.
  by move=> x xa; rewrite mxE gb /= mxE -fa (eqtype.inj_eq hf) (negbTE xa) mul0r.
have hf' : injective (f \o lift a) by apply: inj_comp => //; exact: lift_inj.
case: (IH _ (g \o lift b) hf') => [z|[m' [f' [g' [b' z]]]]].
  by left; rewrite e z mulr0.
right; exists m', f', g', (odd (a + b)%nat (+) b'); rewrite e z mulrA -signr_addb //.
Qed.

Lemma sign_abs (b : bool) (x : Z) : Z.abs ((-1) ^+ b * x)%R = Z.abs x.
Proof. by case: b; rewrite ?expr0 ?expr1 ?mul1r // mulN1r; exact: Z.abs_opp. Qed.

Lemma zaug_within M m (f : 'I_m -> 'I_n) (g : 'I_m -> 'I_n + 'I_n) : minors_within M N ->
  injective f -> (Z.abs (\det (sub f g zaug)) <= M)%Z.
Proof.
move=> h hf; case: (zaug_minor g hf) => [->|[m' [f' [g' [b ->]]]]]; last by rewrite sign_abs; exact: h.
by have := h 0%N (fun x => f (widen_ord (leq0n m) x)) (fun x => f (widen_ord (leq0n m) x)); rewrite det_mx00 /=; lia.
Qed.
End Aug.

(** ** The bound for entries *)
Lemma abs_add (a b c d : Z) : (Z.abs a <= c)%Z -> (Z.abs b <= d)%Z -> (Z.abs (a + b)%R <= (c + d)%R)%Z.
Proof. by move=> h1 h2; rewrite (_ : (a + b)%R = Z.add a b) // (_ : (c + d)%R = Z.add c d) //; lia. Qed.
Lemma abs_sum (I : Type) (r : seq I) (F G : I -> Z) : (forall i, (Z.abs (F i) <= G i)%Z) ->
  (Z.abs (\sum_(i <- r) F i) <= \sum_(i <- r) G i)%Z.
Proof.
move=> h; elim: r => [|i r IH]; first by rewrite !big_nil.
by rewrite !big_cons; exact: abs_add.
Qed.
Lemma abs_prod m (F : 'I_m -> Z) (B : Z) : (forall i, (Z.abs (F i) <= B)%Z) -> (0 <= B)%Z ->
  (Z.abs (\prod_i F i) <= B ^ Z.of_nat m)%Z.
Proof.
elim: m F => [|m IH] F h B0; first by rewrite big_ord0.
rewrite big_ord_recl Nat2Z.inj_succ Z.pow_succ_r; last lia.
have h1 := IH (fun i => F (lift ord0 i)) (fun i => h _) B0; have h2 := h ord0.
rewrite Z.abs_mul; apply: Z.mul_le_mono_nonneg => //; exact: Z.abs_nonneg.
Qed.

Lemma sum_const (I : finType) (c : Z) : \sum_(i : I) c = (Z.of_nat #|I| * c)%Z :> Z.
Proof.
rewrite sumr_const; elim: #|I| => [|k IH]; first by rewrite mulr0n.
rewrite mulrS IH Nat2Z.inj_succ (_ : (c + _)%R = Z.add c (Z.of_nat k * c)) //; lia.
Qed.

Lemma entries_minors n (N : 'M[Z]_n) (B : Z) : (1 <= B)%Z ->
  (forall i j, (Z.abs (N i j) <= B)%Z) ->
  minors_within (Z.of_nat n`! * B ^ Z.of_nat n)%Z N.
Proof.
move=> B1 hN m f g.
have P0 : (0 <= Z.of_nat n`! * B ^ Z.of_nat n)%Z by apply: Z.mul_nonneg_nonneg; [lia|apply: Z.pow_nonneg; lia].
case hf : (injectiveb f); last first.
  have /injectivePn[x [y xy e]] := negbT hf.
  rewrite (determinant_alternate xy) //.
  by move=> z; rewrite !mxE e.
have mn : (m <= n)%nat by have := leq_card f (injectiveP _ hf); rewrite !card_ord.
have h : (Z.abs (\det (sub f g N)) <= Z.of_nat m`! * B ^ Z.of_nat m)%Z.
  rewrite /matrix.determinant.
  have h1 (s : 'S_m) : (Z.abs ((-1) ^+ odd_perm s * \prod_(i < m) sub f g N i (s i))%R <= B ^ Z.of_nat m)%Z.
    rewrite sign_abs; apply: abs_prod; last lia.
    by move=> i; rewrite mxE.
  apply: Z.le_trans; first exact: (abs_sum h1).
  rewrite sum_const card_Sn; exact: Z.le_refl.
apply: Z.le_trans h _; apply: Z.mul_le_mono_nonneg.
- exact: Nat2Z.is_nonneg.
- by have := leq_fact mn; lia.
- by apply: Z.pow_nonneg; lia.
- by apply: Z.pow_le_mono_r; lia.
Qed.

(** ** Fractions of machine integers *)
Section Inst.
Variables (cfg : Cfg) (w : Z).
Hypothesis w2 : (2 <= w)%Z.
Local Notation CI := (CheckedInts cfg w).
Local Notation RF := (ReducedFractions cfg CI).
Local Notation rep := (frac_rep (F := QF) phi Z_assoc (ci_rep w)).

Lemma rf_field : field_alg_spec cfg True rep RF.
Proof. exact: reduced_fractions_contract (CheckedInts_ok cfg w2). Qed.

Lemma phi0 (a : Z) : (phi a == 0 :> QF) = (a == 0).
Proof. exact: tofrac_eq0. Qed.

Lemma repP x q : rep x q -> [/\ canonical_pair x, in_i w x.1, in_i w x.2 & q = phi x.1 / phi x.2].
Proof.
move=> [a [b [[ea ia] [eb ib] [b0 b1 ab] ->]]]; rewrite ea eb in ia ib *; split=> //.
split; rewrite /= ?ea ?eb; last exact/Z_coprime.
apply/Z_arep; first exact/eqP.
by apply/arep_acoef.
Qed.

Definition goodz (M : Z) (q : QF) : Prop :=
  exists m1 m2 : Z, [/\ (Z.abs m1 <= M)%Z, (Z.abs m2 <= M)%Z, m2 != 0 & q = phi m1 / phi m2].

Lemma goodz_small M x q : rep x q -> goodz M q -> small M x.
Proof.
move=> xq [m1 [m2 [h1 h2 m20 qE]]]; have [cx _ _ qE'] := repP xq; split=> //.
case: cx => d0 g1; move: qE; rewrite qE' => /eqP.
have d0' : (x.2 : ZR) != 0 by apply/eqP; lia.
rewrite eqr_div ?phi0 // -!rmorphM /= (eqtype.inj_eq (@tofrac_inj ZR)) => /eqP e.
have e' : (x.1 * m2 = m1 * x.2)%Z by exact: e.
have : (x.2 | m2)%Z.
  apply: (Gauss _ x.1); last by apply: rel_prime_sym; apply/Zgcd_1_rel_prime.
  by exists m1.
move=> [k ek]; have k0 : k <> 0%Z by move=> h; move/eqP: m20; rewrite ek h.
have e1 : (x.1 * k = m1)%Z by apply: (Z.mul_reg_r _ _ x.2); [lia|rewrite -e' ek; ring].
split; last by nia.
by rewrite -e1 Z.abs_mul in h1; have := Z.abs_nonneg x.1; nia.
Qed.

Lemma goodzM M M' a b : goodz M a -> goodz M' b -> goodz (M * M') (a * b).
Proof.
move=> [m1 [m2 [h1 h2 h0 ->]]] [m3 [m4 [h3 h4 h0' ->]]].
exists (m1 * m3)%R, (m2 * m4)%R; split.
- by rewrite (_ : (m1 * m3)%R = (m1 * m3)%Z) // Z.abs_mul; apply: Z.mul_le_mono_nonneg; try exact: Z.abs_nonneg.
- by rewrite (_ : (m2 * m4)%R = (m2 * m4)%Z) // Z.abs_mul; apply: Z.mul_le_mono_nonneg; try exact: Z.abs_nonneg.
- exact: mulf_neq0.
- by rewrite !rmorphM /= invfM mulrACA.
Qed.

Variable M : Z.
Hypothesis hcfg : (2 <= ptr_bits cfg)%Z.
Hypothesis hM : (2 * M * M * M < 2 ^ (w - 1))%Z.

Lemma nopanic E (m : Rust.M E) P v Q : ensures P m Q -> returns m v -> ensures False m Q.
Proof. by move=> h hv; apply: ensures_nopanic h _ => hp; exact: returns_panics hv hp. Qed.

Let hR := id_ring_ok (eu_idom_ok (fi_eucl_ok rf_field)).
Let hC := ri_cm_ok hR.
Let hD := mo_dom_ok (ri_mon_ok hR).
Let hS := mo_sg_ok (ri_mon_ok hR).
Let hMo := mo_mo_ok (ri_mon_ok hR).
Let hB := ri_ab_ok hR.

Lemma equals_returns (x y : Z * Z) : exists b, returns (equals RF x y) b.
Proof.
exists (if (x.1 =? y.1)%Z then (x.2 =? y.2)%Z else false); exists 0%nat => k _.
by rewrite /= /fractions_equals /andM /bind /=; case: (x.1 =? y.1)%Z.
Qed.
Lemma is_zero_returns (x : Z * Z) : exists b, returns (is_zero RF x) b.
Proof. exact: (equals_returns x (Z0, Zpos xH)). Qed.

Lemma small_bounds x : small M x -> (1 <= M /\ 1 <= x.2 <= M /\ - M <= x.1 <= M)%Z.
Proof. by move=> [[h0 _] [h1 h2]]; lia. Qed.
Lemma M_bounds : (1 <= M -> M <= 2 * M * M * M /\ M * M <= 2 * M * M * M /\ 2 * M * M <= 2 * M * M * M)%Z.
Proof. by move=> h; nia. Qed.

Lemma mul_returns x a y b : rep x a -> rep y b -> goodz M a -> goodz M b ->
  exists v, returns (mul RF x y) v.
Proof.
move=> xa yb ga gb; have [m1 [x2 x1]] := small_bounds (goodz_small xa ga).
have [_ [y2 y1]] := small_bounds (goodz_small yb gb); have [_ [m2 _]] := M_bounds m1.
case: x y {xa yb} x1 x2 y1 y2 => [n1 d1] [n2 d2] /= x1 x2 y1 y2.
have [r _] := @rat_mul cfg w w2 n1 d1 n2 d2 ltac:(lia) ltac:(lia).
by eexists; apply: r; split; rewrite /fits; nia.
Qed.

Lemma fit_ints : fit_spec rep (goodz M) RF.
Proof.
have hmul x a y b : rep x a -> rep y b -> goodz M a -> goodz M b ->
    ensures False (mul RF x y) (rep^~ (a * b)).
  move=> xa yb ga gb; have [v r] := mul_returns xa yb ga gb.
  by apply: nopanic r; exact: (mul_ok hS xa yb).
split.
- apply: (@nopanic _ _ True (Z0, Zpos xH)); first exact: (zero_ok hC).
  by exists 0%nat.
- apply: (@nopanic _ _ True (Zpos xH, Zpos xH)); first exact: (one_ok hMo).
  by exists 0%nat.
- have hw : fits w 1.
    have : (2 ^ 1 <= 2 ^ (w - 1))%Z by apply: Z.pow_le_mono_r; lia.
    by rewrite /fits; lia.
  have [r _] := @rat_ztimes cfg w w2 1 1 1 hw ltac:(lia).
  have r1 : returns (int RF 1) (RatSpec.lowest 1 1) by exact: r (conj hw hw).
  apply: (nopanic _ r1); exact: (int_ok (ri_ur_ok hR) (good_isize1 hcfg)).
- move=> x a xa; have [b r] := is_zero_returns x.
  by apply: nopanic r; exact: (is_zero_ok hC xa).
- move=> x a y b xa yb; have [c r] := equals_returns x y.
  by apply: nopanic r; exact: (equals_ok hD xa yb).
- exact: hmul.
- exact: hmul.
- move=> x a y b c xa ybc ga gb gc.
  have hx := goodz_small xa ga; have hy := goodz_small ybc (goodzM gb gc).
  have [m1 [x2 x1]] := small_bounds hx; have [m3 [m2 m4]] := M_bounds m1.
  have haa : gives True rep (add_assign RF x y) (a + b * c) by exact: (add_assign_ok hC xa ybc).
  have [v r] : exists v, returns (add RF x y) v; last exact: nopanic haa r.
  have [_ fx _ _] := repP xa.
  case: x y {xa ybc haa} hx hy x1 x2 fx => [n1 d1] [n2 d2] /= hx [[/= d20 _] [/= n2b d2b]] x1 x2 fx.
  have fd : fits w d1 by rewrite /fits; nia.
  have := @rat_add cfg w w2 n1 d1 n2 d2 fd ltac:(lia) ltac:(lia).
  have p1 : (Z.abs (n1 * d2) <= M * (M * M))%Z by rewrite Z.abs_mul; apply: Z.mul_le_mono_nonneg; lia.
  have p2 : (Z.abs (d1 * n2) <= M * (M * M))%Z by rewrite Z.abs_mul; apply: Z.mul_le_mono_nonneg; lia.
  have p3 : (Z.abs (d1 * d2) <= M * (M * M))%Z by rewrite Z.abs_mul; apply: Z.mul_le_mono_nonneg; lia.
  have e4 : (2 * (M * (M * M)) = 2 * M * M * M)%Z by ring.
  have p4 : (2 * (M * (M * M)) < 2 ^ (w - 1))%Z by rewrite e4.
  have p5 : (M <= M * M)%Z by nia.
  have p6 : (M * M <= M * (M * M))%Z by nia.
  case: ifP => _ [r _]; eexists; apply: r; first by rewrite /fits; lia.
  by split; [|split; [|split]]; rewrite /fits; lia.
- move=> x a xa ga; have [m1 [x2 x1]] := small_bounds (goodz_small xa ga); have [m2 _] := M_bounds m1.
  have h : gives True rep (neg RF x) (- a) by exact: (neg_ok hB xa).
  case: x {xa} x1 x2 h => [n d] /= x1 x2 h; have [r _] := @rat_neg cfg w n d.
  by apply: nopanic h (r _); rewrite /fits; lia.
- move=> x a xa ga a0; have [m1 [x2 x1]] := small_bounds (goodz_small xa ga); have [m2 _] := M_bounds m1.
  have h : gives True rep (finv RF x) (a^-1) by exact: (finv_ok (fi_fi_ok rf_field) xa a0).
  have [_ _ _ aE] := repP xa.
  have n0 : x.1 <> Z0.
    by move=> e; move: a0; rewrite aE e rmorph0 mul0r eqxx.
  case: x {xa aE} n0 x1 x2 h => [n d] /= n0 x1 x2 h.
  have [r _] := @rat_inv cfg w w2 n d ltac:(rewrite /fits; lia) ltac:(rewrite /fits; lia) ltac:(lia).
  by apply: nopanic h (r _); split=> //; lia.
- move=> a [p [q [h1 h2 h0 ->]]]; exists (- p)%R, q; split=> //.
    by rewrite (_ : (- p)%R = Z.opp p) // Z.abs_opp.
  by rewrite rmorphN mulNr.
- move=> a [p [q [h1 h2 h0 ->]]] a0; exists q, p; split=> //.
    by apply: contraNneq a0 => ->; rewrite rmorph0 mul0r.
  by rewrite invfM invrK mulrC.
Qed.

Lemma rep_int x (z : Z) : rep x (phi z) -> x = (z, Zpos xH).
Proof.
move=> /repP[[d0 g1] _ _ /eqP]; rewrite eq_sym.
have d0' : (x.2 : ZR) != 0 by apply/eqP; lia.
rewrite -[phi z]divr1 -(rmorph1 phi) eqr_div ?phi0 ?rmorph1 ?oner_neq0 // mulr1.
rewrite -rmorphM /= (eqtype.inj_eq (@tofrac_inj ZR)) => /eqP e.
have e' : (x.1 = z * x.2)%Z by exact: e.
have x1 : (x.2 | 1)%Z.
  by rewrite -g1; apply: Z.gcd_greatest; [rewrite e'; exists z|exists 1%Z; rewrite Z.mul_1_l].
have x2 : x.2 = 1%Z by apply: Z.divide_1_r_nonneg => //; lia.
by move: e'; rewrite x2 Z.mul_1_r; case: x x2 {d0 g1 d0' e x1} => [a b] /= -> ->.
Qed.

Section Matrices.
Variables (n : nat) (N : 'M[Z]_n) (v : seq (Z * Z)).
Hypothesis hv : frac_entries v N.
Hypothesis hN : minors_within M N.
Local Notation NF := (map_mx phi N : 'M[QF]_n).

Lemma M_pos : (1 <= M)%Z.
Proof.
have := @hN 0%nat (fun x : 'I_0 => widen_ord (leq0n n) x) (fun x => widen_ord (leq0n n) x).
by rewrite det_mx00.
Qed.
Lemma entry_bound i j : (Z.abs (N i j) <= M)%Z.
Proof. by have := @hN 1%nat (fun _ : 'I_1 => i) (fun _ => j); rewrite det_mx11 mxE. Qed.

Lemma int_rep (a : Z) : (Z.abs a <= M)%Z -> rep (a, Zpos xH) (phi a).
Proof.
move=> ha; have [m1 _] := M_bounds M_pos; have := M_pos => m0.
exists a, 1%R; split=> /=.
- by split=> //; apply/fitsP; rewrite /fits; lia.
- by split=> //; apply/fitsP; rewrite /fits; lia.
- split; [exact: oner_neq0| |exists 0, 1; rewrite mul0r add0r mulr1 //].
  by have [_ h _] := lowest1 Z_assoc.
- by rewrite rmorph1 divr1.
Qed.

Lemma entries_rep : mat_rep rep v NF.
Proof.
have [sv ev] := hv.
exists (map (fun x : Z * Z => phi x.1) v); split; last first.
- move=> i j; rewrite mxE (nth_map (0%Z, 1%Z)) ?ev // sv.
  by have := ltn_ord i; have := ltn_ord j; nia.
- by rewrite size_map.
apply: (@reps_nthP _ _ _ (0%Z, 1%Z) 0%R); first by rewrite size_map.
move=> k; rewrite size_map => kv; rewrite (nth_map (0%Z, 1%Z)) //.
have kn : (k < n * n)%nat by rewrite -sv.
have [h1 h2 h3] := ix_div kn.
have e := ev (Ordinal h1) (Ordinal h2); rewrite /= -h3 in e; rewrite e /=.
apply: int_rep; exact: entry_bound.
Qed.

Lemma ratio_good q : ratio (NF : 'I_n -> 'I_n -> QF) q -> goodz M q.
Proof.
have e m (f g : 'I_m -> 'I_n) : sub f g NF = map_mx phi (sub f g N).
  by apply/matrixP => a b; rewrite !mxE.
move=> [m [f [g [m' [f' [g' [-> d0 _ _]]]]]]]; rewrite !e !det_map_mx in d0 *.
by rewrite phi0 in d0; exists (\det (sub f g N)), (\det (sub f' g' N)).
Qed.
Lemma ratio_aug_good q : ratio (aug NF 1%:M) q -> goodz M q.
Proof.
have e m (f : 'I_m -> 'I_n) g : sub f g (aug NF 1%:M) = map_mx phi (sub f g (zaug N)).
  by apply/matrixP => a b; rewrite !mxE; case: (g b) => c /=; rewrite !mxE ?rmorph_nat.
move=> [m [f [g [m' [f' [g' [-> d0 hf hf']]]]]]]; rewrite !e !det_map_mx in d0 *.
rewrite phi0 in d0; exists (\det (sub f g (zaug N))), (\det (sub f' g' (zaug N))).
by split=> //; exact: zaug_within.
Qed.

Lemma small_determinant : returns (determinant RF n v)
  (((-1) ^+ exchanges NF * \det N)%R, Zpos xH).
Proof.
have h1 := determinant_sign rf_field hcfg entries_rep.
have [x [r _]] := ensures_False (fit_determinant fit_ints ratio_good entries_rep).
have := ensures_value h1 r; rewrite det_map_mx -(rmorph1 phi) -rmorphN -rmorphX -rmorphM.
by move=> /rep_int <-.
Qed.

Lemma small_invertible : returns (matrix_invertible RF n v) (\det N != 0).
Proof.
apply: returns_bind small_determinant _.
have -> : (\det N != 0) = ~~ (((-1) ^+ exchanges NF * \det N)%R == 0).
  by rewrite mulf_eq0 signr_eq0.
set d := ((-1) ^+ _ * _)%R; exists 0%nat => k _.
rewrite /notM /bind /= /default_is_zero /bind /= /fractions_equals /andM /bind /=.
by rewrite (_ : (d == 0) = (d =? 0)%Z) //; case: (d =? 0)%Z.
Qed.

Lemma small_inverse :
  if \det N == 0 then returns (matrix_try_inv cfg RF n v) None
  else exists2 u, returns (matrix_try_inv cfg RF n v) (Some u) &
    size u = (n * n)%nat /\ forall i j : 'I_n, let x := nth (0%Z, 1%Z) u (i * n + j) in
      canonical_pair x /\ (x.1 * \det N = x.2 * (\adj N) i j)%Z.
Proof.
have h1 := mat_try_inv rf_field hcfg entries_rep.
have [o [r _]] := ensures_False (fit_try_inv cfg fit_ints ratio_aug_good entries_rep).
have := ensures_value h1 r; case: o r => [u|] r h.
  case: h => T uT [NT TN].
  have dT : (phi (\det N) * \det T)%R = 1 by rewrite -det_map_mx -det_mulmx NT det1.
  have d0 : \det N != 0.
    by apply/eqP => e; move/eqP: dT; rewrite e rmorph0 mul0r eq_sym oner_eq0.
  rewrite (negbTE d0); exists u => //; have [s [us ss sE]] := uT.
  split; first by rewrite (reps_size us) ss.
  move=> i j; have kn : (i * n + j < n * n)%nat by have := ltn_ord i; have := ltn_ord j; nia.
  have := reps_nth (0%Z, 1%Z) 0%R us (i := (i * n + j)%nat); rewrite ss -sE => /(_ kn).
  move=> /repP[cx _ _ xE]; split=> //.
  have e : (phi (\det N) *: T)%R = map_mx phi (\adj N).
    by rewrite map_mx_adj -[RHS]mulmx1 -NT mulmxA mul_adj_mx mul_scalar_mx det_map_mx.
  have e1 := congr1 (fun Y : 'M__ => Y i j) e; rewrite [LHS]mxE [RHS]mxE xE in e1.
  set x := nth _ _ _ in cx e1 *; case: cx => d0' _.
  have d1 : (x.2 : ZR) != 0 by apply/eqP; lia.
  apply: (@tofrac_inj ZR); rewrite -[LHS]/(phi (x.1 * \det N)%R) -[RHS]/(phi (x.2 * (\adj N) i j)%R).
  rewrite !(rmorphM phi); transitivity (phi x.2 * (phi (\det N) * (phi x.1 / phi x.2)))%R.
    by rewrite mulrCA [phi x.2 * _]mulrC divfK ?phi0 // mulrC.
  by congr (_ * _); exact: e1.
case: eqP => [//|/eqP d0]; exfalso.
have u : NF \in unitmx by rewrite unitmxE det_map_mx unitfE phi0.
by apply: (h (invmx NF)); split; [exact: mulmxV|exact: mulVmx].
Qed.
End Matrices.
End Inst.

(** ** Products of integer matrices *)
Section Product.
Variables (cfg : Cfg) (w : Z).
Hypothesis w2 : (2 <= w)%Z.
Local Notation RF := (ReducedFractions cfg (CheckedInts cfg w)).
Definition irep (x : Z * Z) (q : QF) : Prop := exists2 a, x = (a, 1%Z) & q = phi a.

Lemma fits1 : fits w 1.
Proof.
have : (2 ^ 1 <= 2 ^ (w - 1))%Z by apply: Z.pow_le_mono_r; lia.
by rewrite /fits; lia.
Qed.
Lemma lowest_1 z : RatSpec.lowest z 1 = (z, 1%Z).
Proof. by rewrite /RatSpec.lowest Z.gcd_1_r !Z.div_1_r. Qed.
Lemma imul_returns a b : fits w (a * b) -> returns (mul RF (a, 1%Z) (b, 1%Z)) (a * b, 1)%Z.
Proof.
move=> h; have [r _] := @rat_mul cfg w w2 a 1 b 1 ltac:(lia) ltac:(lia).
by rewrite -(lowest_1 (a * b)%Z); apply: r; split=> //; exact: fits1.
Qed.
Lemma iadd_returns a b : fits w (a + b) -> returns (add RF (a, 1%Z) (b, 1%Z)) (a + b, 1)%Z.
Proof.
move=> h; have := @rat_add cfg w w2 a 1 b 1 fits1 ltac:(lia) ltac:(lia).
by move=> /= [r _]; rewrite -(lowest_1 (a + b)%Z); apply: r.
Qed.

Lemma irep_entries n v (N : 'M[Z]_n) : frac_entries v N -> mat_rep irep v (map_mx phi N : 'M[QF]_n).
Proof.
move=> [sv ev].
exists (map (fun x : Z * Z => phi x.1) v); split; last first.
- move=> i j; rewrite mxE (nth_map (0%Z, 1%Z)) ?ev // sv.
  by have := ltn_ord i; have := ltn_ord j; nia.
- by rewrite size_map.
apply: (@reps_nthP _ _ _ (0%Z, 1%Z) 0%R); first by rewrite size_map.
move=> k; rewrite size_map => kv; rewrite (nth_map (0%Z, 1%Z)) //.
have kn : (k < n * n)%nat by rewrite -sv.
have [h1 h2 h3] := ix_div kn.
have e := ev (Ordinal h1) (Ordinal h2); rewrite /= -h3 in e; rewrite e /=.
by eexists.
Qed.
Lemma entries_irep n v (N : 'M[Z]_n) : mat_rep irep v (map_mx phi N : 'M[QF]_n) -> frac_entries v N.
Proof.
move=> [r [vr sr rE]]; split; first by rewrite (reps_size vr) sr.
move=> i j; have kn : (i * n + j < n * n)%nat by have := ltn_ord i; have := ltn_ord j; nia.
have [a ->] := reps_nth (0%Z, 1%Z) 0%R vr (i := (i * n + j)%nat) ltac:(by rewrite sr).
by rewrite -rE mxE => /(@tofrac_inj ZR) ->.
Qed.

(** Every product and every partial sum fits. *)
Lemma product_fits n v u (N T : 'M[Z]_n) : frac_entries v N -> frac_entries u T ->
  (forall i j k : 'I_n, fits w (N i k * T k j)) ->
  (forall i j (m : nat), fits w (\sum_(k < n | (k < m)%nat) N i k * T k j)%R) ->
  exists2 z, returns (matrix_mul RF n v u) z & frac_entries z (N *m T)%R.
Proof.
move=> hv hu hp hs; have vN := irep_entries hv; have uT := irep_entries hu.
suff h : ensures False (matrix_mul RF n v u) (fun z => mat_rep irep z (map_mx phi (N *m T) : 'M[QF]_n)).
  by have [z [r hz]] := ensures_False h; exists z => //; exact: entries_irep.
rewrite /matrix_mul; apply: ensures_assert_bind.
  by rewrite /matrix_len (proj1 hv) (proj1 hu) eqxx.
apply: ensures_bind (mat_transpose False uT) _ => u' u'T.
apply: mrep_build => i j res.
apply: (@ensures_bind _ _ _ _ _ (fun s => s = (0, 1)%Z)).
  by apply: (@ensures_returns _ _ _ _ (0, 1)%Z) => //; exists 0%nat.
move=> _ ->.
pose I m (s : Z * Z) := s = ((\sum_(k < n | (k < m)%nat) N i k * T k j)%R, 1%Z).
have I0 : I 0%nat (0, 1)%Z by rewrite /I big_pred0.
apply: ensures_bind (@ensures_for _ False 0 n _ _ I I0 _) _; last first.
  move=> s ->; apply: ensures_ret; eexists; first by [].
  eexists; first by []; rewrite mxE; congr (phi _); rewrite mxE; apply: eq_bigl => k.
  by rewrite add0n ltn_ord.
move=> m s /andP[_]; rewrite add0n => mlt ->.
apply: ensures_bind (mrep_get False (ltn_ord i) mlt vN) _ => x [a ->].
rewrite ordE mxE => /(@tofrac_inj ZR) <-.
apply: ensures_bind (mrep_get False (ltn_ord j) mlt u'T) _ => y [b ->].
rewrite ordE !mxE => /(@tofrac_inj ZR) <-.
set om := Ordinal mlt.
apply: ensures_bind (ensures_returns _ (imul_returns (hp i j om)) (erefl _)) _ => p <-.
have e : (\sum_(k < n | (k < m.+1)%nat) N i k * T k j =
    \sum_(k < n | (k < m)%nat) N i k * T k j + N i om * T om j)%R.
  rewrite (bigD1 om) //= addrC; congr (_ + _); apply: eq_bigl => k.
  by rewrite ltnS ltn_neqAle andbC -(eqtype.inj_eq val_inj).
have f := hs i j m.+1; rewrite e in f.
by apply: ensures_returns (iadd_returns f) _; rewrite /I e.
Qed.
End Product.

Lemma product_small (cfg : Cfg) (w : Z) : (2 <= w)%Z -> forall n v u (N T : 'M[Z]_n) (B C : Z),
  frac_entries v N -> frac_entries u T ->
  (forall i j, (Z.abs (N i j) <= B)%Z) -> (forall i j, (Z.abs (T i j) <= C)%Z) ->
  (Z.of_nat n * (B * C) < 2 ^ (w - 1))%Z ->
  exists2 z, returns (matrix_mul (ReducedFractions cfg (CheckedInts cfg w)) n v u) z &
    frac_entries z (N *m T)%R.
Proof.
move=> w2 n v u N T B C hv hu hN hT hb.
have hp i k j : (Z.abs (N i k * T k j) <= B * C)%Z.
  by rewrite Z.abs_mul; apply: Z.mul_le_mono_nonneg => //; exact: Z.abs_nonneg.
have f (x : Z) : (Z.abs x <= Z.of_nat n * (B * C))%Z -> fits w x by rewrite /fits; lia.
apply: product_fits => // i j.
  move=> k; apply: f; have := hp i k j; have := ltn_ord k; have := Z.abs_nonneg (N i k * T k j); nia.
move=> m; apply: f; rewrite big_mkcond /=.
have h (k : 'I_n) : (Z.abs (if (k < m)%nat then (N i k * T k j)%R else 0) <= B * C)%Z.
  by case: ifP => _; [exact: hp|have := hp i k j; have := Z.abs_nonneg (N i k * T k j); rewrite /=; lia].
apply: Z.le_trans; first exact: (abs_sum h).
by rewrite sum_const card_ord; exact: Z.le_refl.
Qed.
