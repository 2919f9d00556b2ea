(** * PRepr2.v -- characteristic polynomials and matrices of multiplication. *)

From Coq Require Import ZArith Lia List.
From mathcomp Require Import all_ssreflect all_algebra all_fingroup zify ssrZ.
From Verif Require Import Rust Traits MInts MConstr RingTac Wp Spec PropSpec RingSpec PDefaults.
From Verif Require Import PInts POrders PGroups Quotient PQuot PFrac PFracProps PPoly PTower Laws PLaws GcdLaw PGcdLaw HomLaw PHom EvalLaw.
From Verif Require Import MatFacts DetSpec PVec PMat PMatProps PDet PPerm TimesLaw PTimesLaw ReprSpec PEval PRepr PResidue.

Set Implicit Arguments.
Unset Strict Implicit.
Unset Printing Implicit Defensive.

Import GRing.Theory.
Local Open Scope ring_scope.

Definition mhorner (F : fieldType) n (s : seq F) (N : 'M[F]_n) : 'M[F]_n := foldr (fun c T => T *m N + c%:M) 0 s.
Lemma cayley (F : fieldType) n (N : 'M[F]_n) : mhorner (char_poly N) N = 0.
Proof.
case: n N => [|k] N; first by apply/matrixP => -[].
have e s : foldr (fun c T => T *m N + c%:M) 0 s = horner_mx N (Poly s).
  by elim: s => [|c s IH] /=; rewrite ?rmorph0 // cons_poly_def rmorphD rmorphM /= horner_mx_X horner_mx_C IH.
by have := Cayley_Hamilton N; rewrite -[char_poly N in X in X -> _]polyseqK -e.
Qed.

Section Field.
Variables (cfg : Cfg) (p : Prop) (E : Type) (n : nat) (F : fieldType) (rep : E -> F -> Prop).
Variable A : FieldAlg E.
Hypothesis hA : field_alg_spec cfg p rep A.
Hypothesis hc : Z.le (Zpos (xO xH)) (ptr_bits cfg).
Let hR := id_ring_ok (eu_idom_ok (fi_eucl_ok hA)).
Let hC := ri_cm_ok hR.
Let hM := mo_mo_ok (ri_mon_ok hR).
Local Notation mof := (@matrix_of n E F rep).
Let hX : ring_alg_spec cfg p mof mulmx 1%:M (MatrixRing cfg A n) := MatrixRing_ok hA n hc.
Let hP := PolyEucl_ok hA.
Local Notation Fr := (ReducedFractions cfg (PolyEucl A)).
Let hFr := reduced_fractions_contract hP.
Local Notation phi := (@FracField.tofrac (poly_idomainType F)).
Local Notation frep := (frac_rep (F := [fieldType of {fraction (poly_idomainType F)}]) phi
  (poly_assoc (field_assoc F)) (poly_rep rep)).

(** ** Values *)
Lemma matrix_value_rec u s v N : Forall2 rep u s -> mof v N ->
  gives p mof (matrix_value cfg A n u v) (mhorner s N).
Proof.
move=> us vN; rewrite /matrix_value.
have h : ensures p (mapM (scalar A n) u) (fun w => reps mof w (map (fun c => c%:M : 'M[F]_n) s)).
  by apply: (ensures_mapM (rep' := mof) us) => x a xa; exact: (scalar_ok n hA).
apply: ensures_bind h _ => w; elim: s {us} w => [|c s IH] w h; inversion_clear h => /=.
  exact: zero_ok (ri_cm_ok hX).
apply: ensures_bind (IH _ H0) _ => y yT.
apply: ensures_bind (mul_ok (mo_sg_ok (ri_mon_ok hX)) yT vN) _ => z zT.
exact: (add_ok (ri_cm_ok hX) zT H).
Qed.
Lemma mhornerE s (N : 'M[F]_n) : mhorner s N = \sum_(i < size s) s`_i *: iter i (mulmx^~ N) 1%:M.
Proof.
elim: s => [|c s IH] /=; first by rewrite big_ord0.
rewrite big_ord_recl /= scalemx1 addrC IH mulmx_suml; congr (_ + _); apply: eq_bigr => i _.
by rewrite -scalemxAl.
Qed.
Lemma matrix_value_ok u P v N : poly_of rep u P -> mof v N -> gives p mof (matrix_value cfg A n u v)
  (\sum_(i < size P) P`_i *: iter i (mulmx^~ N) 1%:M).
Proof. by move=> uP vN; rewrite -mhornerE; exact: matrix_value_rec. Qed.

(** ** Characteristic polynomials *)
Lemma char_entry_ok d a c : rep a c ->
  gives p frep (char_entry A d a) (phi (if d then 'X - c%:P else - c%:P)).
Proof.
move=> ac; apply: ensures_bind (neg_ok (ri_ab_ok hR) ac) _ => b bc.
apply: ensures_bind (one_ok hM) _ => o o1.
have h : ensures p (if d then ret [:: b; o] else to_constant A b)
    (fun z => poly_rep rep z (if d then 'X - c%:P else - c%:P)).
  case: d; last by rewrite -polyCN; exact: (to_constant_ok hR bc).
  apply: ensures_ret; rewrite /poly_rep polyseqXsubC.
  by do 2!apply: Forall2_cons => //; exact: Forall2_nil.
apply: ensures_bind h _ => z zP; apply: ensures_ret.
exists (if d then 'X - c%:P else - c%:P), 1; split=> //.
- rewrite /poly_rep polyseq1; apply: Forall2_cons => //; exact: Forall2_nil.
- exact: lowestx1.
- by rewrite rmorph1 divr1.
Qed.

Lemma char_matrix_ok v N : mof v N ->
  gives p (@matrix_of n _ _ frep) (char_matrix A n v) (map_mx phi (char_poly_mx N)).
Proof.
move=> [r [vr sr rE]]; have sv : size v = (n * n)%N by rewrite (reps_size vr).
pose rep2 (ka : nat * E) (kc : nat * F) := ka.1 = kc.1 /\ rep ka.2 kc.2.
have z2 a k : size v = k -> reps rep2 (zip (iota a k) v) (zip (iota a k) r).
  move: k a; elim: {sv sr rE} vr => [|x c v' s xc _ IH] [|k] a //= => [_|[e]]; first exact: Forall2_nil.
  by apply: Forall2_cons => //; exact: IH.
pose g (kc : nat * F) : {fraction {poly F}} :=
  phi (if (kc.1 %/ n == kc.1 %% n)%N then 'X - (kc.2)%:P else - (kc.2)%:P).
apply: ensures_mono (ensures_mapM (rep' := frep) (g := g) (z2 0%N _ sv) _) _.
  by move=> [k a] [k' c] [/= -> ac]; exact: char_entry_ok.
move=> w wr; exists (map g (zip (iota 0 (n * n)) r)); split=> //.
  by rewrite size_map size_zip size_iota sr minnn.
move=> i j; have ij := ix_lt (ltn_ord i) (ltn_ord j).
rewrite (nth_map (0%N, 0)) ?size_zip ?size_iota ?sr ?minnn //.
rewrite nth_zip ?size_iota ?sr // nth_iota // add0n /g /= -rE !mxE.
have [h1 h2 h3] := ix_div ij.
have /andP[/eqP <- /eqP <-] : ((i : nat) == (i * n + j) %/ n)%N && ((j : nat) == (i * n + j) %% n)%N.
  by rewrite -(ix_eq _ _ (ltn_ord j) h2); apply/eqP.
by rewrite -(inj_eq val_inj) /=; case: eqP => _; rewrite ?mulr1n ?sub0r.
Qed.

Lemma lsub_char m (mn : (m <= n)%N) (N : 'M[F]_n) :
  lsub mn (map_mx phi (char_poly_mx N)) = map_mx phi (char_poly_mx (lsub mn N)).
Proof. by apply/matrixP => i j; rewrite !mxE. Qed.

Lemma char_poly_ok v N : mof v N ->
  ensures p (char_fraction cfg A n v)
    (fun z => poly_of rep z.1 (char_poly N) /\ poly_of rep z.2 1).
Proof.
move=> vN; apply: ensures_bind (char_matrix_ok vN) _ => w wN.
apply: ensures_mono (matrix_determinant hFr hc wN) _ => z [_ _ _ h].
have [a [b [za zb ab e]]] : frep z (phi (char_poly N)).
  rewrite /char_poly -det_map_mx; apply: h => m mn _; rewrite lsub_char det_map_mx => /eqP.
  by rewrite tofrac_eq0; apply/negP/monic_neq0/char_poly_monic.
have b0 : b != 0 by case: ab.
have [e1 e2] : a = char_poly N /\ b = 1.
  apply: (lowest_uniq ab (lowestx1 _ _)); apply: (@tofrac_inj (poly_idomainType F)).
  by rewrite mulr1 tofracM e divfK ?tofrac_eq0.
by rewrite e1 e2 in za zb.
Qed.
Lemma cayley_ok v N : mof v N -> holds p
  (let! d := char_fraction cfg A n v in
   let! y := matrix_value cfg A n d.1 v in is_zero (MatrixRing cfg A n) y).
Proof.
move=> vN; apply: ensures_bind (char_poly_ok vN) _ => d [dP _].
apply: ensures_bind (matrix_value_rec dP vN) _ => y; rewrite cayley => y0.
by apply: ensures_mono (is_zero_ok (ri_cm_ok hX) y0) _ => b ->; rewrite eqxx.
Qed.

(** ** Multiplication by a residue *)
Lemma monomial_ok i : gives p (poly_of rep) (monomial A i) 'X^i.
Proof.
apply: ensures_bind (zero_ok hC) _ => z z0; apply: ensures_bind (one_ok hM) _ => o o1.
apply: ensures_ret; rewrite /poly_of polyseqXn -cats1 -[rcons _ _]cats1.
by apply: Forall2_app; [elim: i => [|i IH]; [exact: Forall2_nil|exact: Forall2_cons]|
  apply: Forall2_cons => //; exact: Forall2_nil].
Qed.

Section Regular.
Variables (m : {poly F}) (modulo : seq E).
Hypotheses (sm : (1 < size m)%N) (hm : poly_of rep modulo m) (nE : n = (size m).-1).
Let m0 : (m : poly_idomainType F) != 0.
Proof. by rewrite -size_poly_eq0 -lt0n ltnW. Qed.
Let mu : (m : poly_idomainType F) \isn't a GRing.unit.
Proof. by rewrite poly_unitE gtn_eqF. Qed.
Let md := Modulus m0 mu.
Local Notation S := (poly_estruct F).
Let K := QuotientRing cfg (PolyEucl A) modulo.
Let hQ : ring_alg_spec cfg p (@q_rep _ _ S md (poly_of rep)) *%R 1 K := QuotientRing_ok hP (m := md) hm.

Definition regular (P : {poly F}) : 'M[F]_n := \matrix_(i, j) (('X^i * P) %% m)`_j.

Implicit Types P Q : {poly F}.
Let szm : size m = n.+1. Proof. by rewrite nE prednK // ltnW. Qed.
Lemma size_modn P : (size (P %% m)%R <= n)%N.
Proof. by rewrite -ltnS -szm ltn_modp. Qed.
Lemma polyn (P : {poly F}) : (size P <= n)%N -> P = \sum_(j < n) P`_j *: 'X^j.
Proof.
move=> sP; rewrite -[LHS]coefK poly_def (big_ord_widen n (fun j => P`_j *: 'X^j)) // big_mkcond /=.
apply: eq_bigr => j _; case: ltnP => // h; by rewrite nth_default ?scale0r.
Qed.
Lemma row_regular (r : 'rV[F]_n) P (k : 'I_n) :
  (r *m regular P) 0 k = (((\sum_(j < n) r 0 j *: 'X^j) * P) %% m)`_k.
Proof.
rewrite mxE mulr_suml (big_morph (fun P => P %% m) (modpD m) (mod0p m)) coef_sum; apply: eq_bigr => j _.
by rewrite !mxE -scalerAl modpZl coefZ.
Qed.
Lemma regularD P Q : regular (P + Q) = regular P + regular Q.
Proof. by apply/matrixP => i j; rewrite !mxE mulrDr modpD coefD. Qed.
Lemma regularM P Q : regular (P * Q) = regular P *m regular Q.
Proof.
apply/row_matrixP => i; rewrite row_mul; apply/rowP => k.
rewrite row_regular !mxE.
rewrite (_ : \sum_(j < n) _ = ('X^i * P) %% m); last first.
  by rewrite [RHS](polyn (size_modn _)); apply: eq_bigr => j _; rewrite !mxE.
by rewrite mulrA [_ %% m * Q]mulrC modp_mul [Q * _]mulrC.
Qed.
Lemma regular1 : regular 1 = 1%:M.
Proof.
apply/matrixP => i j; rewrite !mxE mulr1 modp_small ?size_polyXn ?szm ?ltnS // coefXn.
by rewrite [in LHS]eq_sym.
Qed.
Lemma regular_mod P : regular (P %% m) = regular P.
Proof. by apply/matrixP => i j; rewrite !mxE modp_mul. Qed.
Lemma regular_inj P Q : regular P = regular Q -> P %% m = Q %% m.
Proof.
move=> /matrixP h; have n0 : (0 < n)%N by rewrite nE -ltnS prednK // ltnW.
apply/polyP => j; have [jn|nj] := ltnP j n.
  by have := h (Ordinal n0) (Ordinal jn); rewrite !mxE expr0 !mul1r.
by rewrite !nth_default // (leq_trans (size_modn _)).
Qed.

Lemma times_matrix_ok v P : poly_of rep v P -> gives p mof (times_matrix A K n v) (regular P).
Proof.
move=> vP; apply: ensures_bind (zero_ok hC) _ => z z0.
have hrow i : gives p (poly_of rep) (let! x := monomial A i in mul K x v) (('X^i * P) %% m).
  by apply: ensures_bind (monomial_ok i) _ => x xi; exact: (ring_mul hA sm hm xi vP).
have hi : reps (@eq nat) (iota 0 n) (iota 0 n).
  by elim: (iota 0 n) => [|a s IH]; [exact: Forall2_nil|exact: Forall2_cons].
apply: ensures_bind (ensures_mapM (rep' := poly_of rep) (g := fun i => ('X^i * P) %% m) hi _) _.
  by move=> i _ <-; exact: hrow.
move=> rows hr; apply: ensures_ret; apply: tabulate_of => i j; rewrite mxE.
have /(Forall2_nthP _ _ _ [::] 0) [sr hn] := hr.
move: (hn i); rewrite sr size_map size_iota => /(_ (ltn_ord i)).
rewrite (nth_map 0%N) ?size_iota // nth_iota // add0n => /(Forall2_nthP _ _ _ z 0) [sz hz].
have [h|h] := ltnP j (size (nth [::] rows i)); first exact: hz.
by rewrite (nth_default _ h) nth_default //; move: h; rewrite sz.
Qed.

Local Notation mem := (fun x => exists P, residue_of S (m : poly_idomainType F) (poly_of rep) x P).
Let memP x : mem x -> exists u, @q_rep _ _ S md (poly_of rep) x u.
Proof. by move=> [a [xa /eqP ra]]; exists (Quot (ra : erem S a md == a)). Qed.
Let psi (q : quot_ringType S md) : 'M[F]_n := regular (qval q).
Let psi_pi P : psi (qpi S md P) = regular P.
Proof. by rewrite /psi /= regular_mod. Qed.
Let psiM a b : psi (a * b) = psi a *m psi b.
Proof. by rewrite -{1}(qpiK a) -{1}(qpiK b) -rmorphM psi_pi regularM. Qed.
Let psi1 : psi 1 = 1%:M.
Proof. by rewrite -[1](rmorph1 (qpi_rmorphism S md)) psi_pi regular1. Qed.
Let psi_ok x u : @q_rep _ _ S md (poly_of rep) x u -> gives p mof (times_matrix A K n x) (psi u).
Proof. exact: times_matrix_ok. Qed.

Lemma regular_map : [/\ ring_map cfg p mem (times_matrix A K n) K (MatrixRing cfg A n),
  one_to_one p mem (times_matrix A K n) K (MatrixRing cfg A n) &
  same_units p mem (times_matrix A K n) K (MatrixRing cfg A n)].
Proof.
split.
- apply: (ring_map_ok (phi := psi) memP _ _ _ _ psiM psi1 psi_ok hQ hX).
  + exact: mulmxA.
  + exact: mul1mx.
  + exact: mulmx1.
  + by move=> a b; rewrite -{1}(qpiK a) -{1}(qpiK b) -rmorphD psi_pi regularD.
- apply: (one_to_one_ok memP psi_ok hQ hX) => a b /regular_inj h.
  by rewrite -(qpiK a) -(qpiK b); apply: val_inj.
- move=> x /memP[u xu].
  apply: (@agree_iff _ _ _ (exists v, inverse_of *%R 1 u v) (exists T, inverse_of mulmx 1%:M (psi u) T)).
  + exact: (invertible_ok (mo_mo_ok (ri_mon_ok hQ)) xu).
  + apply: ensures_bind (psi_ok xu) _ => y; exact: (invertible_ok (mo_mo_ok (ri_mon_ok hX))).
  + split=> [[v [h1 h2]]|[T [_ h]]]; first by exists (psi v); split; rewrite -psiM ?h1 ?h2 psi1.
    have n0 : (0 < n)%N by rewrite nE -ltnS prednK // ltnW.
    pose o : 'I_n := Ordinal n0; pose Q := \sum_(j < n) T o j *: 'X^j : {poly F}.
    suff e : qpi S md Q * u = 1 by exists (qpi S md Q); split; rewrite // mulrC.
    rewrite -(qpiK u) -rmorphM -[RHS](rmorph1 (qpi_rmorphism S md)); apply: val_inj => /=.
    apply/polyP => k; have [kn|nk] := ltnP k n; last first.
      by rewrite !nth_default // (leq_trans (size_modn _)).
    have := congr1 (fun N => row o N 0 (Ordinal kn)) h; rewrite row_mul row_regular.
    rewrite (_ : \sum_(j < n) _ = Q); last by apply: eq_bigr => j _; rewrite mxE.
    move=> ->; rewrite !mxE modp_small ?size_poly1 ?szm // coef1; congr (_%:R); rewrite -(inj_eq val_inj) /=.
    by rewrite eq_sym.
Qed.

Lemma mod_monic : m \is monic -> 'X^n %% m = 'X^n - m.
Proof.
move=> mon; apply: (@small_mod _ _ _ 1); last by rewrite mul1r addrC subrK.
rewrite szm ltnS; apply/leq_sizeP => k; rewrite leq_eqVlt => /orP[/eqP <-|nk].
  have mn : m`_n = 1 by rewrite -(monicP mon) lead_coefE szm.
  by rewrite coefB coefXn eqxx mn subrr.
by rewrite coefB coefXn gtn_eqF // sub0r nth_default ?oppr0 // szm.
Qed.

(** The class of x gives the companion matrix. *)
Lemma companion_ok : m \is monic ->
  ensures p (companion cfg A n modulo) (fun v =>
    @matrix_of n E F rep v (\matrix_(i, j) if i.+1 == n then - m`_j else (i.+1 == j)%:R)).
Proof.
move=> mon.
have h : gives p (poly_of rep) (adjoined A modulo) ('X %% m).
  apply: ensures_bind (zero_ok hC) _ => z z0; apply: ensures_bind (one_ok hM) _ => o o1.
  have xX : poly_of rep [:: z; o] 'X by rewrite /poly_of polyseqX; do 2!apply: Forall2_cons => //; exact: Forall2_nil.
  exact: (rem_ok (eu_eu_ok hP) xX hm m0).
apply: ensures_bind h _ => x xX; apply: ensures_mono (times_matrix_ok xX) _ => v.
rewrite regular_mod; set T := \matrix_(i, j) _; have -> // : regular 'X = T.
apply/matrixP => i j; rewrite !mxE -exprSr.
case: eqP => [e|ne].
  have := congr1 (fun Q : {poly F} => Q`_j) (mod_monic mon).
  by rewrite coefB coefXn ltn_eqF // sub0r e.
rewrite modp_small; first by rewrite coefXn eq_sym.
by rewrite size_polyXn szm; move: ne (ltn_ord i); lia.
Qed.
End Regular.
End Field.

Lemma companion_char (cfg : Cfg) (p : Prop) (E : Type) (F : fieldType) (rep : E -> F -> Prop)
    (A : FieldAlg E) (m : {poly F}) (modulo : seq E) :
  field_alg_spec cfg p rep A -> Z.le (Zpos (xO xH)) (ptr_bits cfg) ->
  (1 < size m)%N -> poly_of rep modulo m -> m \is monic ->
  let n := (size m).-1 in
  ensures p (let! v := companion cfg A n modulo in char_fraction cfg A n v)
    (fun z => poly_of rep z.1 m /\ poly_of rep z.2 1).
Proof.
move=> hA hc sm hm mon n.
have h := companion_ok (n := n) hA sm hm erefl mon.
apply: ensures_bind h _ => v vN; apply: ensures_mono (char_poly_ok hA hc vN) _ => z.
set T := \matrix_(i, j) _; have -> : T = companionmx m.
  apply/matrixP => i j; rewrite !mxE; congr (if _ then _ else _).
  by have := ltn_ord i; rewrite -/n; move: (i : nat) => k kn; case: (n) kn => //= d _; rewrite eqSS.
by rewrite companionmxK.
Qed.
