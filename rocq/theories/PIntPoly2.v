(** * PIntPoly2.v -- polynomials with bounded integer coefficients over a field. *)

From mathcomp Require Import all_ssreflect all_fingroup all_algebra zify ssrZ.
From Coq Require Import ZArith Lia.
From Verif Require Import Rust Traits MInts MConstr Wp RingSpec Spec PVec PPoly PIntPoly.

Set Implicit Arguments.
Unset Strict Implicit.
Unset Printing Implicit Defensive.

Import GRing.Theory.
Local Open Scope ring_scope.
Local Notation ZR := [idomainType of Z].

Lemma unit_division (P Q : {poly Z}) : Z.abs (lead_coef Q) = Zpos xH ->
  exists S T : {poly Z}, P = S * Q + T /\ (size T < size Q)%nat.
Proof.
move=> h; pose c := lead_coef Q.
have cc : c * c = 1.
  by have [->|->] : c = Zpos xH \/ c = Zneg xH by rewrite /c; lia.
have m : c *: Q \is monic by rewrite monicE lead_coefZ -/c cc.
have Q0 : c *: Q != 0 by exact: monic_neq0.
exists (c *: Pdiv.CommonRing.rdivp P (c *: Q)), (Pdiv.CommonRing.rmodp P (c *: Q)); split.
  by rewrite {1}(Pdiv.RingMonic.rdivp_eq m P) -scalerAr -scalerAl.
have := Pdiv.CommonRing.ltn_rmodp P (c *: Q); rewrite Q0 => /leq_trans; apply.
exact: size_scale_leq.
Qed.

Section Field.
Variables (cfg : Cfg) (E : Type) (K : fieldType) (rep : E -> K -> Prop) (A : FieldAlg E).
Hypothesis okA : field_alg_spec cfg True rep A.
Variable phi : {rmorphism ZR -> K}.
Hypothesis phi_inj : injective phi.

(** Integers up to [L] do not panic. *)
Record int_fits (L : Z) : Prop := {
  if_zero : ensures False (zero A) (fun _ => True);
  if_is_zero : forall x a, rep x (phi a) -> ensures False (is_zero A x) (fun _ => True);
  if_mul : forall x a y b, rep x (phi a) -> rep y (phi b) -> (Z.abs (a * b) <= L)%Z ->
    ensures False (mul A x y) (fun _ => True);
  if_add : forall x a y b, rep x (phi a) -> rep y (phi b) -> (Z.abs (a + b) <= L)%Z ->
    ensures False (add A x y) (fun _ => True);
  if_neg : forall x a, rep x (phi a) -> (Z.abs a <= L)%Z -> ensures False (neg A x) (fun _ => True);
  if_div : forall x a y b, rep x (phi a) -> rep y (phi b) -> (Z.abs a <= L)%Z -> Z.abs b = Zpos xH ->
    ensures False (fdiv A x y) (fun _ => True)
}.

Definition isb (B : Z) (x : E) : Prop := exists2 a : Z, (Z.abs a <= B)%Z & rep x (phi a).
Definition isu (x : E) : Prop := exists2 a : Z, Z.abs a = Zpos xH & rep x (phi a).

Lemma total_value T (m : M T) Q : ensures False m (fun _ => True) -> ensures True m Q -> ensures False m Q.
Proof.
by move=> [[v [r _]]|[[]//]] h; left; exists v; split=> //; exact: ensures_value h r.
Qed.

Let okR := id_ring_ok (eu_idom_ok (fi_eucl_ok okA)).

Lemma unit_sq (a : Z) : Z.abs a = Zpos xH -> a * a = 1.
Proof. by move=> h; have [->|->] : a = Zpos xH \/ a = Zneg xH by lia. Qed.

Lemma bounded L : int_fits L -> bounded_ops isb isu A L.
Proof.
move=> H; split.
- by move=> B C x [a ha xa] BC; exists a => //; lia.
- by move=> B x [a ha _]; lia.
- apply: ensures_mono (total_value (if_zero H) (zero_ok (ri_cm_ok okR))) _ => x h.
  by exists Z0 => //; rewrite rmorph0.
- by move=> B x [a _ xa]; exact: (if_is_zero H xa).
- move=> x [a h xa]; apply: ensures_mono (total_value (if_is_zero H xa) (is_zero_ok (ri_cm_ok okR) xa)) _.
  move=> b ->; apply/negbTE; rewrite -(rmorph0 phi) (eqtype.inj_eq phi_inj); apply/eqP => e.
  by rewrite e in h.
- move=> B C x y [a ha xa] [b hb yb] BC.
  have le : (Z.abs (a * b) <= B * C)%Z by rewrite Z.abs_mul; apply: Z.mul_le_mono_nonneg; lia.
  apply: ensures_mono (total_value (if_mul H xa yb _) (mul_ok (mo_sg_ok (ri_mon_ok okR)) xa yb)) _; first lia.
  by move=> z hz; exists (a * b)%Z => //; rewrite rmorphM.
- move=> B C x y [a ha xa] [b hb yb] BC.
  apply: ensures_mono (total_value (if_add H xa yb _) (add_ok (ri_cm_ok okR) xa yb)) _; first lia.
  by move=> z hz; exists (a + b)%Z; [lia|rewrite rmorphD].
- move=> B x [a ha xa] BL.
  apply: ensures_mono (total_value (if_neg H xa _) (neg_ok (ri_ab_ok okR) xa)) _; first lia.
  by move=> z hz; exists (- a)%Z; [lia|rewrite rmorphN].
- move=> B x y [a ha xa] [b hb yb] BL.
  have b0 : phi b != 0.
    by rewrite -(rmorph0 phi) (eqtype.inj_eq phi_inj); apply/eqP => e; rewrite e in hb.
  apply: ensures_mono (total_value (if_div H xa yb _ hb) (fdiv_ok (fi_fi_ok okA) xa yb b0)) _; first lia.
  move=> z hz; exists (a * b)%Z; first by rewrite Z.abs_mul hb; lia.
  rewrite rmorphM; suff <- : (phi b)^-1 = phi b by [].
  by apply: (mulfI b0); rewrite mulfV // -rmorphM unit_sq // rmorph1.
Qed.

(** ** Polynomials *)
Local Notation toK P := (map_poly phi P).
Local Notation is_poly := (fun v (P : {poly Z}) => poly_of rep v (toK P)).
Section Poly.
Variables (L : Z) (v u : seq E) (P Q : {poly Z}) (B C : Z).
Hypothesis H : int_fits L.
Hypotheses (vP : is_poly v P) (uQ : is_poly u Q).
Hypothesis hB : forall i, (Z.abs P`_i <= B)%Z.
Hypothesis hC : forall i, (Z.abs Q`_i <= C)%Z.

Lemma size_toK (S : {poly Z}) : size (toK S) = size S.
Proof. by apply: size_map_inj_poly; rewrite ?rmorph0. Qed.
Lemma is_poly_isb d0 w (S : {poly Z}) D : is_poly w S -> (forall i, (Z.abs S`_i <= D)%Z) ->
  size w = size S /\ forall k, (k < size w)%nat -> isb D (nth d0 w k).
Proof.
move=> h hD; have := reps_size h; rewrite size_toK => sw; split=> // k kw.
exists S`_k; first exact: hD.
by rewrite -coef_map; apply: (reps_nth _ _ h); rewrite size_toK -sw.
Qed.

Let okP := PolyEucl_ok okA.
Let okPR := id_ring_ok (eu_idom_ok okP).

Lemma returns_value T (m : M T) X : ensures False m (fun _ => True) -> ensures True m X -> exists2 z, returns m z & X z.
Proof. by move=> h1 h2; have [z [r xz]] := ensures_False (total_value h1 h2); exists z. Qed.

Lemma int_add : (B + C <= L)%Z ->
  exists2 z, returns (add (PolyEucl A) v u) z & is_poly z (P + Q).
Proof.
move=> h; have [d0 _] := ensures_False (if_zero H).
have [_ hv] := is_poly_isb d0 vP hB; have [_ hu] := is_poly_isb d0 uQ hC.
have h2 := add_ok (ri_cm_ok okPR) vP uQ; rewrite -rmorphD in h2.
exact: returns_value (ints_add (bounded H) hv hu h) h2.
Qed.
Lemma int_neg : (B <= L)%Z -> exists2 z, returns (neg (PolyEucl A) v) z & is_poly z (- P).
Proof.
move=> h; have [d0 _] := ensures_False (if_zero H).
have [_ hv] := is_poly_isb d0 vP hB.
have h2 := neg_ok (ri_ab_ok okPR) vP; rewrite -rmorphN in h2.
exact: returns_value (ensures_mono (ints_neg (bounded H) hv h) _) h2.
Qed.
Lemma int_sub : (C <= L)%Z -> (B + C <= L)%Z ->
  exists2 z, returns (sub (PolyEucl A) v u) z & is_poly z (P - Q).
Proof.
move=> h1 h; have [d0 _] := ensures_False (if_zero H).
have [_ hv] := is_poly_isb d0 vP hB; have [_ hu] := is_poly_isb d0 uQ hC.
have h2 := sub_ok (ri_ab_ok okPR) vP uQ; rewrite -rmorphB in h2.
apply: returns_value h2; apply: ensures_bind (ints_neg (bounded H) hu h1) _ => z [_ hz].
by apply: (ints_add (bounded H) hz hv); rewrite Z.add_comm.
Qed.
Lemma int_mul : (Z.of_nat (size P) * (B * C) <= L)%Z ->
  exists2 z, returns (mul (PolyEucl A) v u) z & is_poly z (P * Q).
Proof.
move=> h; have [d0 _] := ensures_False (if_zero H).
have [sv hv] := is_poly_isb d0 vP hB; have [_ hu] := is_poly_isb d0 uQ hC; rewrite -sv in h.
have h2 := mul_ok (mo_sg_ok (ri_mon_ok okPR)) vP uQ; rewrite -rmorphM in h2.
exact: returns_value (ints_mul (bounded H) hv hu h) h2.
Qed.
Lemma int_quo_rem : Z.abs (lead_coef Q) = Zpos xH ->
  (B * (1 + C) ^ Z.of_nat (size P - size Q + 1) <= L)%Z ->
  exists2 z, returns (quo_rem (PolyEucl A) v u) z &
    exists S T : {poly Z}, [/\ is_poly z.1 S, is_poly z.2 T, P = S * Q + T & (size T < size Q)%nat].
Proof.
move=> hl small; have [d0 _] := ensures_False (if_zero H).
have [sv hv] := is_poly_isb d0 vP hB; have [su hu] := is_poly_isb d0 uQ hC; rewrite -sv -su in small.
have Q0 : Q != 0 by apply/eqP => e; rewrite e lead_coef0 in hl.
have [S [T [e hT]]] := unit_division P hl.
have q0 : toK Q != 0 by rewrite -size_poly_eq0 size_toK size_poly_eq0.
have sT : (size (toK T) < size (toK Q))%nat by rewrite !size_toK.
have eQ : toK P = toK S * toK Q + toK T by rewrite {1}e rmorphD rmorphM.
have dS : toK P %/ toK Q = toK S by rewrite eQ divp_addl_mul_small.
have dT : toK P %% toK Q = toK T by rewrite eQ modp_addl_mul_small.
have np : ensures False (poly_quo_rem A v u) (fun=> True).
  case: (leqP (size u) (size v)) => huv; last first.
    by rewrite /poly_quo_rem huv su size_poly_eq0 (negbTE Q0) /= bind_ret; exact: ensures_ret.
  apply: (ints_division (bounded H) hv hu _ huv _ small).
    by rewrite su lt0n size_poly_eq0.
  exists (lead_coef Q) => //; rewrite lead_coefE -coef_map su; apply: (reps_nth _ _ uQ).
  by rewrite size_toK prednK // lt0n size_poly_eq0.
have [z r [z1 z2]] := returns_value np (poly_quo_rem_ok okA vP uQ q0).
by exists z => //; exists S, T; split=> //; rewrite -?dS -?dT.
Qed.
End Poly.

(** ** Residues of polynomials *)
Section Residue.
Variables (L : Z) (v u m : seq E) (P Q N : {poly Z}) (B C D : Z).
Hypothesis H : int_fits L.
Hypotheses (vP : is_poly v P) (uQ : is_poly u Q) (mN : is_poly m N).
Hypothesis hB : forall i, (Z.abs P`_i <= B)%Z.
Hypothesis hC : forall i, (Z.abs Q`_i <= C)%Z.
Hypothesis hD : forall i, (Z.abs N`_i <= D)%Z.
Hypothesis hl : Z.abs (lead_coef N) = Zpos xH.

Lemma abs_sum (n : nat) (F : 'I_n -> Z) (X : Z) : (forall i, (Z.abs (F i) <= X)%Z) ->
  (Z.abs (\sum_(i < n) F i)%R <= Z.of_nat n * X)%Z.
Proof.
elim: n F => [|n IH] F h; first by rewrite big_ord0.
rewrite big_ord_recl; have := IH (fun i => F (lift ord0 i)) (fun i => h _); have := h ord0.
by move: (F ord0) (\sum_(_ < _) _) => x y; rewrite (_ : (x + y)%R = Z.add x y) //; lia.
Qed.
Lemma mul_bound i : (Z.abs (P * Q)`_i <= Z.of_nat (size P) * (B * C))%Z.
Proof.
have B0 : (0 <= B)%Z by have := @hB 0%nat; lia.
have C0 : (0 <= C)%Z by have := @hC 0%nat; lia.
have e : (P * Q)`_i = \sum_(k < size P) (if (k <= i)%nat then P`_k * Q`_(i - k) else 0).
  rewrite -{1}[P]coefK poly_def mulr_suml coef_sum; apply: eq_bigr => k _.
  by rewrite -scalerAl coefZ coefXnM ltnNge; case: leqP => //= _; rewrite mulr0.
rewrite e; apply: abs_sum => k; case: ifP => _; last by rewrite /=; nia.
rewrite (_ : Z.abs (P`_k * Q`_(i - k))%R = Z.abs P`_k * Z.abs Q`_(i - k))%Z; last exact: Z.abs_mul.
by apply: Z.mul_le_mono_nonneg; [lia|exact: hB|lia|exact: hC].
Qed.

Lemma int_residue (w : seq E) (S : {poly Z}) X (r : M (seq E)) : returns r w -> is_poly w S ->
  (forall i, (Z.abs S`_i <= X)%Z) -> (X * (1 + D) ^ Z.of_nat (size S - size N + 1) <= L)%Z ->
  exists2 z, returns (let! w := r in rem (PolyEucl A) w m) z &
    exists T : {poly Z}, [/\ is_poly z T, exists U, S = U * N + T & (size T < size N)%nat].
Proof.
move=> rw wS hX small.
have [z rz [U [T [z1 z2 e sT]]]] := int_quo_rem H wS mN hX hD hl small.
exists z.2; last by exists T; split=> //; exists U.
apply: (returns_bind rw); apply: (returns_bind rz); exact: returns_ret.
Qed.

(** Both quotient structures multiply, add and subtract in the same way. *)
Lemma int_residue_mul :
  (Z.of_nat (size P) * (B * C) * (1 + D) ^ Z.of_nat (size (P * Q)%R - size N + 1) <= L)%Z ->
  exists2 z, returns (mul (QuotientRing cfg (PolyEucl A) m) v u) z &
    exists T : {poly Z}, [/\ is_poly z T, exists U, P * Q = U * N + T & (size T < size N)%nat].
Proof.
move=> h; have [w rw wS] : exists2 z, returns (mul (PolyEucl A) v u) z & is_poly z (P * Q).
  apply: (int_mul H vP uQ hB hC); apply: Z.le_trans h.
  have D0 : (0 <= D)%Z by have := @hD 0%nat; lia.
  have X0 : (0 <= Z.of_nat (size P) * (B * C))%Z by have := @mul_bound 0%nat; lia.
  rewrite -[X in (X <= _)%Z]Z.mul_1_r; apply: Z.mul_le_mono_nonneg_l => //.
  by rewrite -[Zpos xH](Z.pow_1_l (Z.of_nat (size (P * Q)%R - size N + 1))); [apply: Z.pow_le_mono_l; lia|lia].
exact: int_residue rw wS mul_bound h.
Qed.
Lemma int_residue_add :
  ((B + C) * (1 + D) ^ Z.of_nat (size (P + Q)%R - size N + 1) <= L)%Z ->
  exists2 z, returns (add (QuotientRing cfg (PolyEucl A) m) v u) z &
    exists T : {poly Z}, [/\ is_poly z T, exists U, P + Q = U * N + T & (size T < size N)%nat].
Proof.
move=> h; have B0 : (0 <= B)%Z by have := @hB 0%nat; lia.
have C0 : (0 <= C)%Z by have := @hC 0%nat; lia.
have D0 : (0 <= D)%Z by have := @hD 0%nat; lia.
have [w rw wS] : exists2 z, returns (add (PolyEucl A) v u) z & is_poly z (P + Q).
  apply: (int_add H vP uQ hB hC); apply: Z.le_trans h.
  rewrite -[X in (X <= _)%Z]Z.mul_1_r; apply: Z.mul_le_mono_nonneg_l; first lia.
  by rewrite -[Zpos xH](Z.pow_1_l (Z.of_nat (size (P + Q)%R - size N + 1))); [apply: Z.pow_le_mono_l; lia|lia].
apply: int_residue rw wS _ h => i; rewrite coefD; have := @hB i; have := @hC i.
by rewrite (_ : (P`_i + Q`_i)%R = Z.add P`_i Q`_i) //; lia.
Qed.
End Residue.

(** ** The same for a description of the integers *)
Section Ints.
Variable isz : E -> Z -> Prop.
Hypothesis iszP : forall x a, isz x a <-> rep x (phi a).
Local Notation ints := (poly_of isz).
Local Notation small P B := (forall i, (Z.abs P`_i <= B)%Z).

Lemma is_polyP v (S : {poly Z}) : ints v S <-> is_poly v S.
Proof.
split=> h; have hs := reps_size h; rewrite ?size_toK in hs.
- case: v h hs => [|x0 v] h hs.
    have -> : S = 0 by apply/eqP; rewrite -size_poly_eq0 -hs.
    by rewrite rmorph0 /poly_of polyseq0; exact: reps_nil.
  apply: (@reps_nthP _ _ _ x0 0); rewrite size_toK // => i hi.
  by rewrite coef_map; apply/iszP; exact: reps_nth h hi.
- case: v h hs => [|x0 v] h hs.
    have -> : S = 0 by apply/eqP; rewrite -size_poly_eq0 -hs.
    by rewrite /poly_of polyseq0; exact: reps_nil.
  apply: (@reps_nthP _ _ _ x0 0) => // i hi; apply/iszP.
  by rewrite -coef_map; apply: (reps_nth _ _ h); rewrite size_toK.
Qed.

Section Ops.
Variables (L : Z) (v u : seq E) (P Q : {poly Z}) (B C : Z).
Hypothesis H : int_fits L.
Hypotheses (vP : ints v P) (uQ : ints u Q) (hB : small P B) (hC : small Q C).
Let vP' := proj1 (is_polyP v P) vP.
Let uQ' := proj1 (is_polyP u Q) uQ.

Lemma ints_neg : (B <= L)%Z -> exists2 z, returns (neg (PolyEucl A) v) z & ints z (- P).
Proof. by move=> h; have [z r hz] := int_neg H vP' hB h; exists z => //; apply/is_polyP. Qed.
Lemma ints_add : (B + C <= L)%Z -> exists2 z, returns (add (PolyEucl A) v u) z & ints z (P + Q).
Proof. by move=> h; have [z r hz] := int_add H vP' uQ' hB hC h; exists z => //; apply/is_polyP. Qed.
Lemma ints_sub : (B + C <= L)%Z -> exists2 z, returns (sub (PolyEucl A) v u) z & ints z (P - Q).
Proof.
move=> h; have h' : (C <= L)%Z by have := @hB 0%nat; lia.
by have [z r hz] := int_sub H vP' uQ' hB hC h' h; exists z => //; apply/is_polyP.
Qed.
Lemma ints_mul : (Z.of_nat (size P) * (B * C) <= L)%Z ->
  exists2 z, returns (mul (PolyEucl A) v u) z & ints z (P * Q).
Proof. by move=> h; have [z r hz] := int_mul H vP' uQ' hB hC h; exists z => //; apply/is_polyP. Qed.
Lemma ints_quo_rem : Z.abs (lead_coef Q) = Zpos xH ->
  (B * (1 + C) ^ Z.of_nat (size P - size Q + 1) <= L)%Z ->
  exists2 z, returns (quo_rem (PolyEucl A) v u) z &
    exists S T : {poly Z}, [/\ ints z.1 S, ints z.2 T, P = S * Q + T & (size T < size Q)%nat].
Proof.
move=> hl h; have [z r [S [T [h1 h2 e sT]]]] := int_quo_rem H vP' uQ' hB hC hl h.
by exists z => //; exists S, T; split=> //; apply/is_polyP.
Qed.

Variables (m : seq E) (N : {poly Z}) (D : Z).
Hypotheses (mN : ints m N) (hD : small N D) (hl : Z.abs (lead_coef N) = Zpos xH).
Let mN' := proj1 (is_polyP m N) mN.
Local Notation residue S z :=
  (exists T : {poly Z}, [/\ ints z T, exists U, S = U * N + T & (size T < size N)%nat]).
Lemma ints_residue_mul :
  (Z.of_nat (size P) * (B * C) * (1 + D) ^ Z.of_nat (size (P * Q)%R - size N + 1) <= L)%Z ->
  exists2 z, returns (mul (QuotientRing cfg (PolyEucl A) m) v u) z & residue (P * Q) z.
Proof.
move=> h; have [z r [T [zT e sT]]] := int_residue_mul H vP' uQ' mN' hB hC hD hl h.
by exists z => //; exists T; split=> //; apply/is_polyP.
Qed.
Lemma ints_residue_add :
  ((B + C) * (1 + D) ^ Z.of_nat (size (P + Q)%R - size N + 1) <= L)%Z ->
  exists2 z, returns (add (QuotientRing cfg (PolyEucl A) m) v u) z & residue (P + Q) z.
Proof.
move=> h; have [z r [T [zT e sT]]] := int_residue_add H vP' uQ' mN' hB hC hD hl h.
by exists z => //; exists T; split=> //; apply/is_polyP.
Qed.
End Ops.
End Ints.
End Field.
