(** * PIntPolyEx.v -- examples: the Gaussian integers as residues modulo x^2 + 1. *)

From mathcomp Require Import all_ssreflect all_fingroup all_algebra zify ssrZ.
From Coq Require Import ZArith Lia Reals SpecFloat.
From Flocq Require Import Core BinarySingleNaN.
From Verif Require Import Rust Traits MInts MConstr Wp RingSpec Spec NumSpec PNum PFloat3 PFloatEx MFloats FloatSpec
  ExactQSpec PExactEx IntPolySpec.

Set Implicit Arguments.
Unset Strict Implicit.
Unset Printing Implicit Defensive.

Import GRing.Theory.
Local Open Scope ring_scope.

(** 3 + 4x, 1 - 2x and x^2 + 1, as fractions and as floats *)
Definition g1 : {poly Z} := Poly [:: 3; 4]%Z.
Definition g2 : {poly Z} := Poly [:: 1; -2]%Z.
Definition gm : {poly Z} := Poly [:: 1; 0; 1]%Z.
Lemma g1_seq : g1 = [:: 3; 4]%Z :> seq Z. Proof. by rewrite (@PolyK _ (Zpos xH)). Qed.
Lemma g2_seq : g2 = [:: 1; -2]%Z :> seq Z. Proof. by rewrite (@PolyK _ (Zpos xH)). Qed.
Lemma gm_seq : gm = [:: 1; 0; 1]%Z :> seq Z. Proof. by rewrite (@PolyK _ (Zpos xH)). Qed.
Definition over_one (s : seq Z) : seq (Z * Z) := map (fun a => (a, 1%Z)) s.
Lemma is_over_one (S : {poly Z}) (s : seq Z) : S = s :> seq Z -> all (fun a => (Z.abs a <? 128)%Z) s ->
  poly_of (is_frac 32) (over_one s) S.
Proof.
rewrite /poly_of => ->; elim: s => [|a s IH] /=; first by move=> _; exact: reps_nil.
by move=> /andP[h /IH{}IH]; apply: reps_cons => //; split=> //; rewrite /fits; lia.
Qed.
Lemma bounded_by (S : {poly Z}) (s : seq Z) B : S = s :> seq Z -> (0 <=? B)%Z ->
  all (fun a => (Z.abs a <=? B)%Z) s -> forall i, (Z.abs S`_i <= B)%Z.
Proof.
move=> -> B0 h i; case: (ltnP i (size s)) => hi; last by rewrite nth_default //=; lia.
by have /Z.leb_le := all_nthP Z0 h i hi.
Qed.
Lemma g1_frac : poly_of (is_frac 32) [:: (3, 1); (4, 1)]%Z g1. Proof. exact: (is_over_one g1_seq). Qed.
Lemma g2_frac : poly_of (is_frac 32) [:: (1, 1); (-2, 1)]%Z g2. Proof. exact: (is_over_one g2_seq). Qed.
Lemma gm_frac : poly_of (is_frac 32) [:: (1, 1); (0, 1); (1, 1)]%Z gm. Proof. exact: (is_over_one gm_seq). Qed.
Lemma g1_bound i : (Z.abs g1`_i <= 4)%Z. Proof. exact: (bounded_by g1_seq). Qed.
Lemma g2_bound i : (Z.abs g2`_i <= 2)%Z. Proof. exact: (bounded_by g2_seq). Qed.
Lemma gm_bound i : (Z.abs gm`_i <= 1)%Z. Proof. exact: (bounded_by gm_seq). Qed.
Lemma gm_lead : Z.abs (lead_coef gm) = 1%Z. Proof. by rewrite lead_coefE gm_seq. Qed.
Lemma size_g12 : size (g1 * g2) \in [:: 0; 1; 2; 3]%nat.
Proof. have := size_mul_leq g1 g2; rewrite g1_seq g2_seq; by move: (size _) => [|[|[|[|n]]]]. Qed.
Lemma size_g1p2 : size (g1 + g2) \in [:: 0; 1; 2; 3]%nat.
Proof. have := size_add g1 g2; rewrite g1_seq g2_seq; by move: (size _) => [|[|[|[|n]]]]. Qed.

(** x + 2, as floats *)
Definition t1 : {poly Z} := Poly [:: 2; 1]%Z.
Lemma t1_seq : t1 = [:: 2; 1]%Z :> seq Z. Proof. by rewrite (@PolyK _ (Zpos xH)). Qed.
Lemma t1_is : poly_of (@is_int 53 1024) [:: f64_num 2 0; f64_num 1 0] t1.
Proof. by rewrite /poly_of t1_seq; do !apply: reps_cons; [exact: two_is|exact: one_is|exact: reps_nil]. Qed.
Lemma t1_bound i : (Z.abs t1`_i <= 2)%Z. Proof. exact: (bounded_by t1_seq). Qed.
Lemma gm_is : poly_of (@is_int 53 1024) [:: f64_num 1 0; f64_num 0 0; f64_num 1 0] gm.
Proof.
by rewrite /poly_of gm_seq; do !apply: reps_cons; [exact: one_is|exact: zero_is|exact: one_is|exact: reps_nil].
Qed.
Lemma size_t11 : size (t1 * line_poly) \in [:: 0; 1; 2; 3]%nat.
Proof. have := size_mul_leq t1 line_poly; rewrite t1_seq line_seq; by move: (size _) => [|[|[|[|n]]]]. Qed.
Lemma size_t1p1 : size (t1 + line_poly) \in [:: 0; 1; 2; 3]%nat.
Proof. have := size_add t1 line_poly; rewrite t1_seq line_seq; by move: (size _) => [|[|[|[|n]]]]. Qed.
