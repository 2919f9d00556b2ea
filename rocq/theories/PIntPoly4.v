(** * PIntPoly4.v -- integer polynomials over floats, and their residues. *)

From mathcomp Require Import all_ssreflect all_fingroup all_algebra zify ssrZ.
From Coq Require Import ZArith Lia Reals Lra.
From Flocq Require Import Core BinarySingleNaN.
From Verif Require Import Rust Traits MInts MConstr Wp RingSpec Spec PVec PPoly FloatSpec MFloats ProfSpec
  FloatProfSpec ExactSpec ExactQSpec PExact PExact2 PExactDiv PExact3 PExact4 PIntPoly2.

Set Implicit Arguments.
Unset Strict Implicit.
Unset Printing Implicit Defensive.

Import GRing.Theory.
Local Open Scope ring_scope.
Local Delimit Scope ring_scope with ring.
Local Notation ZR := [idomainType of Z].
Local Notation QF := rationals.
Local Notation phi := [rmorphism of @FracField.tofrac ZR].

(** Whatever [G] returns, [A] returns. *)
Section Follow.
Variables (cfg : Cfg) (E : Type) (K : fieldType) (rep : E -> K -> Prop) (G A : FieldAlg E).
Hypothesis okG : field_alg_spec cfg True rep G.
Variable phi : {rmorphism ZR -> K}.
Hypothesis phi_inj : injective phi.
Variable isz : E -> Z -> Prop.
Hypothesis iszP : forall x a, isz x a <-> rep x (phi a).
Variable ty : seq E -> Prop.
Hypothesis all_ty : forall v, ty v.
Hypothesis GA : eucl_alg_rel follows (fun=> True) ty (PolyEucl G) (PolyEucl A).
Hypothesis GAm : forall m, ring_alg_rel follows (fun=> True) ty
  (QuotientRing cfg (PolyEucl G) m) (QuotientRing cfg (PolyEucl A) m).
Variable L : Z.
Hypothesis fitG : int_fits rep G phi L.
Local Notation ints := (poly_of isz).
Local Notation bounded P B := (forall i, (Z.abs P`_i <= B)%Z).

Lemma follow_add v u (S T : {poly Z}) B C : ints v S -> ints u T -> bounded S B -> bounded T C ->
  (B + C <= L)%Z -> exists2 z, returns (add (PolyEucl A) v u) z & ints z (S + T).
Proof.
move=> h1 h2 h3 h4 h; have [z r hz] := ints_add okG phi_inj iszP fitG h1 h2 h3 h4 h.
by exists z => //; have [] := add_rel GA (all_ty v) (all_ty u) z r.
Qed.
Lemma follow_neg v (S : {poly Z}) B : ints v S -> bounded S B -> (B <= L)%Z ->
  exists2 z, returns (neg (PolyEucl A) v) z & ints z (- S).
Proof.
move=> h1 h2 h; have [z r hz] := ints_neg okG phi_inj iszP fitG h1 h2 h.
by exists z => //; have [] := neg_rel GA (all_ty v) z r.
Qed.
Lemma follow_sub v u (S T : {poly Z}) B C : ints v S -> ints u T -> bounded S B -> bounded T C ->
  (B + C <= L)%Z -> exists2 z, returns (sub (PolyEucl A) v u) z & ints z (S - T).
Proof.
move=> h1 h2 h3 h4 h; have [z r hz] := ints_sub okG phi_inj iszP fitG h1 h2 h3 h4 h.
by exists z => //; have [] := sub_rel GA (all_ty v) (all_ty u) z r.
Qed.
Lemma follow_mul v u (S T : {poly Z}) B C : ints v S -> ints u T -> bounded S B -> bounded T C ->
  (Z.of_nat (size S) * (B * C) <= L)%Z ->
  exists2 z, returns (mul (PolyEucl A) v u) z & ints z (S * T).
Proof.
move=> h1 h2 h3 h4 h; have [z r hz] := ints_mul okG phi_inj iszP fitG h1 h2 h3 h4 h.
by exists z => //; have [] := mul_rel GA (all_ty v) (all_ty u) z r.
Qed.
Lemma follow_residue_mul v u m (S T N : {poly Z}) B C D : ints v S -> ints u T -> ints m N ->
  bounded S B -> bounded T C -> bounded N D -> Z.abs (lead_coef N) = Zpos xH ->
  (Z.of_nat (size S) * (B * C) * (1 + D) ^ Z.of_nat (size (S * T : {poly Z})%ring - size N + 1) <= L)%Z ->
  exists2 z, returns (mul (QuotientRing cfg (PolyEucl A) m) v u) z /\
      returns (mul (QuotientField cfg (PolyEucl A) m) v u) z &
    exists V : {poly Z}, [/\ ints z V, exists U, S * T = U * N + V & (size V < size N)%nat].
Proof.
move=> h1 h2 h3 h4 h5 h6 h7 h.
have [z r hz] := ints_residue_mul okG phi_inj iszP fitG h1 h2 h4 h5 h3 h6 h7 h.
by exists z => //; have [? _] := mul_rel (GAm m) (all_ty v) (all_ty u) z r.
Qed.
Lemma follow_residue_add v u m (S T N : {poly Z}) B C D : ints v S -> ints u T -> ints m N ->
  bounded S B -> bounded T C -> bounded N D -> Z.abs (lead_coef N) = Zpos xH ->
  ((B + C) * (1 + D) ^ Z.of_nat (size (S + T : {poly Z})%ring - size N + 1) <= L)%Z ->
  exists2 z, returns (add (QuotientRing cfg (PolyEucl A) m) v u) z /\
      returns (add (QuotientField cfg (PolyEucl A) m) v u) z &
    exists V : {poly Z}, [/\ ints z V, exists U, S + T = U * N + V & (size V < size N)%nat].
Proof.
move=> h1 h2 h3 h4 h5 h6 h7 h.
have [z r hz] := ints_residue_add okG phi_inj iszP fitG h1 h2 h4 h5 h3 h6 h7 h.
by exists z => //; have [? _] := add_rel (GAm m) (all_ty v) (all_ty u) z r.
Qed.
End Follow.

Section Floats.
Variables (cfg : Cfg) (prec emax : Z).
Context (prec_gt_0 : Prec_gt_0 prec) (prec_lt_emax : Prec_lt_emax prec emax).
Local Notation F := (binary_float prec emax).
Local Notation G := (ExactFloats cfg prec_gt_0 prec_lt_emax).
Local Notation A := (ApproxFloats cfg prec_gt_0 prec_lt_emax).
Local Notation rep := (@denotes prec emax).
Local Notation L := (2 ^ prec - 1)%Z.
Let EA := exact_floats cfg prec_gt_0 prec_lt_emax.
Let okF := exact_field_ok cfg prec_gt_0 prec_lt_emax.

Lemma is_intP (x : F) a : is_int x a <-> rep x (phi a).
Proof. by split=> [/is_int_denotes|h]; [|exact: denotes_is_int]. Qed.

Lemma exact_isb (x : F) a : rep x (phi a) -> PExactDiv.isb (Z.abs a) x.
Proof. by move=> /is_intP h; exists a => //; lia. Qed.
Lemma run_isb (m : M F) a : exact_result m (IZR a) -> (Z.abs a <= L)%Z -> ensures False m (fun _ => True).
Proof.
move=> r h; case: r => r _; have [|z rz _] := r; last exact: ensures_returns rz I.
by apply: int_float => //; lia.
Qed.

Lemma float_fits : int_fits rep G phi L.
Proof.
split.
- exact: ensures_ret.
- move=> x a _; exact: ensures_ret.
- move=> x a y b /is_intP ha /is_intP hb h; have := ex_mul EA ha hb; rewrite -mult_IZR => r.
  exact: run_isb r h.
- move=> x a y b /is_intP ha /is_intP hb h; have := ex_add EA ha hb; rewrite -plus_IZR => r.
  exact: run_isb r h.
- by move=> x a /is_intP ha h; have [z r _] := ex_neg EA ha; exact: ensures_returns r I.
- move=> x a y b hx /is_intP hy h hb.
  have h' : (Z.abs a < 2 ^ prec)%Z by lia.
  by apply: ensures_mono (isb_div cfg prec_gt_0 prec_lt_emax (exact_isb hx) hy hb h') _.
Qed.

Local Notation ints := (poly_of (@is_int prec emax)).
Local Notation bounded P B := (forall i, (Z.abs P`_i <= B)%Z).
Let phi_inj : injective phi := rat_of_inj.

Lemma exact_residue_rel m : ring_alg_rel (@follows) (fun=> True) (in_vec (floats prec emax))
  (QuotientRing cfg (PolyEucl G) m) (QuotientRing cfg (PolyEucl A) m).
Proof.
exact: (exact_ring_on prec_gt_0 prec_lt_emax (stricter_refl cfg)
  (on_QuotientRing true (on_eucl_poly (on_reals (floats prec emax))) (any_floats m))).
Qed.

Let GA := exact_eucl_poly cfg prec_gt_0 prec_lt_emax.
Lemma lt_L a : (a < 2 ^ prec)%Z -> (a <= L)%Z.
Proof. lia. Qed.
Lemma float_add v u (S T : {poly Z}) B C : ints v S -> ints u T -> bounded S B -> bounded T C ->
  (B + C < 2 ^ prec)%Z -> exists2 z, returns (add (PolyEucl A) v u) z & ints z (S + T).
Proof.
move=> h1 h2 h3 h4 /lt_L; exact: (follow_add okF phi_inj is_intP (@any_floats _ _) GA float_fits h1 h2 h3 h4).
Qed.
Lemma float_neg v (S : {poly Z}) B : ints v S -> bounded S B -> (B < 2 ^ prec)%Z ->
  exists2 z, returns (neg (PolyEucl A) v) z & ints z (- S).
Proof.
move=> h1 h2 /lt_L; exact: (follow_neg okF phi_inj is_intP (@any_floats _ _) GA float_fits h1 h2).
Qed.
Lemma float_sub v u (S T : {poly Z}) B C : ints v S -> ints u T -> bounded S B -> bounded T C ->
  (B + C < 2 ^ prec)%Z -> exists2 z, returns (sub (PolyEucl A) v u) z & ints z (S - T).
Proof.
move=> h1 h2 h3 h4 /lt_L; exact: (follow_sub okF phi_inj is_intP (@any_floats _ _) GA float_fits h1 h2 h3 h4).
Qed.
Lemma float_mul v u (S T : {poly Z}) B C : ints v S -> ints u T -> bounded S B -> bounded T C ->
  (Z.of_nat (size S) * (B * C) < 2 ^ prec)%Z ->
  exists2 z, returns (mul (PolyEucl A) v u) z & ints z (S * T).
Proof.
move=> h1 h2 h3 h4 /lt_L; exact: (follow_mul okF phi_inj is_intP (@any_floats _ _) GA float_fits h1 h2 h3 h4).
Qed.
Lemma float_residue_mul v u m (S T N : {poly Z}) B C D : ints v S -> ints u T -> ints m N ->
  bounded S B -> bounded T C -> bounded N D -> Z.abs (lead_coef N) = Zpos xH ->
  (Z.of_nat (size S) * (B * C) * (1 + D) ^ Z.of_nat (size (S * T : {poly Z})%ring - size N + 1) < 2 ^ prec)%Z ->
  exists2 z, returns (mul (QuotientRing cfg (PolyEucl A) m) v u) z /\
      returns (mul (QuotientField cfg (PolyEucl A) m) v u) z &
    exists V : {poly Z}, [/\ ints z V, exists U, S * T = U * N + V & (size V < size N)%nat].
Proof.
move=> h1 h2 h3 h4 h5 h6 h7 /lt_L.
exact: (follow_residue_mul okF phi_inj is_intP (@any_floats _ _) exact_residue_rel float_fits h1 h2 h3 h4 h5 h6 h7).
Qed.
Lemma float_residue_add v u m (S T N : {poly Z}) B C D : ints v S -> ints u T -> ints m N ->
  bounded S B -> bounded T C -> bounded N D -> Z.abs (lead_coef N) = Zpos xH ->
  ((B + C) * (1 + D) ^ Z.of_nat (size (S + T : {poly Z})%ring - size N + 1) < 2 ^ prec)%Z ->
  exists2 z, returns (add (QuotientRing cfg (PolyEucl A) m) v u) z /\
      returns (add (QuotientField cfg (PolyEucl A) m) v u) z &
    exists V : {poly Z}, [/\ ints z V, exists U, S + T = U * N + V & (size V < size N)%nat].
Proof.
move=> h1 h2 h3 h4 h5 h6 h7 /lt_L.
exact: (follow_residue_add okF phi_inj is_intP (@any_floats _ _) exact_residue_rel float_fits h1 h2 h3 h4 h5 h6 h7).
Qed.
End Floats.
