(** * PExact4.v -- dividing polynomials over floats without rounding. *)

From mathcomp Require Import all_ssreflect all_fingroup all_algebra zify ssrZ.
From Coq Require Import ZArith Lia Reals Lra.
From Flocq Require Import Core BinarySingleNaN.
From Verif Require Import Rust Traits MInts MConstr Wp RingSpec Spec PFloat MFloats FloatSpec PVec PPoly
  ProfSpec FloatProfSpec ExactSpec ExactQSpec PExact PExact2 PExact3 PExactDiv.

Set Implicit Arguments.
Unset Strict Implicit.
Unset Printing Implicit Defensive.

Import GRing.Theory.
Local Open Scope ring_scope.
Local Notation ZR := [idomainType of Z].
Local Notation QF := rationals.
Local Notation phi := [rmorphism of @FracField.tofrac ZR].

Section Follow.
Variables (cfg : Cfg) (E : Type) (K : fieldType) (rep : E -> K -> Prop) (G A : FieldAlg E).
Hypothesis okG : field_alg_spec cfg True rep G.
Variable ty : seq E -> Prop.
Hypothesis all_ty : forall v, ty v.
Hypothesis GA : eucl_alg_rel follows (fun=> True) ty (PolyEucl G) (PolyEucl A).
Lemma follow_division v u (P Q : {poly K}) : poly_of rep v P -> poly_of rep u Q -> Q != 0 ->
  ensures True (quo_rem (PolyEucl G) v u) (fun z => [/\ returns (quo_rem (PolyEucl A) v u) z,
    poly_of rep z.1 (P %/ Q) & poly_of rep z.2 (P %% Q)]).
Proof.
move=> vP uQ Q0.
have [[z [r [z1 z2]]]|h] := poly_quo_rem_ok okG vP uQ Q0; last by right.
left; exists z; split=> //; split=> //.
by have [] := quo_rem_rel GA (all_ty v) (all_ty u) z r.
Qed.
Lemma dvdsE (P Q : {poly K}) : dvds P Q <-> P %| Q.
Proof.
by split=> [[k ->]|/dvdpP[k ->]]; [exact: dvdp_mulIr|exists k].
Qed.
Lemma follow_gcd v u (P Q : {poly K}) : poly_of rep v P -> poly_of rep u Q ->
  ensures True (extended_gcd (PolyEucl G) v u) (fun z =>
    returns (extended_gcd (PolyEucl A) v u) z /\
    exists D S T : {poly K}, [/\ poly_of rep z.1.1 D, poly_of rep z.1.2 S, poly_of rep z.2 T,
      D = S * P + T * Q & D %= gcdp P Q]).
Proof.
move=> vP uQ.
have [[z [r hz]]|h] := extended_gcd_ok (eu_eu_ok (PolyEucl_ok okG)) vP uQ; last by right.
left; exists z; split=> //; split.
  by have [] := extended_gcd_rel GA (all_ty v) (all_ty u) z r.
have [D [S [T [[z1 z2 z3] [e g]]]]] := hz; exists D, S, T; split=> //.
case: g => /dvdsE gP /dvdsE gQ gm; rewrite /eqp dvdp_gcd gP gQ /=.
by apply/dvdsE; apply: gm; apply/dvdsE; [exact: dvdp_gcdl|exact: dvdp_gcdr].
Qed.
End Follow.

Section Div.
Variables (cfg : Cfg) (prec emax : Z).
Context (prec_gt_0 : Prec_gt_0 prec) (prec_lt_emax : Prec_lt_emax prec emax).
Local Notation F := (binary_float prec emax).
Local Notation G := (ExactFloats cfg prec_gt_0 prec_lt_emax).
Local Notation A := (ApproxFloats cfg prec_gt_0 prec_lt_emax).
Local Notation rep := (@denotes prec emax).

Let okF := exact_field_ok cfg prec_gt_0 prec_lt_emax.
Lemma any_floats (v : seq F) : in_vec (floats prec emax) v.
Proof. by elim: v => //= x v IH; constructor. Qed.
Lemma exact_eucl_poly : eucl_alg_rel follows (fun=> True) (in_vec (floats prec emax))
  (PolyEucl G) (PolyEucl A).
Proof.
by have [h _] := exact_eucl prec_gt_0 prec_lt_emax (stricter_refl cfg)
  (on_eucl_poly (on_reals (floats prec emax))).
Qed.

Lemma exact_division v u (P Q : {poly QF}) : poly_of rep v P -> poly_of rep u Q -> Q != 0 ->
  ensures True (quo_rem (PolyEucl G) v u) (fun z => [/\ returns (quo_rem (PolyEucl A) v u) z,
    poly_of rep z.1 (P %/ Q) & poly_of rep z.2 (P %% Q)]).
Proof.
exact: (follow_division okF any_floats exact_eucl_poly).
Qed.
Lemma exact_gcd v u (P Q : {poly QF}) : poly_of rep v P -> poly_of rep u Q ->
  ensures True (extended_gcd (PolyEucl G) v u) (fun z =>
    returns (extended_gcd (PolyEucl A) v u) z /\
    exists D S T : {poly QF}, [/\ poly_of rep z.1.1 D, poly_of rep z.1.2 S, poly_of rep z.2 T,
      D = S * P + T * Q & D %= gcdp P Q]).
Proof. exact: (follow_gcd okF any_floats exact_eucl_poly). Qed.
Lemma denotes_unique (x : F) : is_finite x = true -> exists q, rep x q /\ forall q', rep x q' -> q' = q.
Proof.
move=> /denotes_ex [q h]; exists q; split=> // q' h'.
by apply/(same_unique (proj2 h') (proj2 h)).
Qed.
Lemma is_int_denotes (x : F) a : is_int x a -> rep x (rat_of a).
Proof. by move=> h; exact: float_denotes h (same_int a). Qed.
Lemma denotes_is_int (x : F) a : rep x (rat_of a) -> is_int x a.
Proof. by move=> [fx h]; split=> //; have /(same_unique h (same_int a)) := erefl (rat_of a). Qed.
Local Notation toQ P := (map_poly rat_of P).
Lemma rat_of_inj : injective rat_of.
Proof. by move=> a b /(same_unique (same_int a) (same_int b)) /eq_IZR. Qed.
Lemma size_toQ (P : {poly Z}) : size (toQ P) = size P.
Proof. by apply: size_map_inj_poly; [exact: rat_of_inj|exact: rat_of0]. Qed.
Lemma coef_toQ (P : {poly Z}) i : (toQ P)`_i = rat_of P`_i.
Proof. by rewrite coef_map_id0 //; exact: rat_of0. Qed.
Lemma ints_rep v (P : {poly Z}) : poly_of (@is_int prec emax) v P <-> poly_of rep v (toQ P).
Proof.
split=> h; have hs := reps_size h; rewrite ?size_toQ in hs.
  apply: (@reps_nthP _ _ _ (B754_zero false) 0); rewrite size_toQ // => i hi.
  by rewrite coef_toQ; apply: is_int_denotes; exact: reps_nth h hi.
apply: (@reps_nthP _ _ _ (B754_zero false) 0) => // i hi; apply: denotes_is_int.
by rewrite -coef_toQ; apply: (reps_nth _ _ h); rewrite size_toQ.
Qed.
Lemma unit_division (P Q : {poly Z}) : Z.abs (lead_coef Q) = Zpos xH ->
  exists S T : {poly Z}, P = S * Q + T /\ (size T < size Q)%nat.
Proof.
move=> h; pose c := lead_coef Q.
have cc : c * c = 1.
  by have [->|->] : c = Zpos xH \/ c = Zneg xH by rewrite /c; lia.
have m : c *: Q \is monic by rewrite monicE lead_coefZ -/c cc.
have Q0 : c *: Q != 0 by exact: monic_neq0.
exists (c *: Pdiv.CommonRing.rdivp P (c *: Q)), (Pdiv.CommonRing.rmodp P (c *: Q)); split.
  by rewrite {1}(Pdiv.RingMonic.rdivp_eq m P) -scalerAr -scalerAl.
have := Pdiv.CommonRing.ltn_rmodp P (c *: Q); rewrite Q0 => /leq_trans; apply.
exact: size_scale_leq.
Qed.

Lemma monic_division v u (P Q : {poly Z}) (B C : Z) :
  poly_of (@is_int prec emax) v P -> poly_of (@is_int prec emax) u Q ->
  (forall i, (Z.abs P`_i <= B)%Z) -> (forall i, (Z.abs Q`_i <= C)%Z) ->
  Z.abs (lead_coef Q) = Zpos xH ->
  (B * (1 + C) ^ Z.of_nat (size P - size Q + 1) < 2 ^ prec)%Z ->
  exists2 z, returns (quo_rem (PolyEucl A) v u) z &
    exists S T : {poly Z}, [/\ poly_of (@is_int prec emax) z.1 S, poly_of (@is_int prec emax) z.2 T,
      P = S * Q + T & (size T < size Q)%nat].
Proof.
move=> vP uQ hB hC hl small.
have Q0 : Q != 0 by apply/eqP => e; rewrite e lead_coef0 in hl.
have sv := reps_size vP; have su := reps_size uQ.
have [S [T [e hT]]] := unit_division P hl.
have q0 : toQ Q != 0 by rewrite -size_poly_eq0 size_toQ size_poly_eq0.
have eQ : toQ P = toQ S * toQ Q + toQ T.
  by rewrite {1}e -/(map_poly phi _) -/(map_poly phi S) rmorphD rmorphM.
have dS : toQ P %/ toQ Q = toQ S by rewrite eQ divp_addl_mul_small // !size_toQ.
have dT : toQ P %% toQ Q = toQ T by rewrite eQ modp_addl_mul_small // !size_toQ.
have np : ensures False (poly_quo_rem G v u) (fun=> True).
  case: (leqP (size u) (size v)) => huv; last first.
    rewrite /poly_quo_rem huv su size_poly_eq0 (negbTE Q0) /= bind_ret; exact: ensures_ret.
  apply: (@ints_division _ _ _ _ _ v u B C (lead_coef Q)) => //.
  - by move=> k hk; exists P`_k; [exact: hB|apply: reps_nth vP _; rewrite -sv].
  - by move=> k hk; exists Q`_k; [exact: hC|apply: reps_nth uQ _; rewrite -su].
  - by rewrite su lt0n size_poly_eq0.
  - by rewrite su; apply: reps_nth uQ _; rewrite prednK // lt0n size_poly_eq0.
  - by rewrite sv su.
have [z0 r0] : exists z, returns (quo_rem (PolyEucl G) v u) z.
  by case: np => [[z [r _]]|[]//]; exists z.
have hd := exact_division (proj1 (ints_rep v P) vP) (proj1 (ints_rep u Q) uQ) q0.
have [r z1 z2] := ensures_value hd r0.
exists z0 => //; exists S, T; split=> //; apply/ints_rep; first by rewrite -dS.
by rewrite -dT.
Qed.
End Div.
