(** * PSqf2.v -- the test for repeated factors over finite fields and over the rationals. *)

From Coq Require Import ZArith Lia List.
From mathcomp Require Import all_ssreflect all_algebra all_field ssrZ zify.
From Verif Require Import Rust Traits MInts MConstr Wp Spec PropSpec RingSpec PDefaults Quotient.
From Verif Require Import PPoly TowerSpec PTower FFSpec PFF PFrac PCases PResidue SqfSpec PSqf Refuted.

Set Implicit Arguments.
Unset Strict Implicit.
Unset Printing Implicit Defensive.

Import GRing.Theory.
Local Open Scope ring_scope.

Local Notation rat_field := [fieldType of {fraction [idomainType of Z]}].

Lemma frac_div (x : rat_field) : exists a b : Z, b != 0 /\ x = of_int a / of_int b.
Proof.
elim/quotW: x => r; exists (\n_r : Z), (\d_r : Z); have d0 := denom_ratioP r; split=> //.
have D0 : of_int \d_r != 0 by rewrite /= tofrac_eq0.
apply: (mulIf D0); rewrite divfK //=.
rewrite /FracField.tofrac; unlock; pose T := FracField.frac_quotType [idomainType of Z].
rewrite -[LHS]/(FracField.mul (\pi_T r)%qT (\pi_T (Ratio \d_r 1))%qT).
rewrite -[RHS]/(\pi_T (Ratio \n_r 1))%qT -FracField.pi_mul.
apply/eqP; rewrite FracField.equivf_def /=.
rewrite /FracField.mulf /= !numden_Ratio ?mulr1 ?oner_eq0 //.
by rewrite mulrC.
Qed.

Lemma qq_surj (x : rat_field) : exists y, qq_rep y x.
Proof.
have [a [b [b0 ->]]] := frac_div x.
have B0 : of_int b != 0 by rewrite /= tofrac_eq0.
by have [[y [_ yE]]|[[]]] := fdiv_ok (fi_fi_ok (qq_field debug64)) (qq_int a) (qq_int b) B0; exists y.
Qed.

Lemma qq_poly_surj (P : {poly rat_field}) : exists v, poly_of qq_rep v P.
Proof.
rewrite /poly_of; elim: (polyseq P) => [|u s [v h]]; first by exists [::].
by have [x xu] := qq_surj u; exists (x :: v); constructor.
Qed.

Lemma qq_char : [char rat_field] =i pred0.
Proof.
apply/charf0P => n; rewrite -(rmorph_nat of_int) /= tofrac_eq0.
have -> : (n%:R : Z) = Z.of_nat n.
  by elim: n => // n IH; rewrite mulrSr IH -[LHS]/(Z.add (Z.of_nat n) 1) Nat2Z.inj_succ.
by case: n.
Qed.

Lemma squarefree_rational cfg v (P : {poly rat_field}) : poly_of qq_rep v P ->
  decides False (squarefree_test (QQ cfg) v) (no_square False qq_rep (QQ cfg) v).
Proof. exact: (squarefree_decides (qq_field cfg) (perfect_char0 qq_char) qq_poly_surj). Qed.

Lemma squarefree_finite cfg (E : Type) (F : fieldType) (rep : E -> F -> Prop) (A : FieldAlg E) k :
  finite_field cfg rep A k -> forall v (P : {poly F}), poly_of rep v P ->
  decides False (squarefree_test A v) (no_square False rep A v).
Proof.
move=> hA v P; have hk : enumerated rep k by have [] := finite_field_ok hA.
have [_ _ [s [us _ hs]]] := hk.
exact: (squarefree_decides (finite_field_contract hA) (perfect_finite us hs) (poly_of_surj hk)).
Qed.
