(** * PIrrEx.v -- the field of the crate's test [field_256]
    (polynomial_algebra.rs:292-321). *)

From mathcomp Require Import all_ssreflect all_algebra ssrZ zify.
From Coq Require Import ZArith Lia Znumtheory.
From Verif Require Import Rust Traits MInts MConstr Wp Spec PropSpec RingSpec Quotient PModular.
From Verif Require Import PChecked PInts PPoly PQuot TowerSpec PTower FFSpec IrrSpec PIrr PIrr2 Refuted.

Set Implicit Arguments.
Unset Strict Implicit.
Unset Printing Implicit Defensive.

Import GRing.Theory.
Local Open Scope ring_scope.

Definition field2 cfg : FieldAlg Z := QuotientField cfg (I32 cfg) 2%Z.
Definition f2_rep := @qf_rep Z [idomainType of Z] (ci_rep 32) Z_eucl (prime_field prime_2).
Lemma field2_tower cfg : finite_field cfg f2_rep (field2 cfg) 2.
Proof. by apply: (@FF_small cfg 32 2 prime_2). Qed.

(** 1 + x + x^3 + x^4 + x^8 *)
Definition poly256 : seq Z := [:: 1; 1; 0; 1; 1; 0; 0; 0; 1]%Z.
Lemma f2_poly v : all (fun x => (x == 0%Z) || (x == 1%Z)) v -> last 1%Z v = 1%Z ->
  exists P, poly_of f2_rep v P.
Proof.
move=> hv lv; pose one2 := (1 : qfield_fieldType Z_eucl (prime_field prime_2)).
pose f (x : Z) := if x == 1%Z then one2 else 0.
pose s := map f v.
have ls : last one2 s != 0.
  have -> : last one2 s = one2 by rewrite -[one2]/(f 1%Z) /s last_map lv.
  exact: oner_neq0.
exists (Poly s); rewrite /poly_of (PolyK ls) /s.
elim: v hv {s lv ls} => [|x v IH] /=; first by constructor.
by move=> /andP[/orP[]/eqP-> /IH h]; constructor.
Qed.
Definition field256 cfg : FieldAlg (seq Z) := QuotientField cfg (PolyEucl (field2 cfg)) poly256.

Lemma test256 : returns (irreducible_test debug64 (field2 debug64) 2 poly256) true.
Proof. by run 100%nat. Qed.
(** x^2 + 1 = (x + 1)^2 *)
Lemma test_square : returns (irreducible_test debug64 (field2 debug64) 2 [:: 1; 0; 1]%Z) false.
Proof. by run 100%nat. Qed.

(** The field has 256 elements, and 1 + x generates its multiplicative group. *)
Lemma field256_generator : exists (F : fieldType) (rep : seq Z -> F -> Prop),
  finite_field debug64 rep (field256 debug64) 256 /\
  generates (fun x => exists u, rep x u) (field256 debug64) 256 [:: 1; 1]%Z.
Proof.
have [P vP] : exists P, poly_of f2_rep poly256 P by exact: f2_poly.
have tw := field2_tower debug64.
have hP : @irreducible_elt (poly_idomainType _) P.
  by apply/(ensures_value (irreducible_test_ok tw vP isT) test256).
have sP : size (P : {poly _}) = 9%nat by rewrite -(reps_size vP).
have := FF_extension tw (m := irr_mod hP) vP; rewrite /= sP.
rewrite -[expn 2 _]/256%nat => t; eexists; eexists; split; first exact: t.
have g : good_isize debug64 (Z.of_nat 256) by split.
apply/(primitive_test t g).
- have [U hU] : exists U, poly_of f2_rep [:: 1; 1]%Z U by exact: f2_poly.
  have h : erem (poly_estruct _) (U : poly_idomainType _) (irr_mod hP) == U.
    by rewrite erem_small /= sP -(reps_size hU).
  by exists (Quot h).
- by run 100%nat.
move=> r pr rk; have : r \in primes 255 by rewrite mem_primes pr.
rewrite -[primes 255]/[:: 3; 5; 17]%nat !inE => /or3P[] /eqP ->; by run 2000%nat.
Qed.
Lemma poly256_of : exists P, poly_of f2_rep poly256 P.
Proof. exact: f2_poly. Qed.
Lemma square_of : exists P, poly_of f2_rep [:: 1; 0; 1]%Z P.
Proof. exact: f2_poly. Qed.
