(** * PCases.v -- structures meeting the contracts, for the examples beside the theorems. *)

From mathcomp Require Import all_ssreflect all_algebra zify ssrZ.
From Coq Require Import ZArith Znumtheory.
From Verif Require Import Rust Traits Wp MInts MConstr Spec PropSpec RingSpec PInts POrders PGroups PPoly.
From Verif Require Import Quotient PQuot PModular PFrac PFracProps.

Set Implicit Arguments.
Unset Strict Implicit.
Unset Printing Implicit Defensive.

Import GRing.Theory.
Local Open Scope ring_scope.

Lemma zz_ring cfg : ring_alg_spec cfg False zz_rep *%R 1 ZZ.
Proof. exact: id_ring_ok (eu_idom_ok (ZZ_ok cfg False)). Qed.
Lemma zz_idom cfg : idom_alg_spec cfg False zz_rep Z_assoc ZZ.
Proof. exact: eu_idom_ok (ZZ_ok cfg False). Qed.
Lemma zz_abelian cfg : abelian_alg_spec cfg False zz_rep (ring_abelian ZZ).
Proof. exact: ring_abelian_ok (zz_ring cfg). Qed.
Lemma zz_group cfg : group_alg_spec cfg False zz_rep +%R 0 -%R (AdditiveGroup cfg (ring_abelian ZZ)).
Proof. exact: additive_group_ok (zz_abelian cfg). Qed.
Lemma zz_contains : contains_exact False zz_rep ZZ.
Proof. by move=> x; apply: ensures_ret; split=> // _; exists x. Qed.
Lemma bool_contains : contains_exact False bool_rep BB_boolean.
Proof. by move=> x; apply: ensures_ret; split=> // _; exists x. Qed.

(** The field of three elements, over the integers. *)
Definition three : irr_modulus [idomainType of Z] := IrrModulus (prime_irreducible prime_3).
Definition three_rep := @qf_rep Z _ zz_rep Z_eucl three.
Lemma three_field cfg : field_alg_spec cfg False three_rep (QuotientField cfg ZZ 3%Z).
Proof. exact: (QuotientField_ok (ZZ_ok cfg False)). Qed.
Lemma three_ring cfg : ring_alg_spec cfg False three_rep *%R 1 (QuotientField cfg ZZ 3%Z).
Proof. exact: id_ring_ok (eu_idom_ok (fi_eucl_ok (three_field cfg))). Qed.

(** The rational numbers. *)
Definition qq_rep := frac_rep (F := [fieldType of {fraction [idomainType of Z]}])
  [rmorphism of @FracField.tofrac [idomainType of Z]] Z_assoc zz_rep.
Lemma qq_field cfg : field_alg_spec cfg False qq_rep (QQ cfg).
Proof. exact: (reduced_fractions_contract (ZZ_ok cfg False)). Qed.
Lemma qq_ring cfg : ring_alg_spec cfg False qq_rep *%R 1 (QQ cfg).
Proof. exact: id_ring_ok (eu_idom_ok (fi_eucl_ok (qq_field cfg))). Qed.

(** The polynomial and the matrix listed by a vector of integers. *)
Lemma zz_all v : List.Forall2 zz_rep v v.
Proof. by elim: v => [|x v ih]; constructor. Qed.
Lemma zz_poly (v : seq Z) : last 1 v != 0 -> poly_of zz_rep v (Poly v).
Proof. by move=> h; rewrite /poly_of (PolyK h); apply: zz_all. Qed.
Lemma zz_matrix n (v : seq Z) : size v = (n * n)%nat ->
  matrix_of zz_rep v (\matrix_(i < n, j < n) v`_(i * n + j)).
Proof. by move=> vE; exists v; split=> // [|i j]; [apply: zz_all|rewrite mxE]. Qed.
