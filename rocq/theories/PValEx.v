(** * PValEx.v -- the Fourier transform of length 3 over the field with 4 elements. *)

From Coq Require Import ZArith List.
From mathcomp Require Import all_ssreflect all_algebra.
From Verif Require Import Rust Traits MInts MConstr Spec RingSpec TowerSpec ValSpec.
From Verif Require Import PInts POrders Quotient PQuot PPoly PTower PTowerEx PVal.

Set Implicit Arguments.
Unset Strict Implicit.
Unset Printing Implicit Defensive.

Import GRing.Theory.
Local Open Scope ring_scope.

Lemma gf4_neg1 : - (1 : gf4) = 1.
Proof. by apply/eqP; rewrite eq_sym -addr_eq0 gf4_two. Qed.
Lemma gf4_x3 : gf4_x ^+ 3 = 1.
Proof.
have h := gf4_xE; have : (gf4_x - 1) * (gf4_x * gf4_x + gf4_x + 1) = 0 by rewrite h mulr0.
move=> e; apply/eqP; rewrite -subr_eq0; apply/eqP; rewrite -e.
by rewrite subrX1 !big_ord_recr big_ord0 /= add0r expr0 expr1 expr2; congr (_ * _); rewrite addrC [1 + _]addrC addrA.
Qed.
Lemma gf4_x_primitive : 3.-primitive_root gf4_x.
Proof.
have [m hm m3] := prim_order_exists (isT : (0 < 3)%N) gf4_x3.
have : (m == 1%N) || (m == 3%N).
  by move: m3 (dvdn_leq (isT : (0 < 3)%N) m3); case: m {hm} => [|[|[|[|m]]]].
move=> /orP[] /eqP mE; rewrite mE in hm; last exact: hm.
have := prim_expr_order hm; rewrite expr1 => x1.
have := gf4_xE; rewrite x1 mulr1 gf4_two add0r => /eqP; by rewrite oner_eq0.
Qed.

(** x^3 - 1 *)
Definition cubic1 : seq (seq bool) := [:: [:: true]; [::]; [::]; [:: true]].
Lemma gf4_one_rep : gf4_rep [:: true] 1.
Proof. by rewrite /gf4_rep /qf_rep qval1 /poly_of polyseq1; repeat constructor. Qed.
Lemma gf4_zero_rep : gf4_rep [::] 0.
Proof. by rewrite /gf4_rep /qf_rep qval0 /poly_of polyseq0; constructor. Qed.
Lemma cubic1_of : poly_of gf4_rep cubic1 ('X^3 - 1 : {poly gf4}).
Proof.
have -> : 'X^3 - 1 = Poly [:: 1; 0; 0; 1 : gf4].
  apply/polyP => i; rewrite coefB coefXn coefC coef_Poly.
  by case: i => [|[|[|[|i]]]] //=; rewrite ?sub0r ?subr0 ?gf4_neg1 ?nth_nil ?oppr0.
rewrite /poly_of (@PolyK _ 0) ?oner_neq0 //.
by repeat constructor; exact: gf4_one_rep || exact: gf4_zero_rep.
Qed.
