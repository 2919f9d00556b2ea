(** * PSame5.v -- a finite field lies inside another one only if its size fits. *)

From Coq Require Import ZArith Znumtheory Lia List.
From mathcomp Require Import all_ssreflect all_fingroup all_algebra.
From mathcomp Require Import ssrZ zify.
From Verif Require Import Rust RustFacts Traits MInts MConstr Spec Wp ModSpec NumSpec RingSpec PropSpec TowerSpec ParSpec SameSpec.
From Verif Require Import PTower PCount PCount3 PFF PSame2.

Set Implicit Arguments.
Unset Strict Implicit.
Unset Printing Implicit Defensive.

Import GRing.Theory.
Local Open Scope ring_scope.

Lemma split_pred X Y : (0 < X)%N -> (0 < Y)%N -> (X * Y).-1 = (X.-1 * Y + Y.-1)%N.
Proof. by case: X => // X; case: Y => // Y _ _; rewrite mulSn addnC addnS. Qed.
Lemma dvd_exponents r a b : (1 < r)%N -> (0 < a)%N -> ((r ^ a).-1 %| (r ^ b).-1)%N -> (a %| b)%N.
Proof.
move=> r1 a0; rewrite {1}(divn_eq b a) expnD mulnC [(_ * a)%N]mulnC expnM mulnC.
have p2 : (0 < (r ^ a) ^ (b %/ a))%N by rewrite !expn_gt0 ltnW.
have p3 : (0 < r ^ (b %% a))%N by rewrite expn_gt0 ltnW.
rewrite split_pred // dvdn_addr; last by rewrite dvdn_mulr // dvdn_pred_predX.
have lt : (r ^ (b %% a) < r ^ a)%N by rewrite ltn_exp2l // ltn_mod.
rewrite /dvdn modn_small; last by rewrite -ltnS !prednK // (leq_trans _ lt).
have [->|m0] := posnP (b %% a)%N => //.
by have : (1 < r ^ (b %% a))%N; [rewrite -(expn0 r) ltn_exp2l|case: (r ^ _)%N => [|[]]].
Qed.

Section Sizes.
Variables (c : Cfg) (E1 E2 : Type) (F1 F2 : fieldType) (rep1 : E1 -> F1 -> Prop) (rep2 : E2 -> F2 -> Prop).
Variables (A1 : FieldAlg E1) (A2 : FieldAlg E2) (k1 k2 : nat) (ok : Z -> Prop).
Hypotheses (h1 : finite_field c rep1 A1 k1) (h2 : finite_field c rep2 A2 k2).
Variable R : E1 -> E2 -> Prop.
Hypothesis hp : pairs_off (fun x => exists u, rep1 x u) (fun y => exists v, rep2 y v) R.
Hypothesis hR : field_alg_par ok R A1 A2.
Let T u v := exists x y, [/\ rep1 x u, rep2 y v & R x y].

Lemma alike_gives m1 m2 u v : alike R m1 m2 -> gives False rep1 m1 u -> gives False rep2 m2 v -> T u v.
Proof.
move=> [s _] [[x [[n rn] xu]]|[[]]] [[y [ry yv]]|[[]]].
have := s n; rewrite (rn n (leqnn n)) => -[w rw xw].
by exists x, y; split=> //; rewrite (returns_det ry rw).
Qed.
Lemma alike_answers m1 m2 a b : alike eq m1 m2 -> answers False m1 a -> answers False m2 b -> a = b.
Proof.
move=> [s _] [[x [[n rn] <-]]|[[]]] [[y [ry <-]]|[[]]].
have := s n; rewrite (rn n (leqnn n)) => -[w rw ->].
exact: returns_det rw ry.
Qed.

Let r1 := id_ring_ok (eu_idom_ok (fi_eucl_ok (finite_field_contract h1))).
Let r2 := id_ring_ok (eu_idom_ok (fi_eucl_ok (finite_field_contract h2))).
Let rR : ring_alg_par ok R A1 A2 := hR.

Lemma T_one : T 1 1.
Proof. by apply: (alike_gives (one_par rR)); [exact: one_ok (mo_mo_ok (ri_mon_ok r1))|exact: one_ok (mo_mo_ok (ri_mon_ok r2))]. Qed.
Lemma T_zero : T 0 0.
Proof. by apply: (alike_gives (zero_par rR)); [exact: zero_ok (ri_cm_ok r1)|exact: zero_ok (ri_cm_ok r2)]. Qed.
Lemma T_mul u v u' v' : T u v -> T u' v' -> T (u * u') (v * v').
Proof.
move=> [x [y [xu yv xy]]] [x' [y' [xu' yv' xy']]]; apply: (alike_gives (mul_par rR xy xy')).
  exact: mul_ok (mo_sg_ok (ri_mon_ok r1)) _ _ _ _ xu xu'.
exact: mul_ok (mo_sg_ok (ri_mon_ok r2)) _ _ _ _ yv yv'.
Qed.
Lemma T_add u v u' v' : T u v -> T u' v' -> T (u + u') (v + v').
Proof.
move=> [x [y [xu yv xy]]] [x' [y' [xu' yv' xy']]]; apply: (alike_gives (add_par rR xy xy')).
  exact: add_ok (ri_cm_ok r1) _ _ _ _ xu xu'.
exact: add_ok (ri_cm_ok r2) _ _ _ _ yv yv'.
Qed.
Lemma T_is_one u v : T u v -> (u == 1) = (v == 1).
Proof.
move=> [x [y [xu yv xy]]]; apply: (alike_answers (is_one_par rR xy)).
  exact: is_one_ok (mo_mo_ok (ri_mon_ok r1)) _ _ xu.
exact: is_one_ok (mo_mo_ok (ri_mon_ok r2)) _ _ yv.
Qed.
Lemma T_is_zero u v : T u v -> (u == 0) = (v == 0).
Proof.
move=> [x [y [xu yv xy]]]; apply: (alike_answers (is_zero_par rR xy)).
  exact: is_zero_ok (ri_cm_ok r1) _ _ xu.
exact: is_zero_ok (ri_cm_ok r2) _ _ yv.
Qed.
Lemma T_exp u v i : T u v -> T (u ^+ i) (v ^+ i).
Proof. by move=> h; elim: i => [|i IH]; [exact: T_one|rewrite !exprS; exact: T_mul]. Qed.
Lemma T_nat i : T i%:R i%:R.
Proof. by elim: i => [|i IH]; [exact: T_zero|rewrite !mulrS; exact: T_add T_one IH]. Qed.

Lemma sizes : exists j, k2 = (k1 ^ j)%N.
Proof.
have [s1 [u1 z1 m1]] : exists s : seq F1, [/\ uniq s, size s = k1 & forall u, u \in s].
  by have [_ [_ _ h]] := finite_field_ok h1.
have [s2 [u2 z2 m2]] : exists s : seq F2, [/\ uniq s, size s = k2 & forall u, u \in s].
  by have [_ [_ _ h]] := finite_field_ok h2.
have [r [d1 [pr c1 d1p]]] := char_card u1 m1; rewrite z1 => e1.
have [r' [d2 [pr' c2 d2p]]] := char_card u2 m2; rewrite z2 => e2.
have rr : r = r'.
  have c1' : r \in [char F2].
    by rewrite inE /= pr -(T_is_zero (T_nat r)); apply/eqP; exact: charf0.
  by have := charf_eq c2 r; rewrite c1' => /esym/eqP.
have [g hg] := primitive u1 m1; rewrite z1 in hg.
have [_ sur _] := finite_field_members h1; have [x xg] := sur g.
have [y xy] := po_partner hp (ex_intro _ g xg).
have [_ [h yh]] := po_members hp xy.
have Tgh : T g h by exists x, y.
have g0 : g != 0.
  apply/negP => /eqP g0; have := prim_expr_order hg; rewrite g0 expr0n eqn0Ngt (prim_order_gt0 hg) /=.
  by move=> /eqP; rewrite eq_sym oner_eq0.
have h0 : h != 0 by rewrite -(T_is_zero Tgh).
have hk : h ^+ k2.-1 == 1 by rewrite -z2 fermat1.
have : (k1.-1 %| k2.-1)%N by rewrite (prim_order_dvd hg) (T_is_one (T_exp _ Tgh)).
rewrite e1 e2 -rr => /(dvd_exponents (prime_gt1 pr) d1p) /dvdnP[j ->].
by exists j; rewrite -expnM mulnC.
Qed.
End Sizes.
