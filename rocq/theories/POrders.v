(** * POrders.v -- the default order methods, the number lattices, and
    TwoElementAlgebra. *)

From Coq Require Import ZArith Lia.
From mathcomp Require Import all_ssreflect all_algebra zify ssrZ.
From Verif Require Import Rust Traits MInts RingTac Wp Spec ZFacts PIntsZ.
From Verif Require Import PDefaults PEucl PInts.

Set Implicit Arguments.
Unset Strict Implicit.
Unset Printing Implicit Defensive.

Import GRing.Theory.
Local Open Scope ring_scope.

Section OrderDefaults.
Variables (p : Prop) (E : Type) (V : eqType) (rep : E -> V -> Prop) (le : rel V).

Lemma order_default eqs lq :
  (forall x u y v, rep x u -> rep y v -> answers p (eqs x y) (u == v)) ->
  (forall x u y v, rep x u -> rep y v -> answers p (lq x y) (le u v)) ->
  order_spec p rep le
    (mkPartialOrder lq (default_less_than eqs lq) (default_comparable lq)).
Proof.
move=> he hl; split=> //= x u y v xu yv.
  apply: ensures_andM; last by move=> _; exact: hl.
  by apply: ensures_notM; exact: he.
by apply: ensures_orM => [|_]; exact: hl.
Qed.
End OrderDefaults.

(** ** Numbers *)
Lemma Z_glb (a b : Z) : is_glb Z.leb a b (Z.min a b).
Proof. by split=> [||d]; lia. Qed.
Lemma Z_lub (a b : Z) : is_lub Z.leb a b (Z.max a b).
Proof. by split=> [||d]; lia. Qed.
Lemma N_glb (a b : N) : is_glb N.leb a b (N.min a b).
Proof. by split=> [||d]; lia. Qed.
Lemma N_lub (a b : N) : is_lub N.leb a b (N.max a b).
Proof. by split=> [||d]; lia. Qed.

Lemma ZZ_lattice_ok p : lattice_alg_spec p zz_rep Z.leb ZZ_lattice.
Proof.
have hD := mo_dom_ok (ri_mon_ok (ZZ_ring_ok (mkCfg true true Z0) p)).
split; first split=> //.
- apply: order_default; first exact: equals_ok hD.
  by move=> x u y v -> ->; apply: ensures_ret.
- by split=> [u|u v w|x u y v _ _]; lia.
- split=> /= x u y v -> ->; apply: ensures_ret.
  + by exists (Z.min u v) => //; exact: Z_glb.
  + by exists (Z.max u v) => //; exact: Z_lub.
Qed.

Lemma NN_lattice_ok p : lattice_alg_spec p nn_rep N.leb NN_lattice.
Proof.
have hD := mo_dom_ok (sr_mon_ok (NN_ok p)).
split; first split=> //.
- apply: order_default; first exact: equals_ok hD.
  by move=> x u y v -> ->; apply: ensures_ret.
- by split=> [u|u v w|x u y v _ _]; lia.
- split=> /= x u y v -> ->; apply: ensures_ret.
  + by exists (N.min u v) => //; exact: N_glb.
  + by exists (N.max u v) => //; exact: N_lub.
Qed.

Lemma CheckedInts_lattice_ok p w :
  lattice_alg_spec p (ci_rep w) Z.leb CheckedInts_lattice.
Proof.
split; first split.
- split=> [x u v [-> _] [-> _] //|x v _|x u y v [-> _] [-> _]]; exact: ensures_ret.
- apply: order_default => x u y v [-> _] [-> _]; exact: ensures_ret.
- by split=> [u|u v z|x u y v _ _]; lia.
- split=> /= x u y v [-> hu] [-> hv]; apply: ensures_ret.
  + exists (Z.min u v); last exact: Z_glb.
    by split=> //; case: (Z.min_spec u v) => -[_ ->].
  + exists (Z.max u v); last exact: Z_lub.
    by split=> //; case: (Z.max_spec u v) => -[_ ->].
Qed.

Lemma CheckedUints_lattice_ok p w :
  lattice_alg_spec p (cu_rep w) N.leb CheckedUints_lattice.
Proof.
have he u v : (Z.eqb (Z.of_N u) (Z.of_N v)) = (u == v).
  by apply/Z.eqb_spec/eqP => [|->] //; lia.
split; first split.
- split=> [x u v [-> _] [h _]|x v _|x u y v [-> _] [-> _]]; first by lia.
    exact: ensures_ret.
  by apply: ensures_ret; rewrite he.
- apply: order_default => x u y v [-> _] [-> _]; apply: ensures_ret => //.
  by lia.
- by split=> [u|u v z|x u y v _ _]; lia.
- split=> /= x u y v [-> hu] [-> hv]; apply: ensures_ret.
  + exists (N.min u v); last exact: N_glb.
    by split; [lia|case: (Z.min_spec (Z.of_N u) (Z.of_N v)) => -[_ ->]].
  + exists (N.max u v); last exact: N_lub.
    by split; [lia|case: (Z.max_spec (Z.of_N u) (Z.of_N v)) => -[_ ->]].
Qed.

(** ** TwoElementAlgebra *)

(** The field with two elements. *)
Definition F2 : fieldType := Fp_fieldType 2.

(** false is 0, true is 1 in the field with two elements. *)
Definition bb_rep (x : bool) (v : F2) : Prop := v = x%:R.

Lemma F2_add1 : (1 + 1 = 0 :> F2).
Proof. exact/eqP. Qed.
Lemma F2_opp (a : F2) : - a = a.
Proof.
apply/eqP; rewrite eq_sym -addr_eq0 -mulr2n -mulr_natr; apply/eqP.
by rewrite (_ : 2%:R = 0) ?mulr0 //; exact/eqP.
Qed.

Lemma bb_and (x y : bool) : ((x && y)%:R = x%:R * y%:R :> F2).
Proof. by case: x; case: y; rewrite ?mul1r ?mul0r. Qed.
Lemma bb_xor (x y : bool) : ((xorb x y)%:R = x%:R + y%:R :> F2).
Proof. by case: x; case: y; rewrite ?add0r ?addr0 ?F2_add1. Qed.
Lemma bb_eq (x y : bool) : (x%:R == y%:R :> F2) = Bool.eqb x y.
Proof. by case: x; case: y. Qed.
Lemma bb_nat n : n%:R = (odd n)%:R :> F2.
Proof.
elim: n => // n IH; rewrite mulrSr IH /=.
by case: (odd n); rewrite /= ?F2_add1 ?add0r.
Qed.
Lemma bb_odd n : (~~ Z.eqb (Z.rem n 2) Z0) = odd (Z.abs_nat n).
Proof.
have -> : Z.eqb (Z.rem n 2) Z0 = Z.eqb (Z.rem (Z.abs n) 2) Z0.
  case: (Z.abs_spec n) => -[_ ->] //; rewrite Z.rem_opp_l' //.
  by case: (Z.rem n 2).
have [_ ->] := Z_half_odd (Z.abs_nonneg n); rewrite negbK.
by congr odd; lia.
Qed.
Lemma bb_zmul (x : bool) n : zmul (x%:R : F2) n = (x && odd (Z.abs_nat n))%:R.
Proof.
have h k : (x%:R : F2) *+ k = (x && odd k)%:R.
  by rewrite -[LHS]mulr_natr (bb_nat k) -bb_and.
by case: n => [|k|k]; rewrite /zmul ?h ?F2_opp // andbF.
Qed.

Lemma BB_ring_ok cfg p : ring_alg_spec cfg p bb_rep *%R 1 two_ring.
Proof.
have hadd x u y v : bb_rep x u -> bb_rep y v -> gives p bb_rep (ret (xorb x y)) (u + v).
  by move=> -> ->; apply: ensures_ret; rewrite /bb_rep bb_xor.
have hsub x u y v : bb_rep x u -> bb_rep y v -> gives p bb_rep (ret (xorb x y)) (u - v).
  by move=> xu yv; rewrite F2_opp; apply: hadd.
have hmul x u y v : bb_rep x u -> bb_rep y v -> gives p bb_rep (ret (x && y)) (u * v).
  by move=> -> ->; apply: ensures_ret; rewrite /bb_rep bb_and.
have h0 : gives p bb_rep (ret false) 0 by apply: ensures_ret.
have h1 : gives p bb_rep (ret true) 1 by apply: ensures_ret.
have hd x u : bb_rep x u -> gives p bb_rep (ret false) (u + u).
  by move=> ->; apply: ensures_ret; rewrite /bb_rep -bb_xor; case: x.
have hz n x u : bb_rep x u -> gives p bb_rep (ret (x && ~~ Z.eqb (Z.rem n 2) Z0)) (zmul u n).
  by move=> ->; apply: ensures_ret; rewrite bb_odd /bb_rep bb_zmul.
split; first split.
- split.
  + by move=> x u v -> ->.
  + by move=> x v _; apply: ensures_ret.
  + by move=> x u y v -> ->; apply: ensures_ret; rewrite bb_eq.
- split=> //= x u ->; apply: ensures_ret; rewrite /bb_rep -bb_and; by case: x.
- have hi (x : bool) (u : F2) : bb_rep x u -> (x <-> exists v, inverse_of *%R 1 u v).
    move=> ->; case: x; split=> //; first by move=> _; exists 1; rewrite /inverse_of mulr1.
    by move=> [v [/eqP]]; rewrite mul0r.
  split=> //=.
  + by move=> x u ->; apply: ensures_ret; rewrite -[1]/(true%:R) bb_eq; case: x.
  + move=> x u xu; case: x xu (hi _ _ xu) => -> [h _]; apply: ensures_ret.
      by exists 1 => //; rewrite /inverse_of mulr1.
    by move=> v [/eqP]; rewrite mul0r.
  + by move=> x u xu; apply: ensures_ret; exact: hi.
- split=> //=.
  + by move=> x u ->; apply: ensures_ret; rewrite -[0]/(false%:R) bb_eq; case: x.
  + move=> n x u n0 xu.
    exact: (default_ntimes_ok (@addrA _) (@add0r _) (@addr0 _) _ _ h0 n0 xu).
- split=> //=.
  + by move=> x u xu; rewrite F2_opp; apply: ensures_ret.
  + by move=> x u xu; rewrite F2_opp; apply: ensures_ret.
  + by move=> n x u _; apply: hz.
- by apply: unitary_default h1 => n x u _; apply: hz.
Qed.

Lemma F2_case (a : F2) : a = 0 \/ a = 1.
Proof.
case: a => -[|[|//]] h; [left|right]; exact: val_inj.
Qed.

Lemma zexp0 (F : fieldType) (n : Z) : zexp (1 : F) n = 1.
Proof. by case: n => //= k; rewrite expr1n ?invr1. Qed.

Lemma BB_field_ok cfg p : field_spec cfg p bb_rep two_field.
Proof.
have bb0 x : bb_rep x 0 -> x = false.
  by case: x.
have bb1 x u : bb_rep x u -> u != 0 -> x = true /\ u = 1.
  by move=> ->; case: x => //; rewrite eqxx.
split=> /=.
- by move=> x a xa a0; have [-> ->] := bb1 _ _ xa a0; rewrite invr1; apply: ensures_ret.
- by move=> x /bb0 ->; exists 0%N.
- by move=> x a y b xa yb b0; have [-> ->] := bb1 _ _ yb b0; rewrite divr1; apply: ensures_ret.
- by move=> x a y _ /bb0 ->; exists 0%N.
- by move=> n x a _ xa a0; have [-> ->] := bb1 _ _ xa a0; rewrite zexp0; apply: ensures_ret.
- by move=> n x x0; apply: ensures_ret.
Qed.

(** BB meets the contract of a field over F2, without any panic. *)
Lemma BB_ok cfg p : field_alg_spec cfg p bb_rep BB.
Proof. by apply: field_alg_ok; [exact: BB_ring_ok|exact: BB_field_ok]. Qed.

(** BB as a Boolean algebra. *)
Definition bool_rep (x v : bool) : Prop := x = v.

Lemma BB_boolean_ok p : boolean_alg_spec p bool_rep implb true false BB_boolean.
Proof.
split; first (split; first split).
- split=> [x u v -> -> //|x v _|x u y v -> ->]; first exact: ensures_ret.
  by left; exists (Bool.eqb u v); split; [exact: returns_ret|case: u; case: v].
- split=> /= x u y v; rewrite /bool_rep => xu yv; subst x y; apply: ensures_ret => //;
  by case: u; case: v.
- by split=> [[]|[] [] []|x [] y []].
- split=> /= x u y v -> ->; apply: ensures_ret.
    by exists (u && v) => //; case: u; case: v; split=> // -[].
  by exists (u || v) => //; case: u; case: v; split=> // -[].
- split=> /=; try exact: ensures_ret; by move=> x [].
- split=> x u ->; apply: ensures_ret; exists (~~ u) => //.
  by case: u; split; split=> // -[].
Qed.
