(** * PNumLaws.v -- the laws of the number structures, and the two element algebra. *)

From mathcomp Require Import all_ssreflect all_algebra zify ssrZ.
From Coq Require Import ZArith Lia.
From Verif Require Import Rust Traits MInts Wp Spec PInts PChecked POrders.
From Verif Require Import Laws PLaws PLaws2 PDistr Refuted NumSpec PNum.

Set Implicit Arguments.
Unset Strict Implicit.
Unset Printing Implicit Defensive.

Import GRing.Theory.
Local Open Scope Z_scope.

Section WithCfg.
Variable cfg : Cfg.
Hypothesis hcfg : 2 <= ptr_bits cfg.

Lemma zz_laws : eucl_alg_laws False (fun _ => True) cfg ZZ.
Proof.
by apply: (eucl_alg_laws_ok hcfg _ (ZZ_ok cfg False)) => x _; exists x.
Qed.
Lemma ci_laws w : 2 <= w -> eucl_alg_laws True (fits w) cfg (CheckedInts cfg w).
Proof.
move=> w2; apply: (eucl_alg_laws_ok hcfg _ (CheckedInts_ok cfg w2)) => x /fitsP hx.
by exists x.
Qed.
Lemma bb_laws : field_alg_laws False (fun _ => True) cfg BB.
Proof.
by apply: (field_alg_laws_ok hcfg _ (BB_ok cfg False)) => x _; exists (x%:R)%R.
Qed.
End WithCfg.

Lemma nn_laws : semiring_alg_laws False (fun _ => True) NN.
Proof.
apply: (semiring_alg_laws_ok _ _ _ _ _ _ _ _ _ _ _ (NN_ok False)).
- by move=> x _; exists x.
- exact: N.mul_assoc.
- exact: N.mul_1_l.
- exact: N.mul_1_r.
- exact: N.add_assoc.
- exact: N.add_comm.
- exact: N.add_0_l.
- exact: N.mul_add_distr_r.
- exact: N.mul_add_distr_l.
- exact: N.mul_0_l.
- exact: N.mul_0_r.
Qed.
Lemma cu_laws w : 1 <= w -> semiring_alg_laws True (ufits w) (CheckedUints w).
Proof.
move=> w1; apply: (semiring_alg_laws_ok _ _ _ _ _ _ _ _ _ _ _ (CheckedUints_ok w1)).
- move=> x hx; exists (Z.to_N x); split; last exact/ufitsP.
  by rewrite Z2N.id //; case: hx.
- exact: N.mul_assoc.
- exact: N.mul_1_l.
- exact: N.mul_1_r.
- exact: N.add_assoc.
- exact: N.add_comm.
- exact: N.add_0_l.
- exact: N.mul_add_distr_r.
- exact: N.mul_add_distr_l.
- exact: N.mul_0_l.
- exact: N.mul_0_r.
Qed.

(** Distributive lattices. *)
Lemma zz_lattice_laws :
  lattice_alg_laws False (fun _ => True) ZZ_lattice /\
  lattice_distributes False (fun _ => True) ZZ_lattice ZZ_lattice.
Proof.
have h x : True -> exists u, zz_rep x u by exists x.
split; first exact: (lattice_alg_laws_ok h (ZZ_lattice_ok False)).
exact: (lattice_alg_distr h Z_distributive (ZZ_lattice_ok False)).
Qed.
Lemma nn_lattice_laws :
  lattice_alg_laws False (fun _ => True) NN_lattice /\
  lattice_distributes False (fun _ => True) NN_lattice NN_lattice.
Proof.
have h x : True -> exists u, nn_rep x u by exists x.
split; first exact: (lattice_alg_laws_ok h (NN_lattice_ok False)).
exact: (lattice_alg_distr h N_distributive (NN_lattice_ok False)).
Qed.
Lemma ci_lattice_laws w :
  lattice_alg_laws False (fits w) CheckedInts_lattice /\
  lattice_distributes False (fits w) CheckedInts_lattice CheckedInts_lattice.
Proof.
have h x : fits w x -> exists u, ci_rep w x u by move=> /fitsP hx; exists x.
split; first exact: (lattice_alg_laws_ok h (CheckedInts_lattice_ok False w)).
exact: (lattice_alg_distr h Z_distributive (CheckedInts_lattice_ok False w)).
Qed.
Lemma cu_lattice_laws w :
  lattice_alg_laws False (ufits w) CheckedUints_lattice /\
  lattice_distributes False (ufits w) CheckedUints_lattice CheckedUints_lattice.
Proof.
have h x : ufits w x -> exists u, cu_rep w x u.
  move=> hx; exists (Z.to_N x); split; last exact/ufitsP.
  by rewrite Z2N.id //; case: hx.
split; first exact: (lattice_alg_laws_ok h (CheckedUints_lattice_ok False w)).
exact: (lattice_alg_distr h N_distributive (CheckedUints_lattice_ok False w)).
Qed.
Lemma bb_boolean_laws : boolean_alg_laws False (fun _ => True) BB_boolean.
Proof.
apply: (boolean_alg_laws_ok _ bool_distributive _ (BB_boolean_ok False)).
- by move=> x _; exists x.
- by move=> x u y v z w _ _ _; exact: bool_complement.
Qed.

(** ** BB: the truth tables *)
Section BB.
Implicit Types x y : bool.
Lemma odd_rem n : (~~ (Z.rem n 2 =? 0)) = Z.odd n.
Proof.
rewrite Zodd_mod; have h := Z.quot_rem' n 2; have h1 := Z.rem_bound_abs n 2.
have h2 := Z.mod_pos_bound n 2; have h3 := Z.div_mod n 2.
have hs : Z.rem n 2 = n mod 2 \/ Z.rem n 2 = n mod 2 - 2 by lia.
rewrite /Zeq_bool; case: Z.eqb_spec => h4; case: Z.compare_spec => // h5; lia.
Qed.
Lemma bb_ring x y n :
  [/\ returns (zero BB) false, returns (one BB) true, returns (add BB x y) (xorb x y) &
      returns (mul BB x y) (x && y)] /\
  [/\ returns (neg BB x) x, returns (sub BB x y) (xorb x y),
      returns (double BB x) false & returns (square BB x) x] /\
  [/\ returns (add_assign BB x y) (xorb x y), returns (mul_assign BB x y) (x && y),
      returns (neg_assign BB x) x & returns (sub_assign BB x y) (xorb x y)] /\
  [/\ returns (is_zero BB x) (~~ x), returns (is_one BB x) x,
      returns (equals BB x y) (Bool.eqb x y) & returns (contains BB x) true] /\
  [/\ returns (ztimes BB n x) (x && Z.odd n), returns (int BB n) (Z.odd n),
      (0 <= n -> returns (ntimes BB n x) (x && Z.odd n)),
      returns (try_inv BB x) (if x then Some true else None) &
      returns (invertible BB x) x].
Proof.
do 4 (split; first by split; exact: returns_ret).
split.
- by rewrite -odd_rem; exact: returns_ret.
- by rewrite -odd_rem; exact: returns_ret.
- move=> n0.
  have h : cmonoid_spec False bb_rep +%R 0%R BB.
    by case: (BB_ok (mkCfg true true 64) False) => -[[[]]].
  have := ntimes_ok h n0 (erefl : bb_rep x _) => /ensures_False[v [hv]].
  have -> : npow +%R 0%R (x%:R : F2)%R (Z.to_nat n) = (x && Z.odd n)%:R%R.
    rewrite -odd_rem bb_odd -bb_zmul; case: n n0 {hv} => // k _ /=.
    by elim: (Pos.to_nat k) => // j IH; rewrite mulrS -IH.
  by move=> /eqP; rewrite bb_eq => /Bool.eqb_prop ->.
- by case: x; exact: returns_ret.
- exact: returns_ret.
Qed.

Lemma bb_field x y n :
  [/\ returns (finv BB true) true, panics (finv BB false), returns (fdiv BB x true) x,
      panics (fdiv BB x false) & returns (fpower BB n x) x] /\
  [/\ returns (try_div BB x true) (Some x), panics (try_div BB x false),
      returns (divisible BB x y) (x ==> y), returns (associates BB x y) (Bool.eqb x y) &
      returns (associate_repr BB x) x] /\
  [/\ returns (quo_rem BB x true) (x, false), panics (quo_rem BB x false),
      returns (gcd BB x y) (x || y), returns (lcm BB x y) (x && y) &
      returns (extended_gcd BB x y) (x || y, ~~ y, y)].
Proof.
split; first by split; try exact: returns_ret; try exact: panics_panic.
by split; split; case: x; case: y; run 3%nat.
Qed.
Lemma bb_boolean x y :
  [/\ returns (leq BB_boolean x y) (implb x y), returns (less_than BB_boolean x y) (~~ x && y) &
      returns (comparable BB_boolean x y) true] /\
  [/\ returns (meet BB_boolean x y) (x && y), returns (join BB_boolean x y) (x || y) &
      returns (bnot BB_boolean x) (~~ x)] /\
  returns (omax BB_boolean) true /\ returns (omin BB_boolean) false.
Proof. by split; [|split]; split; exact: returns_ret. Qed.
End BB.

(** ** Results that fit but are not computed *)
Lemma i8_times_refuted cfg :
  (panics (ztimes (I8 cfg) 1000 0) /\ fits 8 (1000 * 0)) /\
  (panics (ntimes (I8 cfg) 100 1) /\ fits 8 (100 * 1)).
Proof.
split.
  by have [h1 h2] := I8_times_spurious cfg; split=> //; exact/fitsP.
by have [h1 h2] := I8_ntimes_spurious cfg; split=> //; exact/fitsP.
Qed.
Lemma u8_times_refuted :
  exists n x, [/\ 0 <= n, ufits 8 x, ufits 8 (n * x) & panics (ntimes U8 n x)].
Proof.
by have [h1 h2] := U8_times_spurious; exists 200, 1; split=> //; exact/ufitsP.
Qed.
