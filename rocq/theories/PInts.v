(** * PInts.v -- Integers, Naturals, CheckedInts, CheckedUints meet the contracts. *)

From Coq Require Import ZArith Lia.
From mathcomp Require Import all_ssreflect all_algebra zify ssrZ.
From Verif Require Import Rust Traits MInts RingTac Wp Spec ZFacts PIntsZ.
From Verif Require Import PDefaults PEucl.

Set Implicit Arguments.
Unset Strict Implicit.
Unset Printing Implicit Defensive.

Import GRing.Theory.
Local Open Scope ring_scope.

(** ** The integers as a Euclidean domain *)

Lemma Zneq0 (b : Z) : b != 0 -> b <> Z0.
Proof. by move/eqP. Qed.

Lemma ze_div (a b : Z) : b != 0 -> a = zquo a b * b + zrem a b.
Proof. by move/Zneq0/zdiv. Qed.
Lemma ze_norm (a b : Z) : b != 0 -> zrem a b != 0 ->
  (Z.abs_nat (zrem a b) < Z.abs_nat b)%N.
Proof. by move=> /Zneq0 b0 _; have := zrem_bound a b b0; lia. Qed.
Lemma ze_canon (a b c : Z) : b != 0 -> zrem (a + c * b) b = zrem a b.
Proof. by move/Zneq0/zrem_canon. Qed.
Lemma ze_rem0 (b : Z) : b != 0 -> zrem 0 b = 0.
Proof. by move/Zneq0/zrem0. Qed.
Lemma ze_rem1 (b : Z) : b != 0 -> b \isn't a GRing.unit -> zrem 1 b = 1.
Proof.
move=> /Zneq0 b0; rewrite qualifE => /norP[/eqP b1 /eqP b2].
by apply/zrem_self => //; lia.
Qed.
(** Remainders 0 <= r < |b|. *)
Definition Z_eucl : eucl_struct [idomainType of Z] :=
  EuclStruct ze_div ze_norm ze_canon ze_rem0 ze_rem1.

(** Associate representatives: the non-negative integers. *)
Definition zcoef (a : Z) : Z := if Z.ltb a Z0 then Zneg xH else Zpos xH.
Lemma zcoef_unit (a : Z) : a != 0 -> zcoef a \is a GRing.unit.
Proof. by rewrite /zcoef; case: ifP. Qed.
Lemma zcoef_mul (u a : Z) : u \is a GRing.unit -> a != 0 -> zcoef (u * a) * u = zcoef a.
Proof.
move=> /pred2P[] -> a0; first by rewrite Z.mul_1_l; exact: Z.mul_1_r.
have {}a0 := Zneq0 a0; rewrite /zcoef.
have -> : Z.mul (Zneg xH) a = Z.opp a by case: (a).
by case: Z.ltb_spec => h1; case: Z.ltb_spec => h2 //; lia.
Qed.
Definition Z_assoc : assoc_struct [idomainType of Z] :=
  @AssocStruct [idomainType of Z] zcoef zcoef_unit zcoef_mul erefl.

Lemma Z_dvdsP (a b : Z) : dvds a b <-> Z.divide a b.
Proof. by split; move=> [c cE]; exists c. Qed.

Lemma zmulE (a n : Z) : zmul a n = n * a :> Z.
Proof.
have h (x : Z) k : x *+ k = Z.of_nat k * x.
  elim: k => [|k IH]; first by rewrite mulr0n mul0r.
  by rewrite mulrS IH Nat2Z.inj_succ -Z.add_1_l mulrDl mul1r.
case: n => [|k|k]; rewrite /zmul ?mul0r // h positive_nat_Z //.
by rewrite -mulNr.
Qed.

Lemma Z_inverse (a : Z) :
  (exists v, inverse_of *%R 1 a v) <-> a = Zpos xH \/ a = Zneg xH.
Proof.
split=> [[v [av va]]|]; last first.
  by case=> ->; [exists (Zpos xH)|exists (Zneg xH)].
have : a \is a GRing.unit by apply/unitrP; exists v.
by move/pred2P => [] ->; [left|right].
Qed.

(** ** Integers *)
Definition zz_rep (x v : Z) : Prop := x = v.

Lemma ZZ_ring_ok cfg p : ring_alg_spec cfg p zz_rep *%R 1 integers_ring.
Proof.
split; first split.
- split=> //.
  + by move=> x u v -> ->.
  + by move=> x v _; apply: ensures_ret.
  + by move=> x u y v -> ->; apply: ensures_ret.
- by apply: semigroup_default => x u y v -> ->; apply: ensures_ret.
- have hi x u : zz_rep x u -> decides p (integers_invertible x) (exists v, inverse_of *%R 1 u v).
    move=> ->; apply: ensures_ret; rewrite Z_inverse.
    by case: Z.eqb_spec; case: Z.eqb_spec => /=; lia.
  split=> //=.
  + exact: ensures_ret.
  + by move=> x u ->; apply: ensures_ret.
  + move=> x u xu; apply: ensures_bind (hi _ _ xu) _ => b hb.
    case: ifP hb => _ hb; apply: ensures_ret.
      have [v uv] := hb.1 isT; exists u => //; rewrite -xu.
      have /Z_inverse : exists v, inverse_of *%R 1 x v by exists v; rewrite xu.
      by case=> ->.
    by move=> v uv; have := hb.2 (ex_intro _ v uv).
- split=> //=; try by move=> *; apply: ensures_ret.
  + by move=> x u -> ; apply: ensures_ret.
  + by move=> x u y v -> ->; apply: ensures_ret.
  + by move=> x u y v -> ->; apply: ensures_ret.
  + by move=> x u ->; apply: ensures_ret; rewrite /zz_rep -mulr2n -mulr_natr.
  + move=> n x u n0 ->; apply: ensures_ret; rewrite /zz_rep npow_mulrn.
    by rewrite -[LHS](zmulE u n); case: n n0 => [|k|k] //; lia.
- split=> //=.
  + by move=> x u ->; apply: ensures_ret.
  + by move=> x u ->; apply: ensures_ret.
  + by move=> x u y v -> ->; apply: ensures_ret.
  + by move=> x u y v -> ->; apply: ensures_ret.
  + by move=> n x u _ ->; apply: ensures_ret; rewrite /zz_rep zmulE.
- split=> /= n _; rewrite /default_int bind_ret; apply: ensures_ret.
  by rewrite /zz_rep zmulE.
Qed.

Lemma zrem_dvds (a b : Z) : b != 0 -> (zrem a b == 0) <-> dvds b a.
Proof. by move=> b0; exact: (erem_eq0 Z_eucl a b0). Qed.

Lemma Z_try_div_ok (a b : Z) : b != 0 ->
  match (if Z.eqb (zrem a b) Z0 then Some (zquo a b) else None) with
  | Some c => a = c * b
  | None => ~ dvds b a
  end.
Proof.
move=> b0; have h := zrem_dvds a b0; have := ze_div a b0; rewrite -[_ == _]/(Z.eqb _ _) in h.
case: Z.eqb_spec h => [-> _|_ h _]; first by rewrite addr0.
by move/h.
Qed.

Lemma Z_divisible_ok (a b : Z) :
  (if Z.eqb b Z0 then Z.eqb a Z0 else Z.eqb (zrem a b) Z0) <-> dvds b a.
Proof.
case: Z.eqb_spec => [->|b0].
  by split=> [/Z.eqb_eq ->|/dvd0s ->] //; exact: dvds0.
by apply: (zrem_dvds a); apply/eqP.
Qed.

Lemma Z_arepE (a : Z) : arep Z_assoc a = Z.abs a.
Proof.
rewrite /arep; case: eqP => [->|a0] //=.
by rewrite /zcoef; case: Z.ltb_spec => h; case: a a0 h => //=; lia.
Qed.

Lemma ZZ_idom_ok p : idom_spec p zz_rep Z_assoc integers_idom.
Proof.
have hd x a y b : zz_rep x a -> zz_rep y b ->
    decides p (integers_divisible x y) (dvds b a).
  by move=> -> ->; rewrite integers_divisibleE; apply: ensures_ret; apply: Z_divisible_ok.
split=> //=.
- move=> x a y b -> -> b0; rewrite integers_try_divE; last exact: Zneq0.
  apply: ensures_ret; have := Z_try_div_ok a b0; case: ifP => // _ h.
  by exists (zquo a b).
- by move=> x a y -> ->; exists 0%N.
- by move=> x a y b xa yb; exact: default_associates_ok hd xa yb.
- move=> x a ->; rewrite /gives Z_arepE /integers_associate_repr.
  by case: Z.ltb_spec => ?; apply: ensures_ret; rewrite /zz_rep; lia.
- move=> x a -> a0; rewrite /integers_associate_coef; apply: ensures_assert_bind => //.
  by rewrite /gives /acoef /= /zcoef; case: ifP => _; apply: ensures_ret.
- by move=> x ->; exists 0%N.
Qed.

(** ZZ meets the contract of a Euclidean domain over Z, without any panic. *)
Lemma ZZ_ok cfg p : eucl_alg_spec cfg p zz_rep Z_assoc Z_eucl ZZ.
Proof.
have hI : idom_alg_spec cfg p zz_rep Z_assoc ZZ.
  by split; [exact: ZZ_ring_ok|exact: ZZ_idom_ok].
split=> //; apply: (eucl_default _ hI).
- exact: is_zero_ok (ri_cm_ok (id_ring_ok hI)).
- move=> x a y b -> -> b0; rewrite integers_quo_remE; last exact: Zneq0.
  exact: ensures_ret.
- by move=> x a y -> ->; exists 0%N.
- by move=> x a y b -> ->; rewrite integers_reducedE; apply: ensures_ret.
Qed.

(** ** CheckedInts *)
Section CheckedInts.
Variables (cfg : Cfg) (w : Z).
Hypothesis w2 : Z.le 2 w.

Definition ci_rep (x v : Z) : Prop := x = v /\ in_i w x.

Lemma ci_checked (z : Z) : gives True ci_rep (unwrap (checked_i w z)) z.
Proof.
rewrite /checked_i /unwrap; case: ifP => h; last exact: ensures_panic.
exact: ensures_ret.
Qed.

Lemma ci_repI (z : Z) : in_i w z -> ci_rep z z.
Proof. by []. Qed.

Lemma ci_cm_ok : cmonoid_spec True ci_rep +%R 0 (checked_ints_cmonoid w).
Proof.
apply: (cmonoid_default (@addrA _) (@add0r _) (@addr0 _)).
- by apply: ensures_ret; apply: ci_repI; apply: in_i0.
- by move=> x u [-> _]; apply: ensures_ret.
- by move=> x u y v [-> _] [-> _]; apply: ci_checked.
Qed.

Lemma ci_ring_ok : ring_alg_spec cfg True ci_rep *%R 1 (checked_ints_ring w).
Proof.
have hn x u : ci_rep x u -> gives True ci_rep (checked_ints_neg w x) (- u).
  move=> [-> _]; rewrite (_ : - u = Z.sub Z0 u); first exact: ci_checked.
  by case: (u).
have hz n x u : ci_rep x u -> gives True ci_rep (checked_ints_ztimes w n x) (zmul u n).
  move=> [-> _]; apply: ensures_bind (ci_checked n) _ => m [-> _].
  rewrite zmulE mulrC; exact: ci_checked.
have h1 : gives True ci_rep (ret (Zpos xH)) 1.
  by apply: ensures_ret; apply: ci_repI; exact: in_i1.
split; first split.
- split=> //.
  + by move=> x u v [-> _] [-> _].
  + by move=> x v _; apply: ensures_ret.
  + by move=> x u y v [-> _] [-> _]; apply: ensures_ret.
- by apply: semigroup_default => x u y v [-> _] [-> _]; apply: ci_checked.
- have hi x u : ci_rep x u -> decides True (checked_ints_invertible x) (exists v, inverse_of *%R 1 u v).
    move=> [-> _]; apply: ensures_ret; rewrite Z_inverse.
    by case: Z.eqb_spec; case: Z.eqb_spec => /=; lia.
  split=> //=.
  + by move=> x u [-> _]; apply: ensures_ret.
  + move=> x u xu; apply: ensures_bind (hi _ _ xu) _ => b hb.
    case: ifP hb => _ hb; apply: ensures_ret.
      have [v uv] := hb.1 isT; exists u => //.
      have /Z_inverse : exists v, inverse_of *%R 1 u v by exists v.
      by case: xu => -> _ [] ->.
    by move=> v uv; have := hb.2 (ex_intro _ v uv).
- exact: ci_cm_ok.
- split=> //=.
  + move=> x u y v [-> _] [-> _]; exact: ci_checked.
  + move=> x u y v xu yv; apply: default_sub_assign_ok xu yv => //.
    exact: add_ok ci_cm_ok.
  + by move=> n x u _; apply: hz.
- by apply: unitary_default h1 => n x u _; apply: hz.
Qed.

Lemma in_zrem x y : in_i w x -> in_i w y -> y <> Z0 -> in_i w (zrem x y).
Proof.
move=> /(in_iP w) hx /(in_iP w) hy y0; apply/(in_iP w).
have := zrem_bound x y y0; have := imin_imax w2; case=> h1 h2 h3.
split; first by lia.
(* |b| can be MAX + 1, but the remainder is smaller *)
by lia.
Qed.

Lemma in_zquo x y : in_i w x -> in_i w y -> y <> Z0 -> ~~ bad_div w x y ->
  in_i w (zquo x y).
Proof.
move=> hx hy y0 nb; have hq := quot_in w2 hx hy y0; rewrite nb in hq.
have := quot_fix x y y0; have := imin_imax w2.
move/(in_iP w): hx => hx; move/(in_iP w): hy => hy; move/(in_iP w): hq => hq.
have hqb := quot_abs_le x y y0; have hqm := quot_mul_bound x y y0.
have hqr := Z.quot_rem' x y; have rb := Z.rem_bound_abs x y y0.
case: Z.ltb_spec => r0; first case: Z.ltb_spec => y1; move=> [mm m1] [hE _];
  apply/(in_iP w); rewrite -hE //; split; try lia.
- by move: nb; rewrite /bad_div; nia.
- by nia.
Qed.

Lemma ci_idom_ok : idom_spec True ci_rep Z_assoc (checked_ints_idom cfg w).
Proof.
have ht x a y b : ci_rep x a -> ci_rep y b -> b != 0 ->
    ensures True (checked_ints_try_div cfg w x y) (fun o =>
      match o with
      | Some z => exists2 c, ci_rep z c & a = c * b
      | None => ~ dvds b a
      end).
  move=> [-> ha] [-> hb] b0; rewrite checked_ints_try_divE //; last exact: Zneq0.
  case: ifP => bad; first exact: ensures_panic.
  apply: ensures_ret; have := Z_try_div_ok a b0; case: ifP => // _ h.
  exists (zquo a b) => //; split=> //; apply: in_zquo => //; [exact: Zneq0|by rewrite bad].
have hd x a y b : ci_rep x a -> ci_rep y b ->
    decides True (default_divisible (is_zero (checked_ints_cmonoid w))
       (checked_ints_try_div cfg w) x y) (dvds b a).
  move=> xa yb; apply: default_divisible_ok (xa) (yb) => //.
    exact: is_zero_ok ci_cm_ok.
  exact: ht.
split=> //=.
- by move=> x a y _ [-> _]; exists 0%N.
- by move=> x a y b xa yb; exact: default_associates_ok hd xa yb.
- move=> x a [-> ha]; rewrite /gives Z_arepE /checked_ints_associate_repr.
  case: Z.ltb_spec => a0.
    rewrite (_ : Z.abs a = Z.sub Z0 a); last by lia.
    exact: ci_checked.
  by apply: ensures_ret; split=> //; lia.
- move=> x a [-> ha] a0; rewrite /checked_ints_associate_coef; apply: ensures_assert_bind => //.
  rewrite /gives /acoef /= /zcoef; case: ifP => _; apply: ensures_ret.
    by split=> //; exact: in_iN1.
  by split=> //; exact: in_i1.
- by move=> x [-> _]; exists 0%N.
Qed.

(** CheckedInts meets the contract of a Euclidean domain over Z, where methods
    may panic; for every build profile. *)
Lemma CheckedInts_ok :
  eucl_alg_spec cfg True ci_rep Z_assoc Z_eucl (CheckedInts cfg w).
Proof.
have hI : idom_alg_spec cfg True ci_rep Z_assoc (CheckedInts cfg w).
  by split; [exact: ci_ring_ok|exact: ci_idom_ok].
split=> //; apply: (eucl_default _ hI).
- exact: is_zero_ok (ri_cm_ok (id_ring_ok hI)).
- move=> x a y b [-> ha] [-> hb] b0; rewrite checked_ints_quo_remE //; last exact: Zneq0.
  case: ifP => bad; first exact: ensures_panic.
  by apply: ensures_ret; split; split=> //=; [apply: in_zquo; rewrite ?bad|apply: in_zrem]; try exact: Zneq0.
- by move=> x a y _ [-> _]; exists 0%N.
- by move=> x a y b [-> ha] [-> hb]; rewrite checked_ints_reducedE //; apply: ensures_ret.
Qed.
End CheckedInts.

(** ** Naturals *)
Definition nn_rep (x v : N) : Prop := x = v.

Lemma npow_N (u : N) n : npow N.add N0 u n = N.mul (N.of_nat n) u.
Proof. by elim: n => // n IH; rewrite /npow iterS -/(npow _ _ _ _) IH; lia. Qed.

Lemma N_inverse (a : N) :
  (exists v, inverse_of N.mul N.one a v) <-> a = N.one.
Proof.
split=> [[v [av _]]|->]; last by exists N.one.
by have [h _] := N.eq_mul_1 a v; case: (h av).
Qed.

Lemma NN_ok p : semiring_alg_spec p nn_rep N.mul N.one N.add N0 NN.
Proof.
split; first split.
- split=> //.
  + by move=> x u v -> ->.
  + by move=> x v _; apply: ensures_ret.
  + by move=> x u y v -> ->; apply: ensures_ret.
- by apply: semigroup_default => x u y v -> ->; apply: ensures_ret.
- split=> /=.
  + exact: ensures_ret.
  + by move=> x u ->; apply: ensures_ret.
  + move=> x u ->; case: N.eqb_spec => h; apply: ensures_ret.
      by exists N.one => //; rewrite h.
    by move=> v uv; apply: h; apply/N_inverse; exists v.
  + move=> x u ->; apply: ensures_ret; rewrite N_inverse.
    by case: N.eqb_spec.
- split=> /=.
  + exact: ensures_ret.
  + by move=> x u ->; apply: ensures_ret.
  + by move=> x u y v -> ->; apply: ensures_ret.
  + by move=> x u y v -> ->; apply: ensures_ret.
  + by move=> x u ->; apply: ensures_ret; rewrite /nn_rep /N.two; lia.
  + by move=> n x u n0 ->; apply: ensures_ret; rewrite /nn_rep npow_N; lia.
Qed.

(** ** CheckedUints *)
Section CheckedUints.
Variable w : Z.
Hypothesis w1 : Z.le 1 w.

(** An unsigned value denotes a natural number. *)
Definition cu_rep (x : Z) (v : N) : Prop := x = Z.of_N v /\ in_u w x.

Lemma in_uP z : in_u w z <-> Z.le Z0 z /\ Z.le z (umax w).
Proof. by rewrite /in_u; case: Z.leb_spec; case: Z.leb_spec => /=; lia. Qed.

Lemma umax1 : Z.le 1 (umax w).
Proof.
rewrite /umax; have := Z.pow_le_mono_r 2 1 w.
by rewrite Z.pow_1_r; lia.
Qed.

Lemma cu_checked (v : N) : gives True cu_rep (unwrap (checked_u w (Z.of_N v))) v.
Proof.
rewrite /checked_u /unwrap; case: ifP => h; last exact: ensures_panic.
exact: ensures_ret.
Qed.

Lemma CheckedUints_ok :
  semiring_alg_spec True cu_rep N.mul N.one N.add N0 (CheckedUints w).
Proof.
have u1 := umax1.
have h0 : cu_rep Z0 N0 by split=> //; apply/in_uP; lia.
rewrite /N.one; have h1 : cu_rep (Zpos xH) (Npos xH) by split=> //; apply/in_uP; lia.
split; first split.
- split=> //.
  + by move=> x u v [-> _] [h _]; lia.
  + by move=> x v _; apply: ensures_ret.
  + move=> x u y v [-> _] [-> _]; apply: ensures_ret.
    by apply/Z.eqb_spec/eqP => [|->] //; lia.
- apply: semigroup_default => x u y v [-> _] [-> _].
  by rewrite /checked_uints_mul -N2Z.inj_mul; apply: cu_checked.
- split=> /=.
  + exact: ensures_ret.
  + move=> x u [-> _]; apply: ensures_ret.
    by apply/Z.eqb_spec/eqP => [|->] //; lia.
  + move=> x u [-> _]; case: Z.eqb_spec => h; apply: ensures_ret.
      by exists (Npos xH) => //; rewrite (_ : u = Npos xH) //; lia.
    by move=> v uv; apply: h; rewrite (_ : u = Npos xH) //; apply/N_inverse; exists v.
  + move=> x u [-> _]; apply: ensures_ret; rewrite N_inverse /N.one.
    by case: Z.eqb_spec => h; split=> //; [lia|move=> hu; rewrite hu in h].
- apply: cmonoid_default => //.
  + by move=> *; lia.
  + by move=> ?; lia.
  + exact: ensures_ret.
  + move=> x u [-> _]; apply: ensures_ret.
    by apply/Z.eqb_spec/eqP => [|->] //; lia.
  + move=> x u y v [-> _] [-> _].
    by rewrite /checked_uints_add -N2Z.inj_add; apply: cu_checked.
Qed.
End CheckedUints.
