(** * PModProps.v -- quotients of the integers in terms of [Z.modulo]. *)

From mathcomp Require Import all_ssreflect all_algebra zify ssrZ.
From Coq Require Import ZArith Lia Znumtheory.
From Verif Require Import Rust Traits MInts MConstr RingTac Wp Spec PropSpec ModSpec ZFacts.
From Verif Require Import PDefaults PEucl PInts PIntsZ PChecked Quotient PQuot PModular PQuotProps.
From Verif Require Import NumSpec PNum.

Set Implicit Arguments.
Unset Strict Implicit.
Unset Printing Implicit Defensive.

Import GRing.Theory.
Local Open Scope ring_scope.

Lemma Z_congr (m a b : Z) : m <> Z0 ->
  congruent (m : [idomainType of Z]) a b <-> Z.modulo a (Z.abs m) = Z.modulo b (Z.abs m).
Proof.
move=> m0; split=> [[c h]|h].
  have -> : b = (a + c * m)%Z by move: h; rewrite /GRing.add /GRing.opp /GRing.mul /=; lia.
  by rewrite -/(zrem a m) -/(zrem _ m) zrem_canon.
have h1 := zdiv a m m0; have h2 := zdiv b m m0; rewrite /zrem h in h1; rewrite /zrem in h2.
exists (zquo b m - zquo a m)%Z; rewrite /GRing.add /GRing.opp /GRing.mul /=; lia.
Qed.

Lemma Z_pow (x : Z) k : (x : [idomainType of Z]) ^+ k = Z.pow x (Z.of_nat k).
Proof.
elim: k => [|k ih]; first by [].
rewrite exprS ih Nat2Z.inj_succ Z.pow_succ_r //; lia.
Qed.

Section Res.
Variables (cfg : Cfg) (p : Prop) (rep : Z -> Z -> Prop) (m : modulus [idomainType of Z]).
Local Notation mz := (mval m : Z).
Local Notation k := (Z.abs mz).
Hypothesis rep_id : forall x a, rep x a -> x = a.
Hypothesis rep_res : forall x, residue_z k x -> rep x x.
Local Notation qrep := (@q_rep Z [idomainType of Z] Z_eucl m rep).
Local Notation res := (residue_of Z_eucl (m : [idomainType of Z]) rep).
Local Notation mgives := (mod_gives p Z_eucl (m : [idomainType of Z]) rep).

Let m0 : mz <> Z0. Proof. have := @Z_modulus_ge2 m; lia. Qed.
Let k2 : Z.le 2 k. Proof. exact: Z_modulus_ge2. Qed.

Lemma res_residue x a : res x a -> x = a /\ residue_z k x.
Proof. by move=> [/rep_id -> h]; split=> //; apply: (proj1 (zrem_self _ _ m0)). Qed.
Lemma residue_res x : residue_z k x -> res x x.
Proof. by move=> h; split; [exact: rep_res|apply: (proj2 (zrem_self _ _ m0))]. Qed.
Lemma residue_mod x : residue_z k x -> Z.modulo x k = x.
Proof. exact: Z.mod_small. Qed.

Lemma mgives_exactly c v : mgives c v -> exactly p c (Z.modulo v k).
Proof.
move=> h; apply: ensures_mono h _ => z [a /res_residue[-> ra] /(Z_congr _ _ m0) <-].
by rewrite residue_mod.
Qed.

Lemma residue_ring_ok (A : RingAlg Z) : ring_alg_spec cfg p qrep *%R 1 A ->
  residue_ring cfg p k A.
Proof.
move=> hA; have [[h0 h1 hint] hop] := quot_ring_mod hA.
have r0 : residue_z k Z0 by split; lia.
have r1 : residue_z k 1%Z by split; lia.
have m01 c : mgives c 0 -> exactly p c Z0.
  by move/mgives_exactly; rewrite residue_mod.
have m11 c : mgives c 1 -> exactly p c 1%Z.
  by move/mgives_exactly; rewrite residue_mod.
have eqb (x y : Z) (b : bool) : residue_z k x -> residue_z k y ->
    (b <-> congruent (m : [idomainType of Z]) x y) -> b = (x =? y)%Z.
  move=> rx ry hb; apply/idP/idP => [/hb/(Z_congr _ _ m0)|/Z.eqb_eq xy].
    by rewrite !residue_mod // => ->; exact: Z.eqb_refl.
  by apply/hb/(Z_congr _ _ m0); rewrite xy.
split; try exact: m01; try exact: m11.
- by move=> x /residue_res xa; have [_ [_ [_ [_ [_ []]]]]] := hop _ _ _ _ xa xa.
- move=> x y rx ry; have [_ [_ [_ [_ [_ []]]]]] := hop _ _ _ _ (residue_res rx) (residue_res ry).
  by move=> _ h _ _; apply: ensures_mono h _ => b; exact: eqb.
- move=> x rx; have [_ [_ [_ [_ [_ []]]]]] := hop _ _ _ _ (residue_res rx) (residue_res rx).
  by move=> _ _ h _; apply: ensures_mono h _ => b; exact: eqb.
- move=> x rx; have [_ [_ [_ [_ [_ []]]]]] := hop _ _ _ _ (residue_res rx) (residue_res rx).
  by move=> _ _ _ h; apply: ensures_mono h _ => b; exact: eqb.
- by move=> x y rx ry; have [[/mgives_exactly]] := hop _ _ _ _ (residue_res rx) (residue_res ry).
- by move=> x y rx ry; have [_ [[/mgives_exactly]]] := hop _ _ _ _ (residue_res rx) (residue_res ry).
- move=> x rx; have [_ [_ [[_ _ /mgives_exactly h _] _]]] := hop _ _ _ _ (residue_res rx) (residue_res rx).
  by rewrite (_ : 2 * x = x + x)%Z //; lia.
- by move=> x rx; have [_ [_ [[/mgives_exactly]]]] := hop _ _ _ _ (residue_res rx) (residue_res rx).
- by move=> x rx; have [_ [_ [[_ /mgives_exactly]]]] := hop _ _ _ _ (residue_res rx) (residue_res rx).
- by move=> x y rx ry; have [[_ /mgives_exactly]] := hop _ _ _ _ (residue_res rx) (residue_res ry).
- by move=> x y rx ry; have [_ [[_ /mgives_exactly]]] := hop _ _ _ _ (residue_res rx) (residue_res ry).
- by move=> x y rx ry; have [[_ _ /mgives_exactly]] := hop _ _ _ _ (residue_res rx) (residue_res ry).
- by move=> x y rx ry; have [_ [[_ _ /mgives_exactly]]] := hop _ _ _ _ (residue_res rx) (residue_res ry).
- by move=> x rx; have [_ [_ [[_ _ _ /mgives_exactly]]]] := hop _ _ _ _ (residue_res rx) (residue_res rx).
- move=> n x n0 rx; have [_ [_ [_ [h _]]]] := hop _ _ _ _ (residue_res rx) (residue_res rx).
  have := mgives_exactly (h n n0); rewrite (_ : _ *+ _ = (n * x)%Z) //.
  by rewrite -[RHS]zmulE; case: n n0 {h} => [|q|q] //; lia.
- move=> n x gn rx; have [_ [_ [_ [_ [h _]]]]] := hop _ _ _ _ (residue_res rx) (residue_res rx).
  by have := mgives_exactly (h n gn); rewrite zmulE.
- by move=> n gn; have := mgives_exactly (hint n gn); rewrite zmulE mulr1.
- move=> x rx; have [h _] := quot_try_inv hA (residue_res rx).
  apply: ensures_mono h _ => -[y [b /res_residue[<- ry] /(Z_congr _ _ m0)]|h].
    by rewrite (residue_mod r1).
  move=> y h1'; apply: (h y); apply/(Z_congr _ _ m0).
  by rewrite (residue_mod r1).
- move=> x rx; have [_ h] := quot_try_inv hA (residue_res rx).
  apply: ensures_mono h _ => b hb; split=> [/hb[y /(Z_congr _ _ m0)]|h]; last apply/hb.
    rewrite (residue_mod r1) => hy; apply/Zgcd_1_rel_prime; apply: bezout_rel_prime.
    have := Z.div_mod (Z.mul x y) k; rewrite hy => hd.
    by exists y (- (x * y / k))%Z; lia.
  have := Zis_gcd_bezout x k 1; rewrite -h => /(_ (Zgcd_is_gcd x k)) [u v uv].
  exists u; apply/(Z_congr _ _ m0); rewrite (residue_mod r1).
  have -> : (x : [idomainType of Z]) * u = (1 + - v * k)%Z.
    by rewrite -[LHS]/(Z.mul x u); clear -uv h; rewrite h in uv; lia.
  by rewrite Z_mod_plus_full residue_mod.
Qed.
End Res.

(** ** QuotientRing of the integers *)
Section Rings.
Variable cfg : Cfg.

Definition z_modulus (m : Z) (m2 : Z.le 2 (Z.abs m)) : modulus [idomainType of Z].
Proof.
refine (@Modulus [idomainType of Z] m _ _).
  by apply/eqP => h; move: m2; rewrite h.
by rewrite qualifE; apply/norP; split; apply/eqP => h; move: m2; rewrite h.
Defined.

Lemma zz_quotient m : Z.le 2 (Z.abs m) ->
  residue_ring cfg False (Z.abs m) (QuotientRing cfg ZZ m).
Proof.
move=> m2; apply: (@residue_ring_ok cfg False zz_rep (z_modulus m2)) => //.
exact: (@QuotientRing_ok cfg False Z _ zz_rep _ _ ZZ (ZZ_ok cfg False) (z_modulus m2) m erefl).
Qed.

Lemma fits_residue w m x : Z.le 2 w -> fits w m -> residue_z (Z.abs m) x -> in_i w x.
Proof.
move=> w2 [h1 h2] [h3 h4]; apply/(in_iP w); rewrite /imin /imax.
by have : Z.lt 0 (Z.pow 2 (w - 1)); [apply: Z.pow_pos_nonneg; lia|lia].
Qed.

Lemma ints_quotient w m : Z.le 2 w -> fits w m -> Z.le 2 (Z.abs m) ->
  residue_ring cfg True (Z.abs m) (QuotientRing cfg (CheckedInts cfg w) m).
Proof.
move=> w2 hm m2; apply: (@residue_ring_ok cfg True (ci_rep w) (z_modulus m2)).
- by move=> x a [].
- by move=> x rx; split=> //; exact: fits_residue w2 hm rx.
apply: (QuotientRing_ok (CheckedInts_ok cfg w2)); split=> //; exact/fitsP.
Qed.

Lemma ints_quotient_small w m : Z.le 4 w -> fits w m -> Z.le 2 (Z.abs m) ->
  Z.lt ((Z.abs m - 1) * (Z.abs m - 1))%Z (2 ^ (w - 1)) ->
  residue_ring cfg False (Z.abs m) (QuotientRing cfg (CheckedInts cfg w) m).
Proof.
move=> w4 hm m2 hs; have w2 : Z.le 2 w by lia.
apply: (@residue_ring_ok cfg False (ci_rep w) (z_modulus m2)).
- by move=> x a [].
- by move=> x rx; split=> //; exact: fits_residue w2 hm rx.
apply: (@QuotientRing_small cfg w w4 (z_modulus m2)) => /=; first exact/fitsP.
by rewrite /imax; lia.
Qed.
End Rings.

(** ** QuotientField modulo a prime *)
Section ResField.
Variables (cfg : Cfg) (p : Prop) (rep : Z -> Z -> Prop) (q : Z) (hq : prime q).
Local Notation m := (prime_field hq).
Hypothesis rep_id : forall x a, rep x a -> x = a.
Hypothesis rep_res : forall x, residue_z q x -> rep x x.
Local Notation frep := (@qf_rep Z [idomainType of Z] rep Z_eucl m).

Lemma residue_field_ok (A : FieldAlg Z) : field_alg_spec cfg p frep A ->
  residue_field cfg p q A.
Proof.
move=> hA; have q2 := prime_ge_2 _ hq.
have qE : Z.abs q = q by lia.
have rep_res' : forall x, residue_z (Z.abs (mval m)) x -> rep x x by rewrite /= qE.
have q0 : q <> Z0 by lia.
have R1 := qfield_ring hA.
have res1 := @residue_res rep m rep_res'.
have res2 := @res_residue rep m rep_id.
rewrite /= qE in res1 res2.
have c1 : forall a, congruent (q : [idomainType of Z]) a 1 -> Z.modulo a q = 1%Z.
  by move=> a /(Z_congr _ _ q0); rewrite qE (Z.mod_small 1) //; lia.
have nd x : residue_z q x -> x <> Z0 -> ~ dvds (q : [idomainType of Z]) x.
  move=> [h1 h2] x0 [c h]; have {}h : x = Z.mul c q by exact: h.
  have hc : c = Z0 \/ Z.le 1 c \/ Z.le c (-1) by lia.
  by clear -h1 h2 x0 h hc; nia.
have d0 : dvds (q : [idomainType of Z]) Z0 by exists 0; rewrite mul0r.
have r0 : residue_z q Z0 by split; lia.
split.
- by have := residue_ring_ok rep_id rep_res' R1; rewrite /= qE.
- move=> x rx x0; have [h _] := quot_field_mod hA (res1 _ rx) (res1 _ rx).
  by apply: ensures_mono (h (nd _ rx x0)) _ => y [c /res2[<- ry] /c1].
- by have [_ [h _]] := quot_field_mod hA (res1 _ r0) (res1 _ r0); exact: h.
- move=> x y rx ry y0; have [_ [_ [h _]]] := quot_field_mod hA (res1 _ rx) (res1 _ ry).
  apply: ensures_mono (h (nd _ ry y0)) _ => z [c /res2[<- rz] /(Z_congr _ _ q0)].
  by rewrite qE (Z.mod_small x).
- by move=> x rx; have [_ [_ [_ [h _]]]] := quot_field_mod hA (res1 _ rx) (res1 _ r0); exact: h.
- move=> n x n0 gn rx x0; have [_ [_ [_ [_ h]]]] := quot_field_mod hA (res1 _ rx) (res1 _ rx).
  apply: ensures_mono (h (nd _ rx x0) n gn) _ => z [c /res2[<- rz]].
  case: n n0 {gn h} => [|k|k] // _.
    by move=> /(Z_congr _ _ q0); rewrite qE (Z.mod_small z) //.
  move=> /(Z_congr _ _ q0); rewrite qE (Z.mod_small z) // => ->.
  by rewrite Z_pow positive_nat_Z.
- move=> n x n0 gn rx x0; have [_ [_ [_ [_ h]]]] := quot_field_mod hA (res1 _ rx) (res1 _ rx).
  apply: ensures_mono (h (nd _ rx x0) n gn) _ => z [c /res2[<- rz]].
  case: n n0 {gn h} => [|k|k] // _ /c1.
  by rewrite Z_pow positive_nat_Z.
Qed.
End ResField.

Section Fields.
Variable cfg : Cfg.

Lemma zz_prime_field q : prime q -> residue_field cfg False q (QuotientField cfg ZZ q).
Proof.
move=> hq; apply: (@residue_field_ok cfg False zz_rep q hq) => //.
exact: (@QuotientField_ok cfg False Z _ zz_rep _ _ ZZ (ZZ_ok cfg False) (prime_field hq) q erefl).
Qed.

Lemma ints_prime_field w q : Z.le 2 w -> prime q -> fits w q ->
  residue_field cfg True q (QuotientField cfg (CheckedInts cfg w) q).
Proof.
move=> w2 hq fq; have q2 := prime_ge_2 _ hq.
apply: (@residue_field_ok cfg True (ci_rep w) q hq).
- by move=> x a [].
- by move=> x rx; split=> //; apply: (fits_residue w2 fq); rewrite Z.abs_eq //; lia.
apply: (@QuotientField_ok cfg True Z _ (ci_rep w) _ _ _ (CheckedInts_ok cfg w2) (prime_field hq) q).
by split=> //; exact/fitsP.
Qed.

Lemma ints_prime_field_small w q : Z.le 4 w -> prime q ->
  Z.lt ((q - 1) * (q - 1))%Z (2 ^ (w - 1)) ->
  residue_field cfg False q (QuotientField cfg (CheckedInts cfg w) q).
Proof.
move=> w4 hq hs; have w2 : Z.le 2 w by lia.
have q2 := prime_ge_2 _ hq; have qE : Z.abs q = q by lia.
have p8 : Z.le 8 (2 ^ (w - 1)) by apply: (Z.pow_le_mono_r 2 3); lia.
have fq : fits w q by split; clear -hs p8 q2; nia.
apply: (@residue_field_ok cfg False (ci_rep w) q hq).
- by move=> x a [].
- by move=> x rx; split=> //; apply: (fits_residue w2 fq); rewrite qE.
apply: (@QuotientField_small cfg w w4 (prime_field hq)) => /=; first exact/fitsP.
by rewrite qE /imax; lia.
Qed.

(** The bound is sharp. *)
Lemma ints_quotient_sharp w m : Z.le 2 w -> fits w m -> Z.le 2 (Z.abs m) ->
  Z.le (2 ^ (w - 1)) ((Z.abs m - 1) * (Z.abs m - 1))%Z ->
  panics (mul (QuotientRing cfg (CheckedInts cfg w) m) (Z.abs m - 1)%Z (Z.abs m - 1)%Z) /\
  panics (mul (QuotientField cfg (CheckedInts cfg w) m) (Z.abs m - 1)%Z (Z.abs m - 1)%Z).
Proof.
move=> w2 fm m2 hs; set x := (Z.abs m - 1)%Z.
have h : panics (mul (CheckedInts cfg w) x x).
  have := ci_mul_exact cfg w x x; rewrite /exact_if (_ : in_i w (x * x) = false) //.
  by apply/negP => /(in_iP w); rewrite /imax /x; lia.
by split; exact: panics_bind.
Qed.
End Fields.

Lemma gf2_field cfg : residue_field cfg False 2 (GF2 cfg).
Proof. by apply: ints_prime_field_small => //; exact: prime_2. Qed.
Lemma gf3_field cfg : residue_field cfg False 3 (GF3 cfg).
Proof. by apply: ints_prime_field_small => //; exact: prime_3. Qed.
