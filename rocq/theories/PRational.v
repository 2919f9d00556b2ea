(** * PRational.v -- ReducedFractions over the integers in terms of [Q]. *)

From mathcomp Require Import all_ssreflect all_algebra zify ssrZ.
From Coq Require Import ZArith QArith Qpower Qcanon Lia Znumtheory.
From Verif Require Import Rust Traits MInts MConstr RingTac Wp Spec PropSpec ModSpec FracSpec.
From Verif Require Import PInts PIntsZ PFracProps NumSpec PNum PModProps.

Set Implicit Arguments.
Unset Strict Implicit.
Unset Printing Implicit Defensive.

Import GRing.Theory.
Local Open Scope ring_scope.
Local Notation ZR := [idomainType of Z].

Lemma Z_coprime (a b : ZR) : coprime_to a b <-> Z.gcd a b = 1%Z.
Proof.
split=> [[s [t st]]|h].
  by apply/Zgcd_1_rel_prime; apply: bezout_rel_prime; exists s t.
have /Zgcd_1_rel_prime/rel_prime_bezout[u v uv] := h.
by exists u, v.
Qed.

Lemma Z_arep (b : ZR) : b <> 0 -> arep Z_assoc b = b <-> Z.lt 0 b.
Proof.
move=> /eqP b0; rewrite /arep (negbTE b0) /=; move/eqP: b0 => b0.
have b0' : b <> Z0 by [].
by rewrite /zcoef /=; case: Z.ltb_spec => h; split=> h'; lia.
Qed.

Lemma ensures_iff p (c : M bool) (P Q : Prop) : ensures p c (fun b => b <-> P) -> (P <-> Q) ->
  ensures p c (fun b => b = true <-> Q).
Proof. by move=> h pq; apply: ensures_mono h _ => b hb; rewrite -pq. Qed.

Section Rational.
Variables (cfg : Cfg) (p : Prop) (rep : Z -> Z -> Prop) (A : FieldAlg (Z * Z)).
Hypothesis rep_id : forall x a, rep x a -> x = a.
Variable rmem : Z * Z -> Prop.
Hypothesis rmemP : forall z, rmem z <-> [/\ rep z.1 z.1, rep z.2 z.2 & canonical_pair z].
Local Notation fof := (@fraction_of Z ZR Z_assoc rep).
Local Notation fgives := (@frac_gives p Z ZR Z_assoc rep).

Lemma fof_mem x a b : fof x a b -> [/\ x.1 = a, x.2 = b & rmem x].
Proof.
move=> [h1 h2 b0 hb ab]; have e1 := rep_id h1; have e2 := rep_id h2.
split=> //; apply/rmemP; split; rewrite ?e1 ?e2; [by rewrite -{1}e1|by rewrite -{1}e2|].
split; rewrite ?e1 ?e2; [exact/(Z_arep b0)|exact/Z_coprime].
Qed.
Lemma mem_fof x : rmem x -> fof x x.1 x.2.
Proof.
move=> /rmemP[h1 h2 [h3 h4]]; have b0 : x.2 <> 0 :> ZR by move=> h; rewrite h in h3.
by split=> //; [apply/(Z_arep b0)|apply/Z_coprime].
Qed.

Lemma q_ofE (a b n d : Z) (q : Q) : Z.lt 0 b -> Z.lt 0 d -> Qnum q = n -> Z.pos (Qden q) = d ->
  (a * d = n * b :> ZR) <-> Qeq (q_of (a, b)) q.
Proof. by move=> hb hd <- <-; rewrite /Qeq /= Z2Pos.id. Qed.

Lemma q_gives c (n d : ZR) q : Z.lt 0 d -> Qnum q = n -> Z.pos (Qden q) = d -> fgives c n d ->
  gives_q p rmem c q.
Proof.
move=> hd hn hq h; apply: ensures_mono h _ => z [a [b [zab ab]]].
have [za zb mz] := fof_mem zab; split=> //; case/rmemP: (mz) => _ _ [b0 _].
move: za zb ab b0; case: z {zab mz} => z1 z2 /= -> -> ab b0.
by apply: (proj1 (@q_ofE a b n d q b0 hd hn hq) ab).
Qed.

Lemma gives_qE c q q' : Qeq q q' -> gives_q p rmem c q -> gives_q p rmem c q'.
Proof. by move=> e h; apply: ensures_mono h _ => z [mz ->]. Qed.

Lemma Zden (z : Z * Z) : rmem z -> Z.pos (Qden (q_of z)) = z.2 /\ Z.lt 0 z.2.
Proof. by move=> /rmemP[_ _ [h _]]; rewrite /= Z2Pos.id. Qed.

Lemma q_gives' c (n d : ZR) q : d <> Z0 -> (Qnum q * d = n * Z.pos (Qden q))%Z ->
  fgives c n d -> gives_q p rmem c q.
Proof.
move=> hd hq h; apply: ensures_mono h _ => z [a [b [zab ab]]].
have [za zb mz] := fof_mem zab; split=> //; have [dz lz] := conj (proj1 (Zden mz)) (proj2 (Zden mz)).
rewrite /Qeq dz /= za zb; have {}ab : (a * d = n * b)%Z by exact: ab.
apply: (Z.mul_reg_r _ _ d hd).
transitivity (a * d * Z.pos (Qden q))%Z; first lia.
by rewrite ab; transitivity (n * Z.pos (Qden q) * b)%Z; [lia|rewrite -hq; lia].
Qed.

Lemma Qpow_pos (z : Z * Z) k :
  Qnum (Qpower_positive (q_of z) k) = (z.1 ^ Z.pos k)%Z /\
  Z.pos (Qden (Qpower_positive (q_of z) k)) = (Z.pos (Qden (q_of z)) ^ Z.pos k)%Z.
Proof. by rewrite /q_of Qpower_decomp_positive /= Pos2Z.inj_pow. Qed.

Lemma q0 (z : Z * Z) : rmem z -> Qeq (q_of z) 0 <-> z.1 = 0 :> ZR.
Proof. by move=> _; rewrite /Qeq /=; split=> h; [move: h; rewrite Z.mul_1_r|rewrite Z.mul_1_r]. Qed.


Lemma rational_field_ok : @fractions_correct p Z ZR Z_assoc rep cfg A ->
  rational_field cfg p rmem A.
Proof.
move=> [[h0 h1 hint] hop].
have op1 x := fun (hx : rmem x) => hop _ _ _ _ _ _ (mem_fof hx) (mem_fof hx).
have op2 x y := fun (hx : rmem x) (hy : rmem y) => hop _ _ _ _ _ _ (mem_fof hx) (mem_fof hy).
have l1 : (1 : ZR) <> Z0 by [].
have den2 x y : rmem x -> rmem y -> Z.lt 0 (x.2 * y.2 : ZR).
  by move=> /Zden[_ lx] /Zden[_ ly]; exact: Z.mul_pos_pos.
have dm x y : Z.pos (Qden (q_of x * q_of y)) = Z.mul (Z.pos (Qden (q_of x))) (Z.pos (Qden (q_of y))) by [].
have Edb x y : rmem x -> rmem y -> Z.pos (Qden (q_of x * q_of y)) = x.2 * y.2 :> ZR.
  by move=> hx hy; rewrite dm (Zden hx).1 (Zden hy).1.
have addE x y c : rmem x -> rmem y -> fgives c (x.1 * y.2 + y.1 * x.2) (x.2 * y.2) ->
    gives_q p rmem c (q_of x + q_of y).
  move=> hx hy; apply: q_gives; [exact: den2| |exact: (Edb x y)].
  by rewrite /= (Zden hx).1 (Zden hy).1.
have subE x y c : rmem x -> rmem y -> fgives c (x.1 * y.2 - y.1 * x.2) (x.2 * y.2) ->
    gives_q p rmem c (q_of x - q_of y).
  move=> hx hy; apply: q_gives; [exact: den2| |exact: (Edb x y)].
  by rewrite /= (Zden hx).1 (Zden hy).1 Z.mul_opp_l.
have mulE x y c : rmem x -> rmem y -> fgives c (x.1 * y.1) (x.2 * y.2) ->
    gives_q p rmem c (q_of x * q_of y).
  by move=> hx hy; apply: q_gives; [exact: den2| |exact: (Edb x y)].
have negE x c : rmem x -> fgives c (- x.1) x.2 -> gives_q p rmem c (- q_of x).
  by move=> hx; apply: q_gives; [exact: (Zden hx).2| |exact: (Zden hx).1].
have timesE x n c : rmem x -> fgives c (n * x.1 : ZR) x.2 ->
    gives_q p rmem c (inject_Z n * q_of x).
  by move=> hx; apply: q_gives; [exact: (Zden hx).2| |exact: (Zden hx).1].
have dn0 x : rmem x -> x.2 <> Z0 by move=> /Zden[_ h] e; rewrite e in h.
have invE x : rmem x -> x.1 <> 0 :> ZR -> (Qnum (/ q_of x) * x.1 = x.2 * Z.pos (Qden (/ q_of x)))%Z.
  move=> hx x0; have [dx _] := Zden hx; rewrite -[x.2 in RHS]dx /q_of /Qinv /=.
  by case: (x.1) x0 => [|k|k].
split.
- by move=> x /op1[_ [_ [_ [_ [_ [[]]]]]]].
- move=> x y hx hy; have [_ [_ [_ [_ [_ [[_ h _ _] _]]]]]] := op2 _ _ hx hy.
  by apply: ensures_iff h _; rewrite /Qeq (Zden hx).1 (Zden hy).1.
- by apply: q_gives' l1 _ h0.
- by apply: q_gives' l1 _ h1.
- move=> x hx; have [_ [_ [_ [_ [_ [[_ _ h _] _]]]]]] := op1 _ hx.
  by apply: ensures_iff h _; rewrite q0.
- move=> x hx; have [_ [_ [_ [_ [_ [[_ _ _ h] _]]]]]] := op1 _ hx.
  apply: ensures_iff h _; rewrite /Qeq (Zden hx).1.
  by rewrite [Z.mul (Qnum (q_of x)) _]Z.mul_1_r [Z.mul (Qnum 1) _]Z.mul_1_l.
- by move=> x y hx hy; have [[h _ _] _] := op2 _ _ hx hy; exact: addE.
- by move=> x y hx hy; have [_ [[h _ _] _]] := op2 _ _ hx hy; exact: addE.
- move=> x hx; have [_ [_ [[_ _ h _] _]]] := op1 _ hx.
  apply: (q_gives' (dn0 _ hx) _ h) => /=; rewrite (Zden hx).1 Pos2Z.inj_mul (Zden hx).1.
  by rewrite -[x.1 + x.1]/(Z.add x.1 x.1); lia.
- by move=> x hx; have [_ [_ [[h _ _ _] _]]] := op1 _ hx; exact: negE.
- by move=> x hx; have [_ [_ [[_ h _ _] _]]] := op1 _ hx; exact: negE.
- by move=> x y hx hy; have [[_ h _] _] := op2 _ _ hx hy; exact: subE.
- by move=> x y hx hy; have [_ [[_ h _] _]] := op2 _ _ hx hy; exact: subE.
- by move=> x y hx hy; have [[_ _ h] _] := op2 _ _ hx hy; exact: mulE.
- by move=> x y hx hy; have [_ [[_ _ h] _]] := op2 _ _ hx hy; exact: mulE.
- by move=> x hx; have [_ [_ [[_ _ _ h] _]]] := op1 _ hx; exact: mulE.
- move=> n x n0 hx; have [_ [_ [_ [h _]]]] := op1 _ hx; apply: timesE => //.
  have := h n n0; rewrite (_ : _ *+ _ = n * x.1 :> ZR) //.
  by rewrite -[RHS]zmulE; case: n n0 {h} => [|q|q] //; lia.
- move=> n x gn hx; have [_ [_ [_ [_ [h _]]]]] := op1 _ hx; apply: timesE => //.
  by have := h n gn; rewrite zmulE.
- move=> n gn; apply: q_gives' l1 _ (hint n gn).
  by rewrite zmulE mulr1 /= !Z.mul_1_r.
- move=> x hx; have [_ [_ [_ [_ [_ [_ [_ [_ [_ [_ [_ [h _]]]]]]]]]]]] := op1 _ hx.
  apply: ensures_mono h _ => -[y [x0 [e [f [/fof_mem[e1 e2 hy] ef]]]]|/(q0 hx) //].
  split=> //; rewrite /Qeq dm (Zden hx).1 (Zden hy).1 e2 [Z.mul (Qnum 1) _]Z.mul_1_l.
  by rewrite [Z.mul (Qnum (q_of x * q_of y)) _]Z.mul_1_r /= e1.
- move=> x hx; have [_ [_ [_ [_ [_ [_ [_ [_ [_ [_ [_ [_ h]]]]]]]]]]]] := op1 _ hx.
  by apply: ensures_iff h _; rewrite q0.
- move=> x hx x0; have [_ [_ [_ [_ [_ [_ [h _]]]]]]] := op1 _ hx.
  have x1 : x.1 <> 0 :> ZR by move=> e; apply: x0; apply/(q0 hx).
  exact: (q_gives' x1 (invE _ hx x1) (h x1)).
- move=> x hx /(q0 hx) x0; have [_ [_ [_ [_ [_ [_ [_ [h _]]]]]]]] := op1 _ hx.
  exact: h.
- move=> x y hx hy y0; have [_ [_ [_ [_ [_ [_ [_ [_ [h _]]]]]]]]] := op2 _ _ hx hy.
  have y1 : y.1 <> 0 :> ZR by move=> e; apply: y0; apply/(q0 hy).
  apply: (q_gives' _ _ (h y1)).
    by move=> /Z.mul_eq_0[/(dn0 _ hx)|/y1].
  have := invE _ hy y1; have := (Zden hx).1.
  rewrite -[x.1 * y.2]/(Z.mul x.1 y.2) -[x.2 * y.1]/(Z.mul x.2 y.1) /Qdiv /Qmult.
  move: (/ q_of y)%Q => [n e] /= dx hn; rewrite Pos2Z.inj_mul dx.
  by transitivity (x.1 * x.2 * (n * y.1))%Z; [lia|rewrite hn; lia].
- move=> x y hx hy /(q0 hy) y0; have [_ [_ [_ [_ [_ [_ [_ [_ [_ [h _]]]]]]]]]] := op2 _ _ hx hy.
  exact: h.
- move=> n x gn hx x0; have [_ [_ [_ [_ [_ [_ [_ [_ [_ [_ [h _]]]]]]]]]]] := op1 _ hx.
  have x1 : x.1 <> 0 :> ZR by move=> e; apply: x0; apply/(q0 hx).
  have := h x1 n gn; case: n {gn} => [|k|k] hk.
  + exact: (q_gives' _ _ hk).
  + have [e1 e2] := Qpow_pos x k.
    apply: (q_gives' _ _ hk); first by rewrite Z_pow; apply: Z.pow_nonzero; [exact: (dn0 _ hx)|lia].
    by rewrite !Z_pow positive_nat_Z -[x.2 in LHS](Zden hx).1 [(q_of x ^ _)%Q]/(Qpower_positive (q_of x) k) e1 e2.
  + have [e1 e2] := Qpow_pos x k.
    have p1 : (x.1 ^ Z.pos k <> 0)%Z by apply: Z.pow_nonzero.
    apply: (q_gives' _ _ hk); first by rewrite Z_pow positive_nat_Z.
    rewrite !Z_pow !positive_nat_Z -[(q_of x ^ _)%Q]/(Qinv (Qpower_positive (q_of x) k)).
    rewrite (Zden hx).1 in e2; rewrite -e2 -e1 in p1 *; move: p1.
    move: (Qpower_positive _ _) => [a b]; rewrite /Qinv /=.
    by case: a => [|q|q].
Qed.
End Rational.

(** ** The rational numbers *)
Lemma QQ_rational cfg : rational_field cfg False canonical_pair (QQ cfg).
Proof.
apply: (@rational_field_ok cfg False zz_rep) => //; first by move=> z; split=> [|[]].
exact: (reduced_fractions_correct (ZZ_ok cfg False)).
Qed.

Lemma ints_rational cfg w : Z.le 2 w ->
  rational_field cfg True
    (fun z => fits w z.1 /\ fits w z.2 /\ canonical_pair z)
    (ReducedFractions cfg (CheckedInts cfg w)).
Proof.
move=> w2; apply: (@rational_field_ok cfg True (ci_rep w)).
- by move=> x a [].
- move=> z; split=> [[/fitsP h1 [/fitsP h2 h3]]|[[_ /fitsP h1] [_ /fitsP h2] h3]]; last by split.
  by split=> //; split.
exact: (reduced_fractions_correct (CheckedInts_ok cfg w2)).
Qed.

Lemma canonical_uniq x y : canonical_pair x -> canonical_pair y -> Qeq (q_of x) (q_of y) -> x = y.
Proof.
case: x y => [a b] [c d] [/= b0 ab] [/= d0 cd]; rewrite /Qeq /= !Z2Pos.id // => h.
have h1 : (b | d)%Z.
  by apply: (Z.gauss b a d); [exists c; lia|rewrite Z.gcd_comm].
have h2 : (d | b)%Z.
  by apply: (Z.gauss d c b); [exists a; lia|rewrite Z.gcd_comm].
have bd : b = d by case: (Z.divide_antisym _ _ h1 h2) => e //; lia.
have d1 : d <> Z0 by lia.
by rewrite bd in h *; rewrite (Z.mul_reg_r _ _ _ d1 h).
Qed.
Lemma canonical_all q : exists2 x, canonical_pair x & Qeq (q_of x) q.
Proof.
exists (Qnum (Qred q), Z.pos (Qden (Qred q))).
  by split=> //=; have := Qred_iff (Qred q); rewrite Qred_involutive => -[h _]; exact: h.
by have := Qred_correct q; rewrite /q_of /=; case: (Qred q).
Qed.
