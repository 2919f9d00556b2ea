(** * PChinZ.v -- the Chinese remainder theorem for integers. *)

From mathcomp Require Import all_ssreflect all_algebra zify ssrZ.
From Coq Require Import ZArith Lia.
From Verif Require Import Rust Traits MInts MConstr Wp Spec PropSpec Quotient ZFacts PIntsZ PInts PNum.
From Verif Require Import PModProps ChinLaw PChin.

Set Implicit Arguments.
Unset Strict Implicit.
Unset Printing Implicit Defensive.

Import GRing.Theory.
Local Open Scope ring_scope.

Lemma zz_crt_unique (m n z z' x y : Z) : Z.le 2 m -> Z.le 2 n -> Z.gcd m n = Zpos xH ->
  Z.modulo z m = x -> Z.modulo z n = y -> Z.modulo z' m = x -> Z.modulo z' n = y ->
  Z.le 0 z /\ Z.lt z (Z.mul m n) -> Z.le 0 z' -> Z.lt z' (Z.mul m n) -> z' = z.
Proof.
move=> m2 n2 g zm zn hm hn hz0 h0 h1; have n0' : n <> Z0 by lia.
have m0' : m <> Z0 by lia.
have [q hq] : exists q, (z' - z)%Z = (m * q)%Z.
  exists (z' / m - z / m)%Z; have := Z.div_mod z' m m0'; have := Z.div_mod z m m0'.
  by rewrite zm hm; move: (z' / m)%Z (z / m)%Z => a b ha hb; rewrite [z' in LHS]hb [z in LHS]ha; ring.
have [r hr] : Z.divide n q.
  apply: (Z.gauss n m q); last by rewrite Z.gcd_comm.
  exists (z' / n - z / n)%Z; have := Z.div_mod z' n n0'; have := Z.div_mod z n n0'.
  by rewrite zn hn -hq; move: (z' / n)%Z (z / n)%Z => a b ha hb; rewrite [z' in LHS]hb [z in LHS]ha; ring.
have d : (z' - z)%Z = (r * (m * n))%Z by rewrite hq hr; lia.
case: hz0 => a1 a2.
have [r0|[r0|r0]] : r = Z0 \/ Z.le 1 r \/ Z.le r (-1)%Z by lia.
- by move: d; rewrite r0; lia.
- by have := Z.mul_le_mono_nonneg_r 1 r (m * n)%Z ltac:(lia) r0; lia.
- by have := Z.mul_le_mono_nonneg_r r (-1) (m * n)%Z ltac:(lia) r0; lia.
Qed.
Lemma zz_chinese cfg (m n x y : Z) : Z.le 2 m -> Z.le 2 n -> Z.gcd m n = Zpos xH ->
  Z.le 0 x -> Z.lt x m -> Z.le 0 y -> Z.lt y n -> exists z,
  [/\ returns (chinese cfg ZZ m n x y) z, Z.le 0 z /\ Z.lt z (Z.mul m n), Z.modulo z m = x,
      Z.modulo z n = y &
      forall z', Z.le 0 z' -> Z.lt z' (Z.mul m n) -> Z.modulo z' m = x -> Z.modulo z' n = y ->
        z' = z].
Proof.
move=> m2 n2 g x0 xm y0 yn.
have hA := ZZ_ok cfg False.
have hco : returns (relative_primes ZZ m n) true.
  by have := zz_relative_primes cfg m n; rewrite g.
have n0' : n <> Z0 by lia.
have n0 : (n : [idomainType of Z]) != 0 by apply/eqP.
have nu : (n : [idomainType of Z]) \isn't a GRing.unit.
  exact: (m_nonunit (z_modulus (m := n) ltac:(lia))).
have := chinese_ok hA (erefl m) (erefl n) n0 nu hco (erefl x) (erefl y).
case/ensures_False => z [hz [k [c [<- zE kr [e he]]]]].
have {}zE : z = (x + k * m)%Z by [].
have {}he : (z - y)%Z = (e * n)%Z by [].
have [k0 kn] : Z.le 0 k /\ Z.lt k (Z.abs n) by apply: (proj1 (zrem_self k n n0')).
have zm : Z.modulo z m = x.
  by rewrite zE Z.mod_add ?Z.mod_small //; lia.
have zn : Z.modulo z n = y.
  by rewrite (_ : z = (y + e * n)%Z) ?Z.mod_add ?Z.mod_small //; lia.
have hz0 : Z.le 0 z /\ Z.lt z (Z.mul m n).
  by rewrite zE; split; nia.
exists z; split=> // z' h0 h1 hm hn.
exact: (@zz_crt_unique m n z z' x y).
Qed.
