(** * PPrattEx.v -- 3 has order 6 modulo 7. *)

From mathcomp Require Import all_ssreflect ssrZ zify.
From Coq Require Import ZArith Lia Znumtheory.
From Verif Require Import Rust Traits MInts MConstr Wp Spec ModSpec PModProps PFinite PRsa Refuted.

Set Implicit Arguments.
Unset Strict Implicit.
Unset Printing Implicit Defensive.

Lemma seven_prime : prime 7.
Proof. exact: (@prime_Z 7). Qed.
Lemma seven_certified : residue_ring debug64 False 7 (QuotientRing debug64 ZZ 7%Z) /\
  residue_z 7 3 /\
  returns (gpower (MultiplicativeGroup debug64 (QuotientRing debug64 ZZ 7%Z)) (7 - 1) 3%Z) 1%Z /\
  (forall q, prime q -> Z.divide q (7 - 1) ->
     ~ returns (gpower (MultiplicativeGroup debug64 (QuotientRing debug64 ZZ 7%Z)) ((7 - 1) / q) 3%Z) 1%Z).
Proof.
split; first by have := @zz_quotient debug64 7%Z; apply; lia.
split; first by rewrite /residue_z; lia.
split; first by run 100%nat.
move=> q pq [c cE]; have q2 := prime_ge_2 _ pq.
have c0 : (0 < c)%Z by nia.
have q6 : (q <= 6)%Z by nia.
have : (q = 2 \/ q = 3 \/ q = 4 \/ q = 5 \/ q = 6)%Z by lia.
case=> [E|[E|[E|[E|E]]]]; rewrite E in cE *; try lia.
- have h : returns (gpower (MultiplicativeGroup debug64 (QuotientRing debug64 ZZ 7%Z)) 3 3%Z) 6%Z by run 100%nat.
  by move=> /(returns_det h).
- have h : returns (gpower (MultiplicativeGroup debug64 (QuotientRing debug64 ZZ 7%Z)) 2 3%Z) 2%Z by run 100%nat.
  by move=> /(returns_det h).
- have h : Z.divide 2 6 by exists 3%Z.
  by have := prime_divisors _ pq 2%Z; rewrite E => /(_ h); lia.
Qed.
