(** * PWilsonEx.v -- the field with five elements. *)

From mathcomp Require Import all_ssreflect all_algebra ssrZ zify.
From Coq Require Import ZArith Lia Znumtheory List.
From Verif Require Import Rust Traits MInts MConstr Wp Spec RingSpec PInts PIntsZ ZFacts Quotient PQuot PModular.
From Verif Require Import TowerSpec PTower FactSpec PWilson Refuted.

Set Implicit Arguments.
Unset Strict Implicit.
Unset Printing Implicit Defensive.

Import GRing.Theory.
Local Open Scope ring_scope.

Lemma prime_five : Znumtheory.prime 5%Z.
Proof.
case: (prime_dec 5) => // h; have [n [n1 [q qE]]] := not_prime_divide 5 ltac:(lia) h; have : (n = 2 \/ n = 3 \/ n = 4)%Z by lia.
by move=> hn; have [nE|[nE|nE]] := hn; rewrite nE in qE; lia.
Qed.
Definition five_rep := @qf_rep Z [idomainType of Z] zz_rep Z_eucl (prime_field prime_five).
Lemma five_tower cfg : finite_field cfg five_rep (QuotientField cfg ZZ 5%Z) 5.
Proof. exact: (@FF_prime cfg 5 prime_five). Qed.
Lemma five_nodup : NoDup [:: 3; 1; 4; 2]%Z.
Proof. by repeat (constructor; first by move=> /=; lia); constructor. Qed.
Lemma five_nodup0 : NoDup [:: 0; 3; 1; 4; 2]%Z.
Proof. by repeat (constructor; first by move=> /=; lia); constructor. Qed.
Lemma five_mem x : (exists u, five_rep x u) <-> (0 <= x < 5)%Z.
Proof.
split=> [[u xu]|h].
  have := qvalE u; rewrite -(xu : x = qval u) => h.
  by have := zrem_bound x 5 ltac:(lia); rewrite (h : zrem x 5 = x); lia.
have hc : erem Z_eucl (x : [idomainType of Z]) (prime_field prime_five) == x.
  by apply/eqP; apply: (proj2 (zrem_self x 5 ltac:(lia))); lia.
by exists (Quot hc).
Qed.
Lemma five_all x : In x [:: 0; 3; 1; 4; 2]%Z <-> exists u, five_rep x u.
Proof. by apply: (iff_trans _ (iff_sym (five_mem x))); rewrite /=; lia. Qed.
Lemma five_nonzero cfg x : In x [:: 3; 1; 4; 2]%Z <->
  (exists u, five_rep x u) /\ returns (is_zero (QuotientField cfg ZZ 5%Z) x) false.
Proof.
split=> [h|[/five_all h rz]].
  split; first by apply/five_mem; move: h; rewrite /=; lia.
  by move: h => /=; case=> [<-|[<-|[<-|[<-|[]]]]]; run 100%nat.
move: h => [x0|h]; last exact: h.
have h : returns (is_zero (QuotientField cfg ZZ 5%Z) x) true by rewrite -x0; run 100%nat.
by have := returns_det rz h.
Qed.
Lemma five_product : returns (product (PolyEucl (QuotientField debug64 ZZ 5%Z))
    [:: [:: 0; 1]; [:: 2; 1]; [:: 4; 1]; [:: 1; 1]; [:: 3; 1]]%Z) [:: 0; 4; 0; 0; 0; 1]%Z.
Proof. by run 200%nat. Qed.
Lemma five_factorial : returns (product (QuotientField debug64 ZZ 5%Z) [:: 1; 2; 3; 4]%Z) 4%Z.
Proof. by run 100%nat. Qed.
