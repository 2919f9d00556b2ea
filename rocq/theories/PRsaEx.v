(** * PRsaEx.v -- the primes 5 and 11. *)

From mathcomp Require Import all_ssreflect ssrZ zify.
From Coq Require Import ZArith Lia Znumtheory.
From Verif Require Import Rust Traits MInts MConstr Spec ModSpec PModProps PFinite PRsa Refuted.

Set Implicit Arguments.
Unset Strict Implicit.
Unset Printing Implicit Defensive.

Lemma rsa_primes : prime 5 /\ prime 11.
Proof. by split; [exact: (@prime_Z 5)|exact: (@prime_Z 11)]. Qed.
Lemma rsa_ring cfg : residue_ring cfg False (5 * 11) (QuotientRing cfg ZZ 55%Z).
Proof. by have := @zz_quotient cfg 55%Z; apply; lia. Qed.
Lemma rsa_run : returns (gpower (MultiplicativeGroup debug64 (QuotientRing debug64 ZZ 55%Z)) 3 7%Z) 13%Z /\
  returns (gpower (MultiplicativeGroup debug64 (QuotientRing debug64 ZZ 55%Z)) 27 13%Z) 7%Z.
Proof. by split; run 100%nat. Qed.
