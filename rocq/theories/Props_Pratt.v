(** * Props_Pratt.v -- C107: certificates for prime moduli.

    [residue_ring cfg False k A] (ModSpec.v) says that A computes with the residues modulo
    k; QuotientRing over Integers does (C13, C14). *)

From Coq Require Import ZArith Znumtheory.
From Verif Require Import Rust Traits MInts MConstr ModSpec PPratt2 PPrattEx Refuted.

Local Open Scope Z_scope.

(** If power(k-1, x) is 1, and power((k-1)/q, x) is not for the primes q that divide k-1,
    then k is a prime. *)
Theorem C107_sound : forall (cfg : Cfg) (k : Z) (A : RingAlg Z), 2 <= k ->
  residue_ring cfg False k A ->
  forall x, residue_z k x ->
  returns (gpower (MultiplicativeGroup cfg A) (k - 1) x) 1 /\
  (forall q, prime q -> (q | k - 1) ->
     ~ returns (gpower (MultiplicativeGroup cfg A) ((k - 1) / q) x) 1) ->
  prime k.
Proof. exact certificate_prime. Qed.
Print Assumptions C107_sound.
(** 3 certifies that 7 is a prime. *)
Example C107_sound_case : residue_ring debug64 False 7 (QuotientRing debug64 ZZ 7) /\
  residue_z 7 3 /\
  returns (gpower (MultiplicativeGroup debug64 (QuotientRing debug64 ZZ 7)) (7 - 1) 3) 1 /\
  (forall q, prime q -> (q | 7 - 1) ->
     ~ returns (gpower (MultiplicativeGroup debug64 (QuotientRing debug64 ZZ 7)) ((7 - 1) / q) 3) 1).
Proof. exact seven_certified. Qed.

(** Every prime has such a certificate. *)
Theorem C107_complete : forall (cfg : Cfg) (k : Z) (A : RingAlg Z), 2 <= k ->
  residue_ring cfg False k A -> prime k ->
  exists2 x, residue_z k x &
    returns (gpower (MultiplicativeGroup cfg A) (k - 1) x) 1 /\
    (forall q, prime q -> (q | k - 1) ->
       ~ returns (gpower (MultiplicativeGroup cfg A) ((k - 1) / q) x) 1).
Proof. exact certificate_exists. Qed.
Print Assumptions C107_complete.
Example C107_complete_case : residue_ring debug64 False 7 (QuotientRing debug64 ZZ 7) /\ prime 7.
Proof. exact (conj (proj1 seven_certified) seven_prime). Qed.
