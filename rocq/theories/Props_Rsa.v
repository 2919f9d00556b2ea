(** * Props_Rsa.v -- C103: powers of residues; key exchange and encryption.

    [residue_ring cfg b k A] (ModSpec.v) says that A computes with the residues modulo k;
    QuotientRing over Integers does with b = False (C13, C14). *)

From Coq Require Import ZArith Znumtheory.
From Verif Require Import Rust Traits MInts MConstr ModSpec PRsa PRsaEx Refuted.

Local Open Scope Z_scope.

(** MultiplicativeGroup::power with an exponent that is not negative is the power modulo k,
    for every residue, invertible or not. *)
Theorem C103_power : forall (cfg : Cfg) (b : Prop) (k : Z) (A : RingAlg Z), 2 <= k ->
  residue_ring cfg b k A ->
  forall n x, 0 <= n -> residue_z k x ->
  exactly b (gpower (MultiplicativeGroup cfg A) n x) (x ^ n mod k).
Proof. exact residue_power. Qed.
Print Assumptions C103_power.
Example C103_power_case : residue_ring debug64 False (5 * 11) (QuotientRing debug64 ZZ 55) /\
  returns (gpower (MultiplicativeGroup debug64 (QuotientRing debug64 ZZ 55)) 3 7) 13 /\
  7 ^ 3 mod 55 = 13.
Proof. exact (conj (rsa_ring _) (conj (proj1 rsa_run) eq_refl)). Qed.

(** Key exchange: the order of the two exponents does not matter. *)
Theorem C103_exchange : forall (cfg : Cfg) (b : Prop) (k : Z) (A : RingAlg Z), 2 <= k ->
  residue_ring cfg b k A ->
  forall m n x, 0 <= m -> 0 <= n -> residue_z k x ->
  exactly b (let! y := gpower (MultiplicativeGroup cfg A) m x in
             gpower (MultiplicativeGroup cfg A) n y) (x ^ (m * n) mod k).
Proof. exact exchange. Qed.
Print Assumptions C103_exchange.
Example C103_exchange_case : residue_ring debug64 False (5 * 11) (QuotientRing debug64 ZZ 55) /\
  returns (gpower (MultiplicativeGroup debug64 (QuotientRing debug64 ZZ 55)) 27 13) 7 /\
  7 ^ (3 * 27) mod 55 = 7.
Proof. exact (conj (rsa_ring _) (conj (proj2 rsa_run) eq_refl)). Qed.

(** Encryption with the exponent e modulo p q is undone by d if e d = 1 modulo
    (p-1)(q-1), for all residues. *)
Theorem C103_encryption : forall p q : Z, prime p -> prime q -> p <> q ->
  forall (cfg : Cfg) (b : Prop) (A : RingAlg Z), residue_ring cfg b (p * q) A ->
  forall e d k x, 0 <= e -> 0 <= d -> 0 <= k -> e * d = 1 + k * ((p - 1) * (q - 1)) ->
  residue_z (p * q) x ->
  exactly b (let! y := gpower (MultiplicativeGroup cfg A) e x in
             gpower (MultiplicativeGroup cfg A) d y) x.
Proof. exact rsa_round. Qed.
Print Assumptions C103_encryption.
Example C103_encryption_case : prime 5 /\ prime 11 /\ 3 * 27 = 1 + 2 * ((5 - 1) * (11 - 1)) /\
  returns (gpower (MultiplicativeGroup debug64 (QuotientRing debug64 ZZ 55)) 3 7) 13 /\
  returns (gpower (MultiplicativeGroup debug64 (QuotientRing debug64 ZZ 55)) 27 13) 7.
Proof.
exact (conj (proj1 rsa_primes) (conj (proj2 rsa_primes) (conj eq_refl rsa_run))).
Qed.
