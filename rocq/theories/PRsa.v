(** * PRsa.v -- powers of residues, and encryption with two primes. *)

From mathcomp Require Import all_ssreflect ssrZ zify.
From Coq Require Import ZArith Lia Znumtheory Zpow_facts.
From Verif Require Import Rust Traits MInts MConstr Wp Spec PDefaults ModSpec PModProps.

Set Implicit Arguments.
Unset Strict Implicit.
Unset Printing Implicit Defensive.

Section Power.
Variables (cfg : Cfg) (p : Prop) (k : Z) (A : RingAlg Z).
Hypotheses (k2 : Z.le 2 k) (hA : residue_ring cfg p k A).
Local Notation G := (MultiplicativeGroup cfg A).

(** [power] of the multiplicative group with exponents that are not negative, for all
    residues: also for those that are not invertible. *)
Lemma residue_power n x : Z.le 0 n -> residue_z k x ->
  exactly p (gpower G n x) ((x ^ n) mod k)%Z.
Proof.
move=> n0 hx; pose rep (y u : Z) := y = (u mod k)%Z.
have res u : residue_z k (u mod k)%Z by apply: Z.mod_pos_bound; lia.
have h1 y u z v : rep y u -> rep z v -> gives p rep (mul_assign A y z) (u * v)%Z.
  rewrite /rep => -> ->; apply: ensures_mono (@rr_mul_assign _ _ _ _ hA _ _ (res u) (res v)) _ => w ->.
  by rewrite -Zmult_mod.
have h2 y u : rep y u -> gives p rep (square A y) (u * u)%Z.
  rewrite /rep => ->; apply: ensures_mono (@rr_square _ _ _ _ hA _ (res u)) _ => w ->.
  by rewrite -Zmult_mod.
rewrite /gpower /= /default_gpower; case: Z.ltb_spec; first lia.
move=> _; rewrite bind_ret; apply: ensures_bind (@rr_one _ _ _ _ hA) _ => o oE.
have xr : rep x x by rewrite /rep Z.mod_small.
have or : rep o 1%Z by rewrite /rep oE Z.mod_small //; lia.
have := @power_loop_ok p Z [eqType of Z] rep Z.mul 1%Z Z.mul_assoc Z.mul_1_l Z.mul_1_r
  (mul_assign A) (square A) h1 h2 n x x o 1%Z n0 xr or.
move=> h; apply: ensures_bind h _ => s; rewrite /rep => sE.
apply: ensures_ret; rewrite sE Z.mul_1_l; congr (_ mod k)%Z.
have [i ->] : exists i, n = Z.of_nat i by exists (Z.to_nat n); lia.
rewrite Nat2Z.id; elim: i => [|i IH] //.
by rewrite Nat2Z.inj_succ Z.pow_succ_r -?IH //; lia.
Qed.

(** Both sides of a key exchange get the same number. *)
Lemma exchange m n x : Z.le 0 m -> Z.le 0 n -> residue_z k x ->
  exactly p (let! y := gpower G m x in gpower G n y) ((x ^ (m * n)) mod k)%Z.
Proof.
move=> m0 n0 hx; apply: ensures_bind (residue_power m0 hx) _ => y yE.
have hy : residue_z k y by rewrite yE; apply: Z.mod_pos_bound; lia.
apply: ensures_mono (residue_power n0 hy) _ => z ->.
by rewrite yE -Zpow_facts.Zpower_mod -?Z.pow_mul_r //; lia.
Qed.
End Power.

Lemma nat_prime n : prime (Z.of_nat n) -> prime.prime n.
Proof.
move=> pn; have n2 := prime_ge_2 _ pn; apply/prime.primeP; split; first lia.
move=> d /dvdnP[c cE]; have h : (Z.of_nat d | Z.of_nat n)%Z by exists (Z.of_nat c); lia.
by have [|[|[|]]] := prime_divisors _ pn _ h; rewrite /=; lia.
Qed.
Lemma mod_modn m d : (0 < d)%nat -> Z.of_nat (m %% d) = (Z.of_nat m mod Z.of_nat d)%Z.
Proof.
move=> d0; apply: (Z.mod_unique _ _ (Z.of_nat (m %/ d))); first by have := ltn_pmod m d0; lia.
by have := divn_eq m d; nia.
Qed.
Lemma Zpow_expn a n : Z.of_nat (expn a n) = (Z.of_nat a ^ Z.of_nat n)%Z.
Proof.
elim: n => [|n IH]; first by [].
by rewrite expnS Nat2Z.inj_succ Z.pow_succ_r -?IH; lia.
Qed.

Section Rsa.
Variables (p q : Z).
Hypotheses (pp : prime p) (qq : prime q) (pq : p <> q).

(** x^(1 + k (p-1)) = x modulo p *)
Lemma fermat_mod r x k : prime r -> Z.le 0 x -> Z.le 0 k ->
  ((x ^ (1 + k * (r - 1))) mod r = x mod r)%Z.
Proof.
move=> pr x0 k0; have r2 := prime_ge_2 _ pr.
have fl : ((x ^ r) mod r = x mod r)%Z.
  have [n rE] : exists n, r = Z.of_nat n by exists (Z.to_nat r); lia.
  have [a ->] : exists a, x = Z.of_nat a by exists (Z.to_nat x); lia.
  have pn : prime.prime n by apply: nat_prime; rewrite -rE.
  have := fermat_little a pn.
  rewrite rE -Zpow_expn => h; have n0 : (0 < n)%nat by lia.
  by rewrite -!mod_modn // h.
have [i ->] : exists i, k = Z.of_nat i by exists (Z.to_nat k); lia.
elim: i => [|i IH]; first by rewrite Z.mul_0_l Z.add_0_r Z.pow_1_r.
have -> : (1 + Z.of_nat i.+1 * (r - 1) = (1 + Z.of_nat i * (r - 1)) + (r - 1))%Z by lia.
rewrite Z.pow_add_r; [|nia|lia].
rewrite -Zmult_mod_idemp_l IH Zmult_mod_idemp_l -fl.
have -> : (x * x ^ (r - 1) = x ^ r)%Z by rewrite -Z.pow_succ_r; [congr (_ ^ _)%Z; lia|lia].
by [].
Qed.

Lemma rsa_mod x k : Z.le 0 x -> Z.le 0 k ->
  ((x ^ (1 + k * ((p - 1) * (q - 1)))) mod (p * q) = x mod (p * q))%Z.
Proof.
move=> x0 k0; have p2 := prime_ge_2 _ pp; have q2 := prime_ge_2 _ qq.
pose N := (1 + k * ((p - 1) * (q - 1)))%Z.
have dp : (p | x ^ N - x)%Z.
  apply/Z.mod_divide; first lia.
  rewrite Zminus_mod (_ : N = 1 + (k * (q - 1)) * (p - 1))%Z; last by rewrite /N; ring.
  by rewrite fermat_mod ?Z.sub_diag ?Zmod_0_l //; nia.
have dq : (q | x ^ N - x)%Z.
  apply/Z.mod_divide; first lia.
  rewrite Zminus_mod (_ : N = 1 + (k * (p - 1)) * (q - 1))%Z; last by rewrite /N; ring.
  by rewrite fermat_mod ?Z.sub_diag ?Zmod_0_l //; nia.
have hd : (p * q | x ^ N - x)%Z.
  have [c cE] := dp; rewrite cE Z.mul_comm; apply: Z.mul_divide_mono_r.
  have rp : rel_prime q p.
    apply: prime_rel_prime => // /(prime_divisors _ pp); lia.
  by apply: (Gauss _ p) => //; rewrite Z.mul_comm -cE.
have [c cE] := hd; rewrite -/N (_ : x ^ N = x + c * (p * q))%Z; last by lia.
by rewrite Z_mod_plus_full.
Qed.

Variables (cfg : Cfg) (b : Prop) (A : RingAlg Z).
Hypothesis hA : residue_ring cfg b (p * q) A.

(** Decryption undoes encryption. *)
Lemma rsa_round e d k x : Z.le 0 e -> Z.le 0 d -> Z.le 0 k ->
  (e * d = 1 + k * ((p - 1) * (q - 1)))%Z -> residue_z (p * q) x ->
  exactly b (let! y := gpower (MultiplicativeGroup cfg A) e x in
             gpower (MultiplicativeGroup cfg A) d y) x.
Proof.
move=> e0 d0 k0 edE hx; have p2 := prime_ge_2 _ pp; have q2 := prime_ge_2 _ qq.
have n2 : (2 <= p * q)%Z by nia.
apply: ensures_bind (residue_power n2 hA e0 hx) _ => y yE.
have hy : residue_z (p * q) y by rewrite yE; apply: Z.mod_pos_bound; lia.
apply: ensures_mono (residue_power n2 hA d0 hy) _ => z ->.
rewrite yE -Zpow_facts.Zpower_mod -?Z.pow_mul_r ?edE ?rsa_mod //; try lia; last by case: hx.
by apply: Z.mod_small.
Qed.
End Rsa.
