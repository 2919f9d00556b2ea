(** * PPratt2.v -- certificates for prime numbers, computed with residues. *)

From mathcomp Require Import all_ssreflect ssrZ zify.
From Coq Require Import ZArith Lia Znumtheory.
From Verif Require Import Rust Traits MInts MConstr Wp Spec PDefaults ModSpec PModProps PFinite PRsa PPratt.

Set Implicit Arguments.
Unset Strict Implicit.
Unset Printing Implicit Defensive.

Section Certificate.
Variables (cfg : Cfg) (k : Z) (A : RingAlg Z).
Hypotheses (k2 : Z.le 2 k) (hA : residue_ring cfg False k A).
Local Notation G := (MultiplicativeGroup cfg A).

Definition certifies (x : Z) : Prop :=
  returns (gpower G (k - 1)%Z x) 1%Z /\
  forall q : Z, Znumtheory.prime q -> Z.divide q (k - 1) -> ~ returns (gpower G ((k - 1) / q)%Z x) 1%Z.

Lemma power_one n x : Z.le 0 n -> residue_z k x ->
  returns (gpower G n x) 1%Z <-> ((x ^ n) mod k = 1)%Z.
Proof.
move=> n0 hx; have [[y [ry yE]]|[[]]] := residue_power k2 hA n0 hx.
by split=> [h|h]; [rewrite -yE; exact: returns_det ry h|rewrite -h -yE].
Qed.

Let K := Z.to_nat k.
Let kE : k = Z.of_nat K.
Proof. by rewrite /K; lia. Qed.
Let K1 : (1 < K)%nat.
Proof. by rewrite /K; lia. Qed.
Let k1E : (k - 1 = Z.of_nat K.-1)%Z.
Proof. by rewrite kE; lia. Qed.

Lemma nat_power n x : ((Z.of_nat x ^ Z.of_nat n) mod k = 1)%Z <-> (expn x n %% K = 1)%nat.
Proof. by rewrite -Zpow_expn kE -mod_modn ?(ltnW K1) //; split; lia. Qed.

Lemma div_nat q : (0 < q)%nat -> (Z.of_nat K.-1 / Z.of_nat q)%Z = Z.of_nat (K.-1 %/ q).
Proof.
move=> q0; apply/esym/(Z.div_unique _ _ _ (Z.of_nat (K.-1 %% q))); first by have := ltn_pmod K.-1 q0; lia.
by have := divn_eq K.-1 q; nia.
Qed.

Lemma certificate_prime x : residue_z k x -> certifies x -> Znumtheory.prime k.
Proof.
move=> hx [h1 h2]; have [a aE] : exists a, x = Z.of_nat a by exists (Z.to_nat x); case: hx; lia.
suff pk : prime.prime K by rewrite kE; exact: prime_Z.
have k0 : Z.le 0 (k - 1) by lia.
apply: (@pratt K K1 a).
  by apply/nat_power; rewrite -aE -k1E; apply/power_one.
move=> q pq qk; apply/negP => /eqP h; apply: (h2 (Z.of_nat q)).
- exact: prime_Z.
- by rewrite k1E; have /dvdnP[c ->] := qk; exists (Z.of_nat c); lia.
rewrite k1E div_nat ?prime_gt0 //; apply/power_one => //; first by lia.
by rewrite aE; apply/nat_power.
Qed.

Lemma certificate_exists : Znumtheory.prime k -> exists2 x, residue_z k x & certifies x.
Proof.
rewrite {1}kE => /nat_prime pk; have [a [aK a1 a2]] := pratt_exists K1 pk.
have hx : residue_z k (Z.of_nat a) by rewrite kE; split; lia.
exists (Z.of_nat a) => //; split.
  by apply/power_one => //; [lia|rewrite k1E; apply/nat_power].
move=> q pq [c cE]; have q2 := prime_ge_2 _ pq.
have [n qE] : exists n, q = Z.of_nat n by exists (Z.to_nat q); lia.
have pn : prime.prime n by apply: nat_prime; rewrite -qE.
have c0 : Z.le 0 c by nia.
have nK : (n %| K.-1)%nat.
  apply/dvdnP; exists (Z.to_nat c); move: cE; rewrite k1E qE => cE.
  by apply: Nat2Z.inj; rewrite cE Nat2Z.inj_mul Z2Nat.id.
rewrite k1E qE div_nat ?prime_gt0 // => /power_one h.
by case/eqP: (a2 _ pn nK); apply/nat_power; apply: h => //; lia.
Qed.
End Certificate.
