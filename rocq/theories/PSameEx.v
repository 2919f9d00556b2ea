(** * PSameEx.v -- structures and maps for the examples of C95. *)

From mathcomp Require Import all_ssreflect all_algebra zify ssrZ.
From Coq Require Import ZArith Lia Znumtheory.
From Verif Require Import Rust RustFacts Traits MInts MConstr Spec Wp RingSpec NumSpec TowerSpec ParSpec SameSpec ZFacts.
From Verif Require Import PIntsZ PInts POrders PGroups PCases Quotient PPoly PTower PTowerEx PFF PPar PPar2 PPar4 PPar5 PSame2 PQuot PModular.

Set Implicit Arguments.
Unset Strict Implicit.
Unset Printing Implicit Defensive.

Import GRing.Theory.
Local Open Scope ring_scope.

(** The cube of an integer. *)
Definition cube (a : Z) : Z := (a * a * a)%Z.
Lemma cube_inj : injective cube.
Proof.
move=> a b; rewrite /cube => h.
have : ((a - b) * (a * a + a * b + b * b) = 0)%Z by lia.
case/Z.mul_eq_0 => [|e]; first by lia.
have : (a * a + b * b + (a + b) * (a + b) = 0)%Z by lia.
have := Z.square_nonneg a; have := Z.square_nonneg b; have := Z.square_nonneg (a + b)%Z.
move=> h1 h2 h3 h4; have a0 : (a * a = 0)%Z by lia.
have b0 : (b * b = 0)%Z by lia.
by case/Z.mul_eq_0: a0; case/Z.mul_eq_0: b0; lia.
Qed.
Lemma cube_embedding : monoid_embedding Z.mul 1%Z Z.mul 1%Z cube.
Proof.
split; [exact: cube_inj|by move=> a b; rewrite /cube; lia|by []|].
move=> a b [h _]; exists a; move: h; rewrite /cube => h.
have a1 : (Z.abs a = 1)%Z.
  have : (a * (a * a * b) = 1)%Z by rewrite -h; lia.
  by case/Z.mul_eq_1 => ->.
by split; nia.
Qed.

(** Negation and doubling. *)
Lemma opp_embedding : monoid_embedding Z.add 0%Z Z.add 0%Z Z.opp.
Proof.
split=> [a b|a b||a b [h _]]; rewrite ?/inverse_of //; try by lia.
by exists (- a)%Z; split; lia.
Qed.
Definition twice (a : [zmodType of Z]) : [zmodType of Z] := a + a.
Lemma twice_is_additive : additive twice.
Proof. by move=> a b; rewrite /twice opprD addrACA. Qed.
Canonical twice_additive := Additive twice_is_additive.
Lemma twice_inj : injective twice.
Proof. by move=> a b; rewrite /twice => h; change (a + a = b + b)%Z in h; lia. Qed.

(** The square in the field with 4 elements. *)
Lemma gf4_char : 2%nat \in [char gf4].
Proof.
rewrite inE /= -(rmorph_nat (qpi_rmorphism (poly_estruct [fieldType of F2]) gf4_modulus) 2).
rewrite -(rmorph_nat (polyC_rmorphism [ringType of F2]) 2).
have -> : (2%:R : [ringType of F2]) = 0 by exact: val_inj.
by rewrite !rmorph0.
Qed.
Definition gf4_square : {rmorphism gf4 -> gf4} := [rmorphism of Frobenius_aut gf4_char].

Lemma zz_lattice_settled : lattice_alg_par eq ZZ_lattice ZZ_lattice.
Proof.
split.
  split.
    by split; [move=> x _ <-|move=> x y _ _ <- <-]; exact: par_ret.
  have hl : par2b eq (leq ZZ_lattice) (leq ZZ_lattice) by move=> x y _ _ <- <-; exact: par_ret.
  split=> //; last exact: par_comparable.
  by apply: par_less_than => // x y _ _ <- <-; exact: par_ret.
by split=> x y _ _ <- <-; exact: par_ret.
Qed.

(** The field with 9 elements, built with x^2 + 1 and with x^2 + x + 2. *)
Definition gf3 := qfield_fieldType Z_eucl (prime_field prime_3).
Definition gf3_rep : Z -> gf3 -> Prop := @qf_rep Z [idomainType of Z] zz_rep Z_eucl (prime_field prime_3).
Definition el3 (a : Z) : gf3 := qpi Z_eucl (prime_field prime_3) a.
Lemma zrem3 (q : Z) : zrem q 3%Z = q -> q = 0%Z \/ q = 1%Z \/ q = 2%Z.
Proof. by move=> h; have := proj1 (zrem_self q 3%Z ltac:(lia)) h; lia. Qed.
Lemma gf3_cases (u : gf3) : [\/ u = el3 0%Z, u = el3 1%Z | u = el3 2%Z].
Proof.
have e : el3 (qval u) = u by exact: qpiK.
have [h|[h|h]] := zrem3 (qvalE u); rewrite -e h; by [constructor 1|constructor 2|constructor 3].
Qed.
Lemma gf9_noroot (u : gf3) : u * u + el3 0%Z * u + el3 1%Z != 0.
Proof. by case: (gf3_cases u) => ->; vm_compute. Qed.
Lemma gf9_noroot' (u : gf3) : u * u + el3 1%Z * u + el3 2%Z != 0.
Proof. by case: (gf3_cases u) => ->; vm_compute. Qed.
Definition gf9_rep := @qf_rep (seq Z) (poly_idomainType gf3) (poly_of gf3_rep) (poly_estruct gf3)
  (quadratic_modulus gf9_noroot).
Definition gf9_rep' := @qf_rep (seq Z) (poly_idomainType gf3) (poly_of gf3_rep) (poly_estruct gf3)
  (quadratic_modulus gf9_noroot').
Definition F9 cfg : FieldAlg (seq Z) :=
  QuotientField cfg (PolyEucl (QuotientField cfg ZZ 3%Z)) [:: 1%Z; 0%Z; 1%Z].
Definition F9' cfg : FieldAlg (seq Z) :=
  QuotientField cfg (PolyEucl (QuotientField cfg ZZ 3%Z)) [:: 2%Z; 1%Z; 1%Z].
Lemma gf9_tower cfg : finite_field cfg gf9_rep (F9 cfg) 9.
Proof.
have -> : 9%nat = expn 3 (size (mval (quadratic_modulus gf9_noroot) : {poly gf3})).-1.
  by rewrite /= size_quadratic.
by apply: FF_extension; [exact: (FF_prime cfg prime_3)|exact: quadratic_of].
Qed.
Lemma gf9_tower' cfg : finite_field cfg gf9_rep' (F9' cfg) 9.
Proof.
have -> : 9%nat = expn 3 (size (mval (quadratic_modulus gf9_noroot') : {poly gf3})).-1.
  by rewrite /= size_quadratic.
by apply: FF_extension; [exact: (FF_prime cfg prime_3)|exact: quadratic_of].
Qed.
