(** * Props_Chin.v -- C69: the Chinese remainder theorem.

    [chinese], [same_residue] and the laws are defined in ChinLaw.v. *)

From mathcomp Require Import all_ssreflect all_algebra zify ssrZ.
From Coq Require Import ZArith.
From Verif Require Import Rust Traits MInts MConstr Spec PropSpec Laws ChinLaw.
From Verif Require Import PInts POrders PPoly PChin PChinZ Refuted.

Import GRing.Theory.
Local Open Scope ring_scope.

(** In every Euclidean domain, for two moduli that are relative primes. *)
Theorem C69_laws : forall (cfg : Cfg) (p : Prop) (E : Type) (R : idomainType)
    (rep : E -> R -> Prop) (AS : assoc_struct R) (S : eucl_struct R) (A : EuclAlg E),
  eucl_alg_spec cfg p rep AS S A ->
  forall (m n : R) (mo no mno : E), rep mo m -> rep no n ->
  m != 0 -> n != 0 -> n \isn't a GRing.unit ->
  returns (mul A mo no) mno -> returns (relative_primes A mo no) true ->
  chinese_laws cfg A p (fun x => exists a, rep x a) mo no mno.
Proof. exact chinese_laws_ok. Qed.
Print Assumptions C69_laws.
(** 10 and 21. *)
Example C69_laws_case cfg :
  chinese_laws cfg ZZ False (fun x => exists a, zz_rep x a) 10%Z 21%Z 210%Z.
Proof.
have nu : (21%Z : [idomainType of Z]) \isn't a GRing.unit by [].
by apply: (C69_laws _ _ _ _ _ _ _ _ (ZZ_ok cfg False) 10%Z 21%Z) => //; run 20%nat.
Qed.
Theorem C69_units : forall (cfg : Cfg) (p : Prop) (E : Type) (R : idomainType)
    (rep : E -> R -> Prop) (AS : assoc_struct R) (S : eucl_struct R) (A : EuclAlg E),
  eucl_alg_spec cfg p rep AS S A ->
  forall (m n : R) (mo no mno : E), rep mo m -> rep no n ->
  m != 0 -> m \isn't a GRing.unit -> n != 0 -> n \isn't a GRing.unit ->
  returns (mul A mo no) mno ->
  chinese_units cfg A p (fun x => exists a, rep x a) mo no mno.
Proof. exact chinese_units_ok. Qed.
Print Assumptions C69_units.
Example C69_units_case cfg :
  chinese_units cfg ZZ False (fun x => exists a, zz_rep x a) 10%Z 6%Z 60%Z.
Proof.
have mu : (10%Z : [idomainType of Z]) \isn't a GRing.unit by [].
have nu : (6%Z : [idomainType of Z]) \isn't a GRing.unit by [].
by apply: (C69_units _ _ _ _ _ _ _ _ (ZZ_ok cfg False) 10%Z 6%Z) => //; run 20%nat.
Qed.
(** For other moduli the least common multiple and zero have the same residues. *)
Theorem C69_lcm : forall (cfg : Cfg) (p : Prop) (E : Type) (R : idomainType)
    (rep : E -> R -> Prop) (AS : assoc_struct R) (S : eucl_struct R) (A : EuclAlg E),
  eucl_alg_spec cfg p rep AS S A ->
  forall (m n : R) (mo no mno : E), rep mo m -> rep no n -> m != 0 -> n != 0 ->
  returns (mul A mo no) mno -> chinese_lcm A p mo no mno.
Proof. exact chinese_lcm_ok. Qed.
Print Assumptions C69_lcm.
(** The hypotheses hold for the integers 9 and 10, and for x^2 and x + 1 over the field with two
    elements; 4 and 6 are not relative primes. *)
Example C69_base cfg :
  [/\ eucl_alg_spec cfg False zz_rep Z_assoc Z_eucl ZZ, returns (mul ZZ 9%Z 10%Z) 90%Z &
      returns (relative_primes ZZ 9%Z 10%Z) true] /\
  [/\ returns (mul (PolyEucl BB) [:: false; false; true] [:: true; true])
        [:: false; false; true; true] &
      returns (relative_primes (PolyEucl BB) [:: false; false; true] [:: true; true]) true].
Proof. by split; split; [exact: ZZ_ok|run 20%nat|run 20%nat|run 20%nat|run 20%nat]. Qed.
Example C69_case cfg :
  [/\ returns (chinese cfg ZZ 9%Z 10%Z 4%Z 7%Z) 67%Z,
      returns (same_residue ZZ 9%Z 67%Z 4%Z) true,
      returns (same_residue ZZ 10%Z 67%Z 7%Z) true &
      returns (chinese cfg (PolyEucl BB) [:: false; false; true] [:: true; true]
        [:: true; true] [:: true]) [:: true; true; true]] /\
  [/\ returns (invertible (QuotientRing cfg ZZ 90%Z) 67%Z) true,
      returns (invertible (QuotientRing cfg ZZ 90%Z) 12%Z) false,
      returns (lcm ZZ 4%Z 6%Z) 12%Z & returns (divisible ZZ 12%Z 24%Z) false].
Proof. by split; split; run 20%nat. Qed.

(** For integers: the one number below the product. *)
Theorem C69_ZZ : forall (cfg : Cfg) (m n x y : Z), Z.le 2 m -> Z.le 2 n -> Z.gcd m n = 1%Z ->
  Z.le 0 x -> Z.lt x m -> Z.le 0 y -> Z.lt y n -> exists z,
  [/\ returns (chinese cfg ZZ m n x y) z, Z.le 0 z /\ Z.lt z (m * n)%Z, Z.modulo z m = x,
      Z.modulo z n = y &
      forall z', Z.le 0 z' -> Z.lt z' (m * n)%Z -> Z.modulo z' m = x -> Z.modulo z' n = y ->
        z' = z].
Proof. exact zz_chinese. Qed.
Print Assumptions C69_ZZ.
(** 3 modulo 10 and 5 modulo 21. *)
Example C69_ZZ_case : Z.gcd 10 21 = 1%Z /\ returns (chinese debug64 ZZ 10 21 3 5)%Z 173%Z.
Proof. by split=> //; run 20%nat. Qed.
