(** * Props_Kara.v -- C123: multiplication by the method of Karatsuba. *)

From mathcomp Require Import all_ssreflect all_algebra ssrZ.
From Coq Require Import ZArith List.
From Verif Require Import Rust Traits MInts MConstr Spec PropSpec RingSpec Quotient.
From Verif Require Import PInts PIntsZ PIrrEx KaraSpec PKara Refuted.

(** The program [karatsuba] of KaraSpec.v returns the product, for all non-zero bases. *)
Theorem C123_product : forall (cfg : Cfg) (p : Prop) (E : Type) (R : idomainType)
    (rep : E -> R -> Prop) (AS : assoc_struct R) (S : eucl_struct R) (A : EuclAlg E),
  eucl_alg_spec cfg p rep AS S A ->
  forall (bases : list E) (ws : list R) (x : E) (a : R) (y : E) (b : R),
  Forall2 rep bases ws -> all (fun w => w != 0)%R ws -> rep x a -> rep y b ->
  gives p rep (karatsuba A bases x y) (a * b)%R.
Proof. exact karatsuba_ok. Qed.
Print Assumptions C123_product.
(** 1234 * 5678; over GF(2), (1 + x + x^3)(1 + x^2 + x^3) with the bases x^2 and x. *)
Example C123_product_case :
  eucl_alg_spec debug64 False (R := [idomainType of Z]) zz_rep Z_assoc Z_eucl ZZ /\
  Forall2 zz_rep (100 :: 10 :: nil)%Z (100 :: 10 :: nil)%Z /\
  all (fun w : Z => w != 0%Z) (100 :: 10 :: nil)%Z /\ zz_rep 1234%Z 1234%Z /\ zz_rep 5678%Z 5678%Z /\
  returns (karatsuba ZZ (100 :: 10 :: nil) 1234 5678)%Z 7006652%Z /\
  returns (karatsuba (PolyEucl (field2 debug64)) ((0 :: 0 :: 1 :: nil) :: (0 :: 1 :: nil) :: nil)
    (1 :: 1 :: 0 :: 1 :: nil) (1 :: 0 :: 1 :: 1 :: nil))%Z
    (1 :: 1 :: 1 :: 1 :: 1 :: 1 :: 1 :: nil)%Z.
Proof.
split; first exact: ZZ_ok.
split; first by repeat constructor.
do 3!split=> //.
by split; run 300%nat.
Qed.

(** It agrees with [mul] whenever [mul] returns. *)
Theorem C123_same : forall (cfg : Cfg) (p : Prop) (E : Type) (R : idomainType)
    (rep : E -> R -> Prop) (AS : assoc_struct R) (S : eucl_struct R) (A : EuclAlg E),
  eucl_alg_spec cfg p rep AS S A ->
  forall (bases : list E) (ws : list R) (x : E) (a : R) (y : E) (b : R) (z : E),
  Forall2 rep bases ws -> all (fun w => w != 0)%R ws -> rep x a -> rep y b ->
  returns (mul A x y) z ->
  answers p (let! t := karatsuba A bases x y in equals A t z) true.
Proof. exact karatsuba_same. Qed.
Print Assumptions C123_same.
Example C123_same_case :
  eucl_alg_spec debug64 False (R := [idomainType of Z]) zz_rep Z_assoc Z_eucl ZZ /\
  Forall2 zz_rep (100 :: 10 :: nil)%Z (100 :: 10 :: nil)%Z /\
  all (fun w : Z => w != 0%Z) (100 :: 10 :: nil)%Z /\ zz_rep 1234%Z 1234%Z /\ zz_rep 5678%Z 5678%Z /\
  returns (mul ZZ 1234 5678)%Z 7006652%Z.
Proof.
split; first exact: ZZ_ok.
split; first by repeat constructor.
by do 3!split=> //; run 300%nat.
Qed.
