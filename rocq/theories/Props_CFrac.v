(** * Props_CFrac.v -- C121: continued fractions. *)

From mathcomp Require Import all_ssreflect all_algebra ssrZ.
From Coq Require Import ZArith List.
From Verif Require Import Rust Traits MInts MConstr Spec PropSpec RingSpec Quotient.
From Verif Require Import PInts PIntsZ PIrrEx CFracSpec PCFrac Refuted.

(** The program [convergent] of CFracSpec.v returns the quotients of x and y by their
    greatest common divisor, without calling gcd. *)
Theorem C121_convergent : forall (cfg : Cfg) (p : Prop) (E : Type) (R : idomainType)
    (rep : E -> R -> Prop) (AS : assoc_struct R) (S : eucl_struct R) (A : EuclAlg E),
  eucl_alg_spec cfg p rep AS S A ->
  forall (x : E) (a : R) (y : E) (b : R), rep x a -> rep y b ->
  ensures p (convergent A x y) (fun c => exists g h k : R, [/\ rep c.1 h, rep c.2 k,
    is_gcd a b g, a = (g * h)%R /\ b = (g * k)%R & exists s t, (s * h + t * k = 1)%R]).
Proof. exact convergent_ok. Qed.
Print Assumptions C121_convergent.
(** 84/30 = 14/5; over GF(2), (1 + x^2)/(x + x^2) = (1 + x)/x. *)
Example C121_convergent_case :
  eucl_alg_spec debug64 False (R := [idomainType of Z]) zz_rep Z_assoc Z_eucl ZZ /\
  zz_rep 84%Z 84%Z /\ zz_rep 30%Z 30%Z /\
  returns (convergent ZZ 84%Z 30%Z) (14, 5)%Z /\
  returns (convergent (PolyEucl (field2 debug64)) (1 :: 0 :: 1 :: nil) (0 :: 1 :: 1 :: nil))%Z
    (1 :: 1 :: nil, 0 :: 1 :: nil)%Z /\
  returns (convergent ZZ 0%Z 0%Z) (1, 0)%Z.
Proof.
split; first exact: ZZ_ok.
do 2!split=> //.
by split; last split; run 300%nat.
Qed.

(** The crate confirms that c.1 / c.2 is the same fraction as x / y, and in lowest terms. *)
Theorem C121_lowest : forall (cfg : Cfg) (p : Prop) (E : Type) (R : idomainType)
    (rep : E -> R -> Prop) (AS : assoc_struct R) (S : eucl_struct R) (A : EuclAlg E),
  eucl_alg_spec cfg p rep AS S A ->
  forall (x : E) (a : R) (y : E) (b : R), rep x a -> rep y b ->
  ensures p (convergent A x y) (fun c =>
    answers p (let! u := mul A x c.2 in let! v := mul A y c.1 in equals A u v) true /\
    answers p (relative_primes A c.1 c.2) true).
Proof. exact convergent_calls. Qed.
Print Assumptions C121_lowest.
Example C121_lowest_case :
  eucl_alg_spec debug64 False (R := [idomainType of Z]) zz_rep Z_assoc Z_eucl ZZ /\
  zz_rep 84%Z 84%Z /\ zz_rep 30%Z 30%Z /\
  returns (let! u := mul ZZ 84%Z 5%Z in let! v := mul ZZ 30%Z 14%Z in equals ZZ u v) true /\
  returns (relative_primes ZZ 14%Z 5%Z) true.
Proof.
split; first exact: ZZ_ok.
do 2!split=> //.
by split; run 300%nat.
Qed.
