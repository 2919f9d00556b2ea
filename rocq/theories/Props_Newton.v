(** * Props_Newton.v -- C115: Newton's iteration for inverses of residues. *)

From mathcomp Require Import all_ssreflect all_algebra ssrZ.
From Coq Require Import ZArith List.
From Verif Require Import Rust Traits MInts MConstr Spec PropSpec RingSpec TowerSpec Quotient.
From Verif Require Import PInts PIntsZ PIrrEx NewtonSpec PNewton Refuted.

(** If m divides 1 - a b according to [divisible], the program [newton] of NewtonSpec.v returns
    m^(2^k) and an element c such that m^(2^k) divides 1 - a c. *)
Theorem C115_newton : forall (cfg : Cfg) (p : Prop) (E : Type) (R : idomainType)
    (rep : E -> R -> Prop) (AS : assoc_struct R) (S : eucl_struct R) (A : EuclAlg E),
  eucl_alg_spec cfg p rep AS S A ->
  forall (k : nat) (a : E) (u : R) (m : E) (w : R) (b : E) (v : R),
  rep a u -> rep m w -> rep b v -> (w != 0)%R ->
  returns (let! c := mul A a b in let! o := one A in let! d := Traits.sub A o c in
           divisible A d m) true ->
  ensures p (newton A k a m b) (fun s => rep s.1 (w ^+ (expn 2 k))%R /\
    answers p (let! c := mul A a s.2 in let! o := one A in let! d := Traits.sub A o c in
               divisible A d s.1) true).
Proof. exact newton_calls. Qed.
Print Assumptions C115_newton.
(** The inverse of 3 modulo 7 is 5, modulo 7^4 it is 1601; the inverse of 1 + x modulo x^8
    over GF(2) is 1 + x + ... + x^7. *)
Example C115_newton_case :
  eucl_alg_spec debug64 False (R := [idomainType of Z]) zz_rep Z_assoc Z_eucl ZZ /\
  zz_rep 3%Z 3%Z /\ zz_rep 7%Z 7%Z /\ zz_rep 5%Z 5%Z /\
  returns (let! c := mul ZZ 3 5 in let! o := one ZZ in let! d := Traits.sub ZZ o c in
           divisible ZZ d 7)%Z true /\
  returns (newton ZZ 2 3%Z 7%Z 5%Z) (2401, 1601)%Z /\
  returns (newton (PolyEucl (field2 debug64)) 3 (1 :: 1 :: nil) (0 :: 1 :: nil) (1 :: nil))%Z
    (0 :: 0 :: 0 :: 0 :: 0 :: 0 :: 0 :: 0 :: 1 :: nil,
     1 :: 1 :: 1 :: 1 :: 1 :: 1 :: 1 :: 1 :: nil)%Z.
Proof.
split; first exact: ZZ_ok.
do 3!split=> //.
by split; last split; run 300%nat.
Qed.
