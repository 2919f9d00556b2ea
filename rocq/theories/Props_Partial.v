(** * Props_Partial.v -- C109: splitting a fraction. *)

From mathcomp Require Import all_ssreflect all_algebra ssrZ.
From Coq Require Import ZArith List.
From Verif Require Import Rust Traits MInts MConstr Spec PropSpec RingSpec Quotient Laws.
From Verif Require Import PInts PIntsZ DiophSpec PartSpec PPartial Refuted.

(** If x and y are relatively prime and not zero, z / (x y) is a sum of a fraction over x
    and a fraction over y. [solve] and [over] are the client programs of DiophSpec.v and
    PartSpec.v. *)
Theorem C109_split : forall (cfg : Cfg) (p : Prop) (E : Type) (R : idomainType)
    (rep : E -> R -> Prop) (AS : assoc_struct R) (S : eucl_struct R) (A : EuclAlg E),
  eucl_alg_spec cfg p rep AS S A ->
  forall (x : E) (a : R) (y : E) (b : R) (z : E) (c : R),
  rep x a -> rep y b -> rep z c -> a <> 0%R -> b <> 0%R ->
  returns (relative_primes A x y) true ->
  ensures p (solve A y x z) (fun o => exists w, o = Some w /\
    (exists u, rep w.1 u) /\ (exists v, rep w.2 v) /\
    holds p (same (ReducedFractions cfg A)
      (let! xy := mul A x y in over cfg A z xy)
      (let! s := over cfg A w.1 x in let! t := over cfg A w.2 y in
       add (ReducedFractions cfg A) s t))).
Proof. exact split_fraction. Qed.
Print Assumptions C109_split.
(** 5 / 14 over 2 and 7. *)
Example C109_split_case :
  eucl_alg_spec debug64 False (R := [idomainType of Z]) zz_rep Z_assoc Z_eucl ZZ /\
  zz_rep 2%Z 2%Z /\ zz_rep 7%Z 7%Z /\ zz_rep 5%Z 5%Z /\
  returns (relative_primes ZZ 2 7)%Z true /\
  returns (let! o := solve ZZ 7 2 5 in
           match o with
           | Some w => let! s := over debug64 ZZ w.1 2 in let! t := over debug64 ZZ w.2 7 in
                       add (ReducedFractions debug64 ZZ) s t
           | None => ret (0, 0)
           end)%Z (5, 14)%Z.
Proof.
split; first exact: ZZ_ok.
do 3!split=> //.
by split; run 300%nat.
Qed.
