(** * Props_Digit.v -- C122: digits. *)

From mathcomp Require Import all_ssreflect all_algebra ssrZ.
From Coq Require Import ZArith List.
From Verif Require Import Rust Traits MInts MConstr Spec PropSpec RingSpec Quotient.
From Verif Require Import PInts PIntsZ PIrrEx DigitSpec PDigit Refuted.

(** The program [to_digits] of DigitSpec.v writes x as d_0 + d_1 m + ... + d_(n-1) m^(n-1) +
    q m^n, where the d_i are reduced modulo m. *)
Theorem C122_digits : forall (cfg : Cfg) (p : Prop) (E : Type) (R : idomainType)
    (rep : E -> R -> Prop) (AS : assoc_struct R) (S : eucl_struct R) (A : EuclAlg E),
  eucl_alg_spec cfg p rep AS S A ->
  forall (m : E) (w : R) (n : nat) (x : E) (a : R), rep m w -> (w != 0)%R -> rep x a ->
  ensures p (to_digits A m n x) (fun t => exists (ds : list R) (q : R),
    [/\ Forall2 rep t.1 ds, rep t.2 q, size ds = n, all (fun d => erem S d w == d) ds &
        (\sum_(i < size ds) ds`_i * w ^+ i + q * w ^+ size ds = a)%R]).
Proof. exact to_digits_ok. Qed.
Print Assumptions C122_digits.
(** 1984 to the base 7, and the expansion of 1 + x + x^3 in powers of 1 + x over GF(2). *)
Example C122_digits_case :
  eucl_alg_spec debug64 False (R := [idomainType of Z]) zz_rep Z_assoc Z_eucl ZZ /\
  zz_rep 7%Z 7%Z /\ zz_rep 1984%Z 1984%Z /\
  returns (to_digits ZZ 7%Z 3 1984%Z) (3 :: 3 :: 5 :: nil, 5)%Z /\
  returns (to_digits (PolyEucl (field2 debug64)) (1 :: 1 :: nil) 3 (1 :: 1 :: 0 :: 1 :: nil))%Z
    ((1 :: nil) :: nil :: (1 :: nil) :: nil, 1 :: nil)%Z.
Proof.
split; first exact: ZZ_ok.
do 2!split=> //.
by split; run 300%nat.
Qed.

(** [from_digits] undoes it. *)
Theorem C122_back : forall (cfg : Cfg) (p : Prop) (E : Type) (R : idomainType)
    (rep : E -> R -> Prop) (AS : assoc_struct R) (S : eucl_struct R) (A : EuclAlg E),
  eucl_alg_spec cfg p rep AS S A ->
  forall (m : E) (w : R) (n : nat) (x : E) (a : R), rep m w -> (w != 0)%R -> rep x a ->
  answers p (let! t := to_digits A m n x in
             let! y := from_digits A m t.1 t.2 in equals A y x) true.
Proof. exact digits_back. Qed.
Print Assumptions C122_back.
Example C122_back_case :
  eucl_alg_spec debug64 False (R := [idomainType of Z]) zz_rep Z_assoc Z_eucl ZZ /\
  zz_rep 7%Z 7%Z /\ zz_rep 1984%Z 1984%Z /\
  returns (from_digits ZZ 7%Z (3 :: 3 :: 5 :: nil) 5)%Z 1984%Z.
Proof.
split; first exact: ZZ_ok.
do 2!split=> //.
by run 300%nat.
Qed.

(** Every list of reduced elements is the list of digits of the number it denotes. *)
Theorem C122_forth : forall (cfg : Cfg) (p : Prop) (E : Type) (R : idomainType)
    (rep : E -> R -> Prop) (AS : assoc_struct R) (S : eucl_struct R) (A : EuclAlg E),
  eucl_alg_spec cfg p rep AS S A ->
  forall (m : E) (w : R) (ds : list E) (es : list R) (y : E) (q : R), rep m w -> (w != 0)%R ->
  Forall2 rep ds es -> rep y q -> all (fun d => erem S d w == d) es ->
  ensures p (let! x := from_digits A m ds y in to_digits A m (size ds) x) (fun t =>
    Forall2 rep t.1 es /\ rep t.2 q).
Proof. exact digits_forth. Qed.
Print Assumptions C122_forth.
Example C122_forth_case :
  eucl_alg_spec debug64 False (R := [idomainType of Z]) zz_rep Z_assoc Z_eucl ZZ /\
  Forall2 zz_rep (3 :: 3 :: 5 :: nil)%Z (3 :: 3 :: 5 :: nil)%Z /\ zz_rep 5%Z 5%Z /\
  all (fun d : Z => erem Z_eucl d 7%Z == d) (3 :: 3 :: 5 :: nil)%Z /\
  returns (let! x := from_digits ZZ 7 (3 :: 3 :: 5 :: nil) 5 in to_digits ZZ 7 3%nat x)%Z
    (3 :: 3 :: 5 :: nil, 5)%Z.
Proof.
split; first exact: ZZ_ok.
split; first by repeat constructor.
by do 2!split=> //; run 300%nat.
Qed.
