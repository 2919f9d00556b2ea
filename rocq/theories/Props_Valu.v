(** * Props_Valu.v -- C114: how often one element divides another. *)

From mathcomp Require Import all_ssreflect all_algebra ssrZ.
From Coq Require Import ZArith List.
From Verif Require Import Rust Traits MInts MConstr Spec PropSpec RingSpec TowerSpec Quotient.
From Verif Require Import PInts PIntsZ PIrrEx PSqfEx PFactEx ValuSpec PValu PValuEx Refuted.

(** [valuation] is the client program of ValuSpec.v. *)
Theorem C114_integers : forall x y : Z, x <> 0%Z -> (1 < Z.abs y)%Z ->
  exists (n : nat) (z : Z), [/\ returns (valuation ZZ x y) (n, z),
    x = (z * y ^ Z.of_nat n)%Z & ~ Z.divide y z].
Proof. exact valuation_integers. Qed.
Print Assumptions C114_integers.
Example C114_integers_case : (-48 <> 0)%Z /\ (1 < Z.abs (-2))%Z /\
  returns (valuation ZZ (-48) (-2))%Z (4, (-3)%Z).
Proof. by split=> //; split=> //; run 200%nat. Qed.

Theorem C114_polynomials : forall (cfg : Cfg) (p : Prop) (E : Type) (F : fieldType)
    (rep : E -> F -> Prop) (A : FieldAlg E),
  field_alg_spec cfg p rep A ->
  forall (x : list E) (P : {poly F}) (y : list E) (Q : {poly F}),
  poly_of rep x P -> poly_of rep y Q -> 0 < size x -> 1 < size y ->
  ensures p (valuation (PolyEucl A) x y) (fun s => exists2 W : {poly F}, poly_of rep s.2 W &
    P = (W * Q ^+ s.1)%R /\ ~~ (Q %| W)%R).
Proof. exact valuation_polys. Qed.
Print Assumptions C114_polynomials.
(** x^3 + x^2 + x + 1 = (x + 1)^3 over GF(2) *)
Example C114_polynomials_case : field_alg_spec debug64 False f2_rep (field2 debug64) /\
  (exists P, poly_of f2_rep (1 :: 1 :: 1 :: 1 :: nil)%Z P) /\
  (exists P, poly_of f2_rep (1 :: 1 :: nil)%Z P) /\
  returns (valuation (PolyEucl (field2 debug64)) (1 :: 1 :: 1 :: 1 :: nil)%Z (1 :: 1 :: nil)%Z)
    (3, (1 :: nil)%Z).
Proof.
split; first exact: f2_contract.
split; first exact: cube_of.
split; [exact: f2_line|by run 200%nat].
Qed.

(** In every Euclidean domain where products with y are larger than the other factor in some
    sense f. *)
Theorem C114_general : forall (cfg : Cfg) (p : Prop) (E : Type) (R : idomainType)
    (rep : E -> R -> Prop) (AS : assoc_struct R) (S : eucl_struct R) (A : EuclAlg E),
  eucl_alg_spec cfg p rep AS S A ->
  forall (y : E) (b : R) (f : R -> nat), rep y b -> (b != 0)%R ->
  (forall a : R, (a != 0)%R -> f a < f (a * b)%R) ->
  forall (x : E) (a : R), rep x a -> (a != 0)%R ->
  ensures p (valuation A x y) (fun s => exists2 c, rep s.2 c &
    a = (c * b ^+ s.1)%R /\ ~ dvds b c).
Proof. exact valuation_ok. Qed.
Print Assumptions C114_general.
(** The numbers add up for products if y is irreducible. *)
Theorem C114_product : forall (cfg : Cfg) (p : Prop) (E : Type) (R : idomainType)
    (rep : E -> R -> Prop) (AS : assoc_struct R) (S : eucl_struct R) (A : EuclAlg E),
  eucl_alg_spec cfg p rep AS S A ->
  forall (y : E) (b : R) (f : R -> nat), rep y b -> (b != 0)%R ->
  (forall a : R, (a != 0)%R -> f a < f (a * b)%R) ->
  forall (x1 : E) (a1 : R) (x2 : E) (a2 : R), irreducible_elt b ->
  rep x1 a1 -> rep x2 a2 -> (a1 != 0)%R -> (a2 != 0)%R ->
  ensures p (let! s := valuation A x1 y in let! t := valuation A x2 y in
             let! x := mul A x1 x2 in let! u := valuation A x y in ret (s.1, t.1, u.1))
    (fun r => r.2 = r.1.1 + r.1.2).
Proof. exact valuation_mul. Qed.
Print Assumptions C114_product.
(** 2 divides 12 twice, 40 three times and 480 five times. *)
Example C114_general_case :
  eucl_alg_spec debug64 False (R := [idomainType of Z]) zz_rep Z_assoc Z_eucl ZZ /\
  zz_rep 2%Z 2%Z /\
  (forall a : [idomainType of Z], (a != 0)%R -> Z.abs_nat a < Z.abs_nat (a * 2%Z)%R) /\
  returns (valuation ZZ 12 2)%Z (2, 3%Z).
Proof.
split; first exact: ZZ_ok.
split; first by [].
split; [exact: two_shrinks|by run 200%nat].
Qed.
Example C114_product_case :
  irreducible_elt (2%Z : [idomainType of Z]) /\
  returns (let! s := valuation ZZ 12 2 in let! t := valuation ZZ 40 2 in
           let! x := mul ZZ 12 40 in let! u := valuation ZZ x 2 in ret (s.1, t.1, u.1))%Z (2, 3, 5).
Proof. split; [exact: irr_2|by run 200%nat]. Qed.
