(** * Props_Cong.v -- C119: simultaneous congruences. *)

From mathcomp Require Import all_ssreflect all_algebra ssrZ.
From Coq Require Import ZArith List.
From Verif Require Import Rust Traits MInts MConstr Spec PropSpec RingSpec Quotient.
From Verif Require Import PInts PIntsZ PIrrEx CongSpec PCong Refuted.

(** For a list of pairs (n, a) with n not zero, the program [congruences] of CongSpec.v
    returns a modulus m and a reduced element x such that the common solutions of
    y = a (mod n) are the solutions of y = x (mod m); it returns None only when there is no
    common solution. *)
Theorem C119_congruences : forall (cfg : Cfg) (p : Prop) (E : Type) (R : idomainType)
    (rep : E -> R -> Prop) (AS : assoc_struct R) (S : eucl_struct R) (A : EuclAlg E),
  eucl_alg_spec cfg p rep AS S A ->
  forall (l : list (E * E)) (s : list (R * R)),
  Forall2 (fun c w => rep c.1 w.1 /\ rep c.2 w.2) l s -> all (fun w => w.1 != 0)%R s ->
  ensures p (congruences A l) (fun o =>
    if o is Some c then exists w, [/\ rep c.1 w.1 /\ rep c.2 w.2, (w.1 != 0)%R,
      erem S w.2 w.1 = w.2 &
      forall y, (forall w', In w' s -> dvds w'.1 (y - w'.2)%R) <-> dvds w.1 (y - w.2)%R]
    else forall y, ~ (forall w', In w' s -> dvds w'.1 (y - w'.2)%R)).
Proof. exact congruences_ok. Qed.
Print Assumptions C119_congruences.
(** y = 3 (mod 4), y = 5 (mod 6) and y = 2 (mod 9) have the solutions 11 (mod 36); y = 3
    (mod 4) and y = 4 (mod 6) have none. Over GF(2), y = 1 (mod x^2) and y = x (mod 1 + x). *)
Example C119_congruences_case :
  eucl_alg_spec debug64 False (R := [idomainType of Z]) zz_rep Z_assoc Z_eucl ZZ /\
  Forall2 (fun c w => zz_rep c.1 w.1 /\ zz_rep c.2 w.2)
    ((4, 3) :: (6, 5) :: (9, 2) :: nil)%Z ((4, 3) :: (6, 5) :: (9, 2) :: nil)%Z /\
  all (fun w : Z * Z => w.1 != 0%Z) ((4, 3) :: (6, 5) :: (9, 2) :: nil)%Z /\
  returns (congruences ZZ ((4, 3) :: (6, 5) :: (9, 2) :: nil)%Z) (Some (36, 11)%Z) /\
  returns (congruences ZZ ((4, 3) :: (6, 4) :: nil)%Z) None /\
  returns (congruences (PolyEucl (field2 debug64))
    ((0 :: 0 :: 1 :: nil, 1 :: nil) :: (1 :: 1 :: nil, 0 :: 1 :: nil) :: nil)%Z)
    (Some (0 :: 0 :: 1 :: 1 :: nil, 1 :: nil)%Z).
Proof.
split; first exact: ZZ_ok.
split; first by repeat constructor.
by split=> //; split; last split; run 300%nat.
Qed.
