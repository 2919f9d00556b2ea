(** * Props_Lagr.v -- C120: Lagrange interpolation and shared secrets. *)

From mathcomp Require Import all_ssreflect all_algebra ssrZ.
From Coq Require Import ZArith List.
From Verif Require Import Rust Traits MInts MConstr Spec PropSpec RingSpec.
From Verif Require Import PCases LagrSpec PLagr PLagrEx Refuted.

(** From the values of a polynomial at distinct points, more than its degree, the program
    [lagrange] of LagrSpec.v finds its value at any other point. *)
Theorem C120_value : forall (cfg : Cfg) (p : Prop) (E : Type) (F : fieldType)
    (rep : E -> F -> Prop) (A : FieldAlg E), field_alg_spec cfg p rep A ->
  forall (P : {poly F}) (points : list (E * E)) (xs : list F) (z : E) (u : F),
  Forall2 (fun c x => rep c.1 x /\ rep c.2 P.[x]%R) points xs -> uniq xs ->
  size P <= size xs -> rep z u ->
  gives p rep (lagrange A points z) P.[u]%R.
Proof. exact lagrange_ok. Qed.
Print Assumptions C120_value.
(** x^2 + 5 through (1, 6), (2, 9) and (3, 14) has the value 5 at 0. *)
Example C120_value_case :
  field_alg_spec debug64 False qq_rep (QQ debug64) /\
  (exists (P : {poly {fraction [idomainType of Z]}}) xs,
    [/\ Forall2 (fun c x => qq_rep c.1 x /\ qq_rep c.2 P.[x]%R)
          (((1, 1), (6, 1)) :: ((2, 1), (9, 1)) :: ((3, 1), (14, 1)) :: nil)%Z xs,
        uniq xs, size P <= size xs & qq_rep (0, 1)%Z 0%R]) /\
  returns (lagrange (QQ debug64)
    (((1, 1), (6, 1)) :: ((2, 1), (9, 1)) :: ((3, 1), (14, 1)) :: nil)%Z (0, 1)%Z) (5, 1)%Z.
Proof. split; [exact: qq_field|split; [exact square_points|by run 60%nat]]. Qed.
