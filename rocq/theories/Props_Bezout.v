(** * Props_Bezout.v -- C56: the coefficients returned by extended_gcd are small.

    [small_bezout] and [short_bezout] (BezoutSpec.v) state the bounds. *)

From mathcomp Require Import all_ssreflect all_algebra zify ssrZ.
From Coq Require Import ZArith.
From Verif Require Import Rust Traits MInts MConstr Spec PropSpec NumSpec BezoutSpec.
From Verif Require Import PInts POrders PPoly PBezout Refuted.

Import GRing.Theory.
Local Open Scope ring_scope.

Theorem C56_ZZ : forall x y : Z, exists g s t,
  returns (extended_gcd ZZ x y) (g, s, t) /\ small_bezout x y g s t.
Proof. exact zz_small. Qed.
Print Assumptions C56_ZZ.
Theorem C56_CheckedInts : forall (cfg : Cfg) (w x y : Z),
  Z.le 4 w -> fits w x -> fits w y -> ~ min_by_m1 w x y ->
  exists g s t, returns (extended_gcd (CheckedInts cfg w) x y) (g, s, t) /\
    small_bezout x y g s t.
Proof. exact ci_small. Qed.
Print Assumptions C56_CheckedInts.
(** The bounds are attained: 2 |s| - 1 = |y|, |t| = |x| and 2 |t| = x. *)
Example C56_case cfg :
  [/\ returns (extended_gcd ZZ (-17)%Z (-19)%Z) (1, 10, -9)%Z,
      returns (extended_gcd ZZ (-1)%Z (-2)%Z) (1, 1, -1)%Z,
      returns (extended_gcd ZZ 2%Z 3%Z) (1, -1, 1)%Z,
      returns (extended_gcd ZZ 12%Z (-4)%Z) (-4, 0, 1)%Z &
      returns (extended_gcd (I8 cfg) (-128)%Z 127%Z) (1, -1, -1)%Z].
Proof. by split; run 20%nat. Qed.
Example C56_fits : [/\ fits 8 (-128)%Z, fits 8 127%Z & ~ min_by_m1 8 (-128)%Z 127%Z].
Proof. by split; rewrite /fits /min_by_m1; lia. Qed.

Theorem C56_poly : forall (cfg : Cfg) (p : Prop) (E : Type) (F : fieldType)
    (rep : E -> F -> Prop) (A : FieldAlg E), field_alg_spec cfg p rep A ->
  forall v (P : {poly F}) u Q, poly_rep rep v P -> poly_rep rep u Q ->
  ensures p (extended_gcd (PolyEucl A) v u) (fun z =>
    short_bezout v u z.1.1 z.1.2 z.2 /\
    exists d s t, [/\ poly_rep rep z.1.1 d, poly_rep rep z.1.2 s, poly_rep rep z.2 t,
      d = s * P + t * Q & is_gcd P Q d]).
Proof. exact poly_short. Qed.
Print Assumptions C56_poly.
(** Over two elements 1 = x (x^3 + x + 1) + (x + 1) (x^3 + x^2 + 1). *)
Example C56_poly_case cfg :
  field_alg_spec cfg False bb_rep BB /\
  returns (extended_gcd (PolyEucl BB) [:: true; true; false; true] [:: true; false; true; true])
    ([:: true], [:: false; true], [:: true; true]).
Proof. by split; [exact: BB_ok|run 20%nat]. Qed.
