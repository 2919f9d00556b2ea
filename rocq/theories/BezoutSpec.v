(** * BezoutSpec.v -- how large the coefficients of extended_gcd are. *)

From Coq Require Import ZArith.
From mathcomp Require Import all_ssreflect.
From Verif Require Import Rust.

Set Implicit Arguments.
Unset Strict Implicit.
Unset Printing Implicit Defensive.

(** The answer (g, s, t) of the extended Euclidean algorithm for the integers x and y:
    the coefficients are fixed if y is zero or divides x.  Otherwise s is about half of
    y / g and t is at most x / g; both halves are exact for non-negative arguments. *)
Record small_bezout (x y g s t : Z) : Prop := {
  sb_bezout : (g = s * x + t * y)%Z;
  sb_gcd : (Z.abs g = Z.gcd x y)%Z;
  sb_zero : y = 0%Z -> [/\ g = x, s = 1%Z & t = 0%Z];
  sb_divides : y <> 0%Z -> Z.divide y x -> [/\ g = y, s = 0%Z & t = 1%Z];
  sb_general : y <> 0%Z -> ~ Z.divide y x ->
    (0 < g /\ (2 * Z.abs s - 1) * g <= Z.abs y /\ Z.abs t * g <= Z.abs x)%Z;
  sb_positive : (0 < y)%Z -> ~ Z.divide y x ->
    (2 * Z.abs s * g <= y /\ (2 * Z.abs t - 1) * g <= Z.abs x /\
     (0 <= x -> 2 * Z.abs t * g <= x))%Z
}.

(** The same for polynomials, as vectors of coefficients: the lengths.  (The greatest
    common divisor is as long as u exactly if u divides v.) *)
Record short_bezout {E} (v u g s t : seq E) : Prop := {
  sh_zero : size u = 0 -> [/\ size g = size v, size s = 1 & size t = 0];
  sh_divides : 0 < size u -> size g = size u -> size s = 0 /\ size t = 1;
  sh_general : 0 < size u -> size g <> size u ->
    [/\ 0 < size g, size s + size g <= size u & size t + size g <= size v]
}.
