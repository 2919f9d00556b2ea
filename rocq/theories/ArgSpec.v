(** * ArgSpec.v -- what the methods of quotients and fractions return for arguments
    that are not in normal form: any member of the base as a representative of its
    class, any pair with non-zero denominator as a fraction. *)

From Coq Require Import ZArith.
From mathcomp Require Import all_ssreflect all_algebra.
From Verif Require Import Rust Traits Spec PropSpec.

Set Implicit Arguments.
Unset Strict Implicit.
Unset Printing Implicit Defensive.

Import GRing.Theory.
Local Open Scope ring_scope.

Section Residues.
Variables (p : Prop) (E : Type) (R : idomainType) (S : eucl_struct R).
Variables (m : R) (rep : E -> R -> Prop) (cfg : Cfg).
Local Notation mgives := (mod_gives p S m rep).
Local Notation res := (residue_of S m rep).

(** The ring methods reduce whatever they are given. *)
Definition quotient_args_correct (A : RingAlg E) : Prop :=
  forall x a y b, rep x a -> rep y b ->
  [/\ mgives (add A x y) (a + b), mgives (sub A x y) (a - b) & mgives (mul A x y) (a * b)] /\
  [/\ mgives (add_assign A x y) (a + b), mgives (sub_assign A x y) (a - b) &
      mgives (mul_assign A x y) (a * b)] /\
  [/\ mgives (neg A x) (- a), mgives (neg_assign A x) (- a),
      mgives (double A x) (a + a) & mgives (square A x) (a * a)] /\
  (forall n, Z.le 0 n -> mgives (ntimes A n x) (a *+ Z.to_nat n)) /\
  (forall n, good_isize cfg n -> mgives (ztimes A n x) (zmul a n)).

(** [y] is the inverse modulo [m] of every representative with value [a]. *)
Definition inverse_mod (a : R) (y : E) : Prop :=
  exists2 b, res y b & congruent m (a * b) 1.
Definition has_inverse (a : R) : Prop := exists b, congruent m (a * b) 1.

(** [try_inv] of QuotientRing. *)
Definition quotient_try_inv_args (A : Monoid E) : Prop :=
  forall x a, rep x a ->
  ensures p (try_inv A x) (fun o =>
    if o is Some y then inverse_mod a y else ~ has_inverse a) /\
  decides p (invertible A x) (has_inverse a).

(** The field methods, for any modulus that is neither zero nor a unit: exactly the
    elements with an inverse can be inverted, the others make the call panic;
    except that [try_inv] answers None for the zero of the base.  [invertible] only
    looks whether the argument is the zero of the base. *)
Definition quotient_field_args (A : FieldAlg E) : Prop :=
  forall x a y b, rep x a -> rep y b ->
  (has_inverse a -> ensures p (finv A x) (inverse_mod a)) /\
  (~ has_inverse a -> panics (finv A x)) /\
  (has_inverse b -> ensures p (fdiv A x y) (fun z =>
     exists2 c, res z c & congruent m (c * b) a)) /\
  (~ has_inverse b -> panics (fdiv A x y)) /\
  (has_inverse a -> ensures p (try_inv A x) (fun o =>
     if o is Some y then inverse_mod a y else False)) /\
  (a = 0 -> ensures p (try_inv A x) (fun o => o = None)) /\
  (a <> 0 -> ~ has_inverse a -> panics (try_inv A x)) /\
  decides p (invertible A x) (a <> 0) /\
  (a <> 0 -> forall n, good_isize cfg n ->
     match n with
     | Z0 => mgives (fpower A n x) 1
     | Zpos k => mgives (fpower A n x) (a ^+ Pos.to_nat k)
     | Zneg k =>
         (has_inverse a -> ensures p (fpower A n x) (fun z =>
            exists2 c, res z c & congruent m (c * a ^+ Pos.to_nat k) 1)) /\
         (~ has_inverse a -> panics (fpower A n x))
     end).
End Residues.

Section Fractions.
Variables (p : Prop) (E : Type) (R : idomainType) (AS : assoc_struct R).
Variables (rep : E -> R -> Prop) (cfg : Cfg).
Local Notation fgives := (frac_gives p AS rep).

(** The pair [x] is a ratio [a/b], possibly not in lowest terms. *)
Definition ratio_of (x : E * E) (a b : R) : Prop := [/\ rep x.1 a, rep x.2 b & b <> 0].
(** The call returns some ratio equal to [n/d]. *)
Definition ratio_gives (c : M (E * E)) (n d : R) : Prop :=
  ensures p c (fun z => exists a b, ratio_of z a b /\ a * d = n * b).

(** [reduce]: the normal form of a ratio; a panic for a zero denominator. *)
Definition reduce_correct (reduce : E * E -> M (E * E)) : Prop :=
  (forall x a b, ratio_of x a b -> fgives (reduce x) a b) /\
  (forall x a, rep x.1 a -> rep x.2 0 -> panics (reduce x)).

(** The methods that reduce whatever they are given, the two that do not ([neg],
    [inv]), and the panics. *)
Definition fractions_args_correct (A : FieldAlg (E * E)) : Prop :=
  forall x a b y c d, ratio_of x a b -> ratio_of y c d ->
  [/\ fgives (add A x y) (a * d + c * b) (b * d),
      fgives (sub A x y) (a * d - c * b) (b * d) &
      fgives (mul A x y) (a * c) (b * d)] /\
  [/\ fgives (add_assign A x y) (a * d + c * b) (b * d),
      fgives (sub_assign A x y) (a * d - c * b) (b * d) &
      fgives (mul_assign A x y) (a * c) (b * d)] /\
  [/\ fgives (double A x) (a + a) b, fgives (square A x) (a * a) (b * b),
      ratio_gives (neg A x) (- a) b & ratio_gives (neg_assign A x) (- a) b] /\
  (forall n, Z.le 0 n -> fgives (ntimes A n x) (a *+ Z.to_nat n) b) /\
  (forall n, good_isize cfg n -> fgives (ztimes A n x) (zmul a n) b) /\
  [/\ a <> 0 -> ratio_gives (finv A x) b a, a = 0 -> panics (finv A x),
      c <> 0 -> fgives (fdiv A x y) (a * d) (b * c) & c = 0 -> panics (fdiv A x y)] /\
  ensures p (try_inv A x) (fun o =>
    if o is Some y then a <> 0 /\ exists e f, fraction_of AS rep y e f /\ a * e = b * f
    else a = 0) /\
  decides p (invertible A x) (a <> 0) /\
  (a <> 0 -> forall n, good_isize cfg n ->
     match n with
     | Z0 => fgives (fpower A n x) 1 1
     | Zpos k => fgives (fpower A n x) (a ^+ Pos.to_nat k) (b ^+ Pos.to_nat k)
     | Zneg k => fgives (fpower A n x) (b ^+ Pos.to_nat k) (a ^+ Pos.to_nat k)
     end).
End Fractions.
