(** * PropSpec.v -- what it means for a method to be correct, one method at a
    time; used by the statements of the property files.

    As in Spec.v, [rep x a] reads "the value [x] is a member denoting [a]", and
    [p] says whether panicking is acceptable. *)

From Coq Require Import ZArith.
From mathcomp Require Import all_ssreflect all_algebra.
From Verif Require Import Rust Traits Spec.

Set Implicit Arguments.
Unset Strict Implicit.
Unset Printing Implicit Defensive.

Import GRing.Theory.
Local Open Scope ring_scope.

Section Correct.
Variables (p : Prop) (E : Type) (R : idomainType) (rep : E -> R -> Prop).

(** A common divisor that every common divisor divides; zero for two zeros. *)
Definition gcd_correct (gcd : E -> E -> M E) : Prop :=
  (forall x a y b, rep x a -> rep y b -> ensures p (gcd x y)
    (fun z => exists2 d, rep z d &
       [/\ dvds d a, dvds d b & forall c, dvds c a -> dvds c b -> dvds c d])) /\
  (forall x y, rep x 0 -> rep y 0 -> ensures p (gcd x y) (fun z => rep z 0)).

(** A greatest common divisor with its coefficients. *)
Definition extended_gcd_correct (egcd : E -> E -> M (E * E * E)) : Prop :=
  forall x a y b, rep x a -> rep y b -> ensures p (egcd x y)
    (fun z => exists d s t, [/\ rep z.1.1 d, rep z.1.2 s, rep z.2 t,
       d = s * a + t * b & is_gcd a b d]).

(** A common multiple that divides every common multiple; zero exactly if one of
    the arguments is. *)
Definition lcm_correct (lcm : E -> E -> M E) : Prop :=
  forall x a y b, rep x a -> rep y b -> ensures p (lcm x y)
    (fun z => exists2 m, rep z m &
       [/\ dvds a m, dvds b m, forall c, dvds a c -> dvds b c -> dvds m c &
           m = 0 <-> a = 0 \/ b = 0]).

(** True exactly if 1 is a linear combination. *)
Definition relative_primes_correct (rp : E -> E -> M bool) : Prop :=
  forall x a y b, rep x a -> rep y b ->
    ensures p (rp x y) (fun r => r <-> exists s t, s * a + t * b = 1).

(** [repr x] is an associate of [x], the same one for all associates of [x];
    [coef x] is the unit leading from [x] to it, and there is none for zero. *)
Definition associates_correct (I : IntegralDomain E) : Prop :=
  [/\ forall x a, rep x a -> ensures p (associate_repr I x)
        (fun y => exists2 b, rep y b & dvds a b /\ dvds b a),
      forall x a y b, rep x a -> rep y b ->
        ensures p (let! u := associate_repr I x in
                   let! v := associate_repr I y in ret (u, v))
        (fun z => exists c d, [/\ rep z.1 c, rep z.2 d &
           c = d <-> dvds a b /\ dvds b a]),
      forall x a y b, rep x a -> rep y b -> ensures p (associates I x y)
        (fun r => r <-> dvds a b /\ dvds b a),
      forall x a, rep x a -> a <> 0 ->
        ensures p (let! u := associate_repr I x in
                   let! v := associate_coef I x in ret (u, v))
        (fun z => exists b c, [/\ rep z.1 b, rep z.2 c, b = c * a &
           exists d, d * c = 1]) &
      forall x, rep x 0 -> panics (associate_coef I x)].
End Correct.

(** ** Residues modulo an element of a Euclidean domain *)
Section Residues.
Variables (p : Prop) (E : Type) (R : idomainType) (S : eucl_struct R).
Variables (m : R) (rep : E -> R -> Prop).

(** [x] is a canonical remainder, with value [a]. *)
Definition residue_of (x : E) (a : R) : Prop := rep x a /\ erem S a m = a.
(** [b - a] is a multiple of [m]. *)
Definition congruent (a b : R) : Prop := dvds m (b - a).
(** The call returns the canonical remainder congruent to [v]. *)
Definition mod_gives (c : M E) (v : R) : Prop :=
  ensures p c (fun z => exists2 a, residue_of z a & congruent a v).

Variable cfg : Cfg.
Local Notation mgives := mod_gives.

(** Every ring method computes modulo [m] on canonical remainders. *)
Definition quotient_ring_correct (A : RingAlg E) : Prop :=
  [/\ mgives (zero A) 0, mgives (one A) 1 &
      forall n, good_isize cfg n -> mgives (int A n) (zmul 1 n)] /\
  (forall x a y b, residue_of x a -> residue_of y b ->
   [/\ mgives (add A x y) (a + b), mgives (sub A x y) (a - b) & mgives (mul A x y) (a * b)] /\
   [/\ mgives (add_assign A x y) (a + b), mgives (sub_assign A x y) (a - b) &
       mgives (mul_assign A x y) (a * b)] /\
   [/\ mgives (neg A x) (- a), mgives (neg_assign A x) (- a),
       mgives (double A x) (a + a) & mgives (square A x) (a * a)] /\
   (forall n, Z.le 0 n -> mgives (ntimes A n x) (a *+ Z.to_nat n)) /\
   (forall n, good_isize cfg n -> mgives (ztimes A n x) (zmul a n)) /\
   [/\ answers p (contains A x) true,
       decides p (equals A x y) (congruent a b),
       decides p (is_zero A x) (congruent a 0) &
       decides p (is_one A x) (congruent a 1)]).

(** [try_inv] finds an inverse modulo [m] exactly if there is one. *)
Definition quotient_try_inv_correct (A : Monoid E) : Prop :=
  forall x a, residue_of x a ->
  ensures p (try_inv A x) (fun o =>
    match o with
    | Some y => exists2 b, residue_of y b & congruent (a * b) 1
    | None => forall b, ~ congruent (a * b) 1
    end) /\
  decides p (invertible A x) (exists b, congruent (a * b) 1).

(** The field methods; inverting zero and dividing by zero panics. *)
Definition quotient_field_correct (A : Field E) : Prop :=
  forall x a y b, residue_of x a -> residue_of y b ->
  (~ dvds m a -> ensures p (finv A x) (fun z =>
     exists2 c, residue_of z c & congruent (a * c) 1)) /\
  (dvds m a -> panics (finv A x)) /\
  (~ dvds m b -> ensures p (fdiv A x y) (fun z =>
     exists2 c, residue_of z c & congruent (c * b) a)) /\
  (dvds m b -> panics (fdiv A x y)) /\
  (~ dvds m a -> forall n, good_isize cfg n ->
     ensures p (fpower A n x) (fun z => exists2 c, residue_of z c &
       match n with
       | Z0 => congruent c 1
       | Zpos k => congruent c (a ^+ Pos.to_nat k)
       | Zneg k => congruent (c * a ^+ Pos.to_nat k) 1
       end)).
End Residues.

(** ** Fractions in lowest terms *)
Section Fractions.
Variables (p : Prop) (E : Type) (R : idomainType) (AS : assoc_struct R).
Variable rep : E -> R -> Prop.

(** The pair [x] is the fraction [a/b] in lowest terms; [b] is the representative
    of its associates. *)
Definition fraction_of (x : E * E) (a b : R) : Prop :=
  [/\ rep x.1 a, rep x.2 b, b <> 0, arep AS b = b & coprime_to a b].
(** The call returns the fraction [n/d] in lowest terms. *)
Definition frac_gives (c : M (E * E)) (n d : R) : Prop :=
  ensures p c (fun z => exists a b, fraction_of z a b /\ a * d = n * b).

Variable cfg : Cfg.
(** Every method computes with fractions. *)
Definition fractions_correct (A : FieldAlg (E * E)) : Prop :=
  [/\ frac_gives (zero A) 0 1, frac_gives (one A) 1 1 &
      forall n, good_isize cfg n -> frac_gives (int A n) (zmul 1 n) 1] /\
  (forall x a b y c d, fraction_of x a b -> fraction_of y c d ->
   [/\ frac_gives (add A x y) (a * d + c * b) (b * d),
       frac_gives (sub A x y) (a * d - c * b) (b * d) &
       frac_gives (mul A x y) (a * c) (b * d)] /\
   [/\ frac_gives (add_assign A x y) (a * d + c * b) (b * d),
       frac_gives (sub_assign A x y) (a * d - c * b) (b * d) &
       frac_gives (mul_assign A x y) (a * c) (b * d)] /\
   [/\ frac_gives (neg A x) (- a) b, frac_gives (neg_assign A x) (- a) b,
       frac_gives (double A x) (a + a) b & frac_gives (square A x) (a * a) (b * b)] /\
   (forall n, Z.le 0 n -> frac_gives (ntimes A n x) (a *+ Z.to_nat n) b) /\
   (forall n, good_isize cfg n -> frac_gives (ztimes A n x) (zmul a n) b) /\
   [/\ answers p (contains A x) true,
       decides p (equals A x y) (a * d = c * b),
       decides p (is_zero A x) (a = 0) &
       decides p (is_one A x) (a = b)] /\
   (a <> 0 -> frac_gives (finv A x) b a) /\
   (a = 0 -> panics (finv A x)) /\
   (c <> 0 -> frac_gives (fdiv A x y) (a * d) (b * c)) /\
   (c = 0 -> panics (fdiv A x y)) /\
   (a <> 0 -> forall n, good_isize cfg n ->
      match n with
      | Z0 => frac_gives (fpower A n x) 1 1
      | Zpos k => frac_gives (fpower A n x) (a ^+ Pos.to_nat k) (b ^+ Pos.to_nat k)
      | Zneg k => frac_gives (fpower A n x) (b ^+ Pos.to_nat k) (a ^+ Pos.to_nat k)
      end) /\
   ensures p (try_inv A x) (fun o =>
     match o with
     | Some y => a <> 0 /\ exists e f, fraction_of y e f /\ a * e = b * f
     | None => a = 0
     end) /\
   decides p (invertible A x) (a <> 0)).
End Fractions.
