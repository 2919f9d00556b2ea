(** * ResidueSpec.v -- residues of polynomials in coordinates: quadratic extensions,
    truncated power series, cyclic convolutions and derivatives, by their textbook
    formulas. *)

From Coq Require Import ZArith List.
From mathcomp Require Import all_ssreflect all_algebra.
From Verif Require Import Rust Traits Spec RingSpec HomLaw EvalLaw.

Set Implicit Arguments.
Unset Strict Implicit.
Unset Printing Implicit Defensive.

Import GRing.Theory.
Local Open Scope ring_scope.

(** The polynomial a + b x. *)
Definition line (F : fieldType) (a b : F) : {poly F} := a%:P + b%:P * 'X.
(** The polynomial x^2 + s x + t. *)
Definition quad (F : fieldType) (s t : F) : {poly F} := 'X^2 + s%:P * 'X + t%:P.

Section Residues.
Variables (p : Prop) (E : Type) (F : fieldType) (rep : E -> F -> Prop).
Local Notation lists := (poly_of rep).
(** The call returns the list of the coefficients of [P]. *)
Local Notation computes c P := (ensures p c (fun z => lists z P)).

(** Modulo x^2 + s x + t.  The norm of a + b x is the product with its conjugate. *)
Definition quad_norm (s t a b : F) : F := a * a - s * (a * b) + t * (b * b).
Record quadratic_laws (s t : F) (K : FieldAlg (seq E)) : Prop := {
  qu_mul : forall x a b y c d, lists x (line a b) -> lists y (line c d) ->
    computes (mul K x y) (line (a * c - t * (b * d)) (a * d + b * c - s * (b * d)));
  qu_inv : forall x a b, lists x (line a b) -> quad_norm s t a b <> 0 ->
    computes (finv K x)
      (line ((a - s * b) / quad_norm s t a b) (- b / quad_norm s t a b));
  qu_panic : forall x a b, lists x (line a b) -> quad_norm s t a b = 0 -> panics (finv K x);
  qu_div : forall x a b y c d, lists x (line a b) -> lists y (line c d) -> quad_norm s t c d <> 0 ->
    computes (fdiv K x y)
      (line ((a * (c - s * d) + t * (b * d)) / quad_norm s t c d)
            ((b * c - a * d) / quad_norm s t c d));
  qu_div_panic : forall x a b y c d, lists x (line a b) -> lists y (line c d) ->
    quad_norm s t c d = 0 -> panics (fdiv K x y);
  (** The norm is zero for zero only, unless the modulus has a root. *)
  qu_norm : (forall r, r * r + s * r + t <> 0) -> forall a b, quad_norm s t a b = 0 ->
    a = 0 /\ b = 0
}.

(** The same with QuotientRing. *)
Record quadratic_ring_laws (s t : F) (K : RingAlg (seq E)) : Prop := {
  qr_mul : forall x a b y c d, lists x (line a b) -> lists y (line c d) ->
    computes (mul K x y) (line (a * c - t * (b * d)) (a * d + b * c - s * (b * d)));
  qr_inv : forall x a b, lists x (line a b) -> ensures p (try_inv K x) (fun o =>
    if o is Some z then quad_norm s t a b <> 0 /\
      lists z (line ((a - s * b) / quad_norm s t a b) (- b / quad_norm s t a b))
    else quad_norm s t a b = 0)
}.

(** Modulo x^n: power series up to the term x^(n-1).  The arguments may be longer. *)
Definition series_inverse (n : nat) (P Q : {poly F}) : Prop :=
  [/\ (size Q <= n)%N, Q`_0 = (P`_0)^-1 &
      forall k, (0 < k < n)%N -> Q`_k = - (\sum_(i < k) P`_(k - i) * Q`_i) / P`_0].
Record series_laws (n : nat) (K : RingAlg (seq E)) : Prop := {
  se_add : forall x P y Q, lists x P -> lists y Q ->
    computes (add K x y) (\poly_(k < n) (P`_k + Q`_k));
  se_mul : forall x P y Q, lists x P -> lists y Q ->
    computes (mul K x y) (\poly_(k < n) \sum_(i < k.+1) P`_i * Q`_(k - i));
  se_inv : forall x P, lists x P -> ensures p (try_inv K x) (fun o =>
    if o is Some z then P`_0 <> 0 /\ exists2 Q, lists z Q & series_inverse n P Q
    else P`_0 = 0);
  se_invertible : forall x P, lists x P -> decides p (invertible K x) (P`_0 <> 0)
}.

(** Modulo x^n - 1: multiplication is cyclic convolution. *)
Definition cyclic_law (n : nat) (K : RingAlg (seq E)) : Prop :=
  forall x P y Q, lists x P -> lists y Q -> (size P <= n)%N -> (size Q <= n)%N ->
    computes (mul K x y) (\poly_(k < n) \sum_(i < n) P`_i * Q`_((k + (n - i)) %% n)).

(** Modulo x^2: Horner's rule at a + b x gives the value and the derivative at a. *)
Definition derivative_law (A : FieldAlg E) (K : RingAlg (seq E)) : Prop :=
  forall v P x a b, lists v P -> lists x (line a b) ->
    computes (let! u := mapM (to_constant A) v in value K u x)
      (line P.[a] (P^`().[a] * b)).
End Residues.
