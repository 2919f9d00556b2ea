(** * DiagSpec.v -- what it means that a map into a product is a homomorphism.

    [image f m mv]: the call [mv] does exactly what the call [m] does -- it returns,
    panics, or goes on for ever when [m] does -- and returns [f x] when [m] returns
    [x].  Nothing is assumed about the base structure: it need not be associative,
    its methods may panic, and so on. *)

From Coq Require Import ZArith.
From mathcomp Require Import all_ssreflect.
From Verif Require Import Rust Traits Laws.

Set Implicit Arguments.
Unset Strict Implicit.
Unset Printing Implicit Defensive.

Definition image {A B} (f : A -> B) (m : M A) (mv : M B) : Prop := forall k,
  mv k = match m k with
         | Done x => Done (f x)
         | Panicked => Panicked
         | Unfinished => Unfinished
         end.

(** The vector [w] lists the entries of the transposed matrix of [v], of size [n]. *)
Definition transposed {E} (n : nat) (v w : seq E) : Prop :=
  size w = n * n /\
  forall i j d, i < n -> j < n -> nth d w (i * n + j) = nth d v (j * n + i).

Section Diagonal.
Variables (E W : Type) (d : E -> W).

Definition image1 (f : E -> M E) (g : W -> M W) := forall x, image d (f x) (g (d x)).
Definition image2 (f : E -> E -> M E) (g : W -> W -> M W) :=
  forall x y, image d (f x y) (g (d x) (d y)).
(** Questions get the same answer. *)
Definition asks1 (f : E -> M bool) (g : W -> M bool) := forall x, image id (f x) (g (d x)).
Definition asks2 (f : E -> E -> M bool) (g : W -> W -> M bool) :=
  forall x y, image id (f x y) (g (d x) (d y)).

Record hom_domain (A : Domain E) (B : Domain W) : Prop := {
  hom_contains : asks1 (contains A) (contains B);
  hom_equals : asks2 (equals A) (equals B)
}.
Record hom_semigroup (A : Semigroup E) (B : Semigroup W) : Prop := {
  hom_mul : image2 (mul A) (mul B);
  hom_mul_assign : image2 (mul_assign A) (mul_assign B);
  hom_square : image1 (square A) (square B)
}.
Record hom_monoid (A : Monoid E) (B : Monoid W) : Prop := {
  hom_one : image d (one A) (one B);
  hom_is_one : asks1 (is_one A) (is_one B);
  hom_try_inv : forall x, image (omap d) (try_inv A x) (try_inv B (d x));
  hom_invertible : asks1 (invertible A) (invertible B)
}.
Record hom_cmonoid (A : CommMonoid E) (B : CommMonoid W) : Prop := {
  hom_zero : image d (zero A) (zero B);
  hom_is_zero : asks1 (is_zero A) (is_zero B);
  hom_add : image2 (add A) (add B);
  hom_add_assign : image2 (add_assign A) (add_assign B);
  hom_double : image1 (double A) (double B)
}.
Record hom_abelian (A : AbelianGroup E) (B : AbelianGroup W) : Prop := {
  hom_neg : image1 (neg A) (neg B);
  hom_neg_assign : image1 (neg_assign A) (neg_assign B);
  hom_sub : image2 (sub A) (sub B);
  hom_sub_assign : image2 (sub_assign A) (sub_assign B)
}.
Record hom_order (A : PartialOrder E) (B : PartialOrder W) : Prop := {
  hom_leq : asks2 (leq A) (leq B)
}.
Record hom_lattice (A : Lattice E) (B : Lattice W) : Prop := {
  hom_meet : image2 (meet A) (meet B);
  hom_join : image2 (join A) (join B)
}.
Record hom_bounded (A : BoundedOrder E) (B : BoundedOrder W) : Prop := {
  hom_max : image d (omax A) (omax B);
  hom_min : image d (omin A) (omin B)
}.
End Diagonal.

(** ** Transposition, as a map [t] that may panic *)
Section Transpose.
Variables (cfg : Cfg) (p : Prop) (W : Type) (mem : W -> Prop) (B : RingAlg W) (t : W -> M W).

Record anti_automorphism : Prop := {
  anti_member : forall x, mem x -> holds p (member B (t x));
  anti_twice : forall x, mem x -> holds p (same B (let! a := t x in t a) (ret x));
  anti_mul : forall x y, mem x -> mem y -> holds p (same B
    (let! a := mul B x y in t a)
    (let! a := t y in let! b := t x in mul B a b));
  anti_one : holds p (same B (let! a := one B in t a) (one B));
  anti_zero : holds p (same B (let! a := zero B in t a) (zero B));
  anti_int : forall n, is_isize cfg n -> n <> imin (ptr_bits cfg) ->
    holds p (same B (let! a := int B n in t a) (int B n));
  anti_add : forall x y, mem x -> mem y -> holds p (same B
    (let! a := add B x y in t a)
    (let! a := t x in let! b := t y in add B a b));
  anti_sub : forall x y, mem x -> mem y -> holds p (same B
    (let! a := sub B x y in t a)
    (let! a := t x in let! b := t y in sub B a b));
  anti_neg : forall x, mem x -> holds p (same B
    (let! a := neg B x in t a) (let! a := t x in neg B a));
  anti_invertible : forall x, mem x -> holds p (agree
    (invertible B x) (let! a := t x in invertible B a));
  anti_inverse : forall x, mem x -> holds p (
    let! o := try_inv B x in
    let! a := t x in
    let! q := try_inv B a in
    match o, q with
    | Some y, Some z => same B (t y) (ret z)
    | None, None => ret true
    | _, _ => ret false
    end)
}.
End Transpose.
