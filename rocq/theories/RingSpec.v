(** * RingSpec.v -- the methods of a ring, one at a time; used for polynomials,
    matrices and vectors.

    [rep x u] reads "the value [x] is a member denoting [u]", where [u] is an
    element of a ring of the mathcomp library; [p] says whether panicking is
    acceptable. *)

From Coq Require Import ZArith List.
From mathcomp Require Import all_ssreflect all_algebra all_fingroup.
From Verif Require Import Rust Traits Spec.

Set Implicit Arguments.
Unset Strict Implicit.
Unset Printing Implicit Defensive.

Import GRing.Theory.
Local Open Scope ring_scope.

Section Group.
Variables (p : Prop) (E : Type) (V : zmodType) (rep : E -> V -> Prop) (cfg : Cfg).
Local Notation gives c u := (ensures p c (fun z => rep z u)).

(** The additive methods. [good_isize] leaves out isize::MIN. *)
Definition group_methods (A : AbelianAlg E) : Prop :=
  gives (zero A) 0 /\
  (forall x u, rep x u ->
   [/\ gives (neg A x) (- u), gives (neg_assign A x) (- u), gives (double A x) (u + u) &
       answers p (contains A x) true] /\
   answers p (is_zero A x) (u == 0) /\
   (forall n, Z.le 0 n -> gives (ntimes A n x) (u *+ Z.to_nat n)) /\
   (forall n, good_isize cfg n -> gives (ztimes A n x)
      match n with
      | Z0 => 0 | Zpos k => u *+ Pos.to_nat k | Zneg k => - (u *+ Pos.to_nat k)
      end)) /\
  (forall x u y v, rep x u -> rep y v ->
   [/\ gives (add A x y) (u + v), gives (sub A x y) (u - v),
       gives (add_assign A x y) (u + v), gives (sub_assign A x y) (u - v) &
       answers p (equals A x y) (u == v)]).
End Group.

Section Ring.
(** The multiplication and its unit are explicit, because the matrices of size
    zero and the vectors of length zero form the trivial ring, which is no ring
    in the library's sense. *)
Variables (p : Prop) (E : Type) (V : zmodType) (rep : E -> V -> Prop) (cfg : Cfg).
Variables (op : V -> V -> V) (e : V).
Local Notation gives c u := (ensures p c (fun z => rep z u)).

(** The methods of a ring. *)
Definition ring_methods (A : RingAlg E) : Prop :=
  group_methods p rep cfg (ring_abelian A) /\
  gives (one A) e /\
  (forall n, good_isize cfg n -> gives (int A n)
     match n with
     | Z0 => 0 | Zpos k => e *+ Pos.to_nat k | Zneg k => - (e *+ Pos.to_nat k)
     end) /\
  (forall x u, rep x u ->
   [/\ gives (square A x) (op u u), answers p (is_one A x) (u == e),
       ensures p (try_inv A x) (fun o =>
         match o with
         | Some y => exists v, [/\ rep y v, op u v = e & op v u = e]
         | None => forall v, ~ (op u v = e /\ op v u = e)
         end) &
       decides p (invertible A x) (exists v, op u v = e /\ op v u = e)]) /\
  (forall x u y v, rep x u -> rep y v ->
   gives (mul A x y) (op u v) /\ gives (mul_assign A x y) (op u v)).
End Ring.

(** A vector listing the coefficients of a polynomial up to the leading one. *)
Definition poly_of (E : Type) (R : ringType) (rep : E -> R -> Prop) (v : seq E)
    (P : {poly R}) : Prop := Forall2 rep v (polyseq P).

(** A vector of length [n] listing the values of a function. *)
Definition vector_of (n : nat) (E : Type) (V : eqType) (rep : E -> V -> Prop)
    (v : seq E) (f : {ffun 'I_n -> V}) : Prop :=
  Forall2 rep v [seq f i | i <- enum 'I_n].

(** A vector of length [n * n] listing the entries of a matrix row by row. *)
Definition matrix_of (n : nat) (E : Type) (R : ringType) (rep : E -> R -> Prop)
    (v : seq E) (N : 'M[R]_n) : Prop :=
  exists r, [/\ Forall2 rep v r, size r = (n * n)%N &
    forall i j : 'I_n, N i j = r`_(i * n + j)].

(** The permutation sending [i] to the [i]-th entry of the vector, counted from zero. *)
Definition permutation_of (n : nat) (v : seq nat) (s : {perm 'I_n}) : Prop :=
  size v = n /\ forall i : 'I_n, nth 0%N v i = s i.

(** The methods panic if an argument does not have length [len], and [contains]
    returns false. *)
Section Lengths.
Variables (E : Type) (len : nat).
Definition bad_length (v : seq E) : Prop := size v <> len.

Definition checks_domain (A : Domain (seq E)) : Prop :=
  (forall v, bad_length v -> returns (contains A v) false) /\
  (forall v u, bad_length v \/ bad_length u -> panics (equals A v u)).
Definition checks_additive (C : CommMonoid (seq E)) (A : AbelianGroup (seq E)) : Prop :=
  (forall v, bad_length v ->
   [/\ panics (is_zero C v), panics (double C v), panics (neg A v) & panics (neg_assign A v)]) /\
  (forall v u, bad_length v \/ bad_length u ->
   [/\ panics (add C v u), panics (add_assign C v u), panics (sub A v u) &
       panics (sub_assign A v u)]).
Definition checks_mult (S : Semigroup (seq E)) : Prop :=
  (forall v, bad_length v -> panics (square S v)) /\
  (forall v u, bad_length v \/ bad_length u -> panics (mul S v u) /\ panics (mul_assign S v u)).
Definition checks_monoid (O : Monoid (seq E)) : Prop :=
  forall v, bad_length v ->
   [/\ panics (is_one O v), panics (try_inv O v) & panics (invertible O v)].
Definition checks_lattice (O : PartialOrder (seq E)) (L : Lattice (seq E)) : Prop :=
  forall v u, bad_length v \/ bad_length u ->
   [/\ panics (leq O v u), panics (less_than O v u), panics (comparable O v u),
       panics (meet L v u) & panics (join L v u)].
End Lengths.
