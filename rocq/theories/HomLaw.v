(** * HomLaw.v -- the laws of homomorphisms as statements about calls.

    As in Laws.v. The map [f] from the members [mem] of [A] to the elements of [B] may be a
    composition of calls. [fits n]: the multiplier n is an isize other than isize::MIN. *)

From Coq Require Import ZArith.
From mathcomp Require Import all_ssreflect.
From Verif Require Import Rust Traits MConstr Laws TimesLaw.

Set Implicit Arguments.
Unset Strict Implicit.
Unset Printing Implicit Defensive.

Section Laws.
Variables (cfg : Cfg) (p : Prop) (E W : Type) (mem : E -> Prop) (f : E -> M W).
Local Notation holds := (holds p).
Local Notation fits := (fits cfg).

Record ring_map (A : RingAlg E) (B : RingAlg W) : Prop := {
  rm_member : forall x, mem x -> holds (member B (f x));
  rm_congr : forall x y, mem x -> mem y -> holds (entails (equals A x y) (same B (f x) (f y)));
  rm_zero : holds (same B (let! o := zero A in f o) (zero B));
  rm_one : holds (same B (let! o := one A in f o) (one B));
  rm_add : forall x y, mem x -> mem y -> holds (same B
    (let! a := add A x y in f a) (let! a := f x in let! b := f y in add B a b));
  rm_sub : forall x y, mem x -> mem y -> holds (same B
    (let! a := sub A x y in f a) (let! a := f x in let! b := f y in sub B a b));
  rm_mul : forall x y, mem x -> mem y -> holds (same B
    (let! a := mul A x y in f a) (let! a := f x in let! b := f y in mul B a b));
  rm_neg : forall x, mem x -> holds (same B
    (let! a := neg A x in f a) (let! a := f x in neg B a));
  rm_double : forall x, mem x -> holds (same B
    (let! a := double A x in f a) (let! a := f x in double B a));
  rm_square : forall x, mem x -> holds (same B
    (let! a := square A x in f a) (let! a := f x in square B a));
  rm_times : forall n x, mem x -> fits n -> holds (same B
    (let! a := ztimes A n x in f a) (let! a := f x in ztimes B n a));
  rm_int : forall n, fits n -> holds (same B (let! a := int A n in f a) (int B n));
  rm_inverse : forall x, mem x -> holds (let! o := try_inv A x in
    if o is Some y then
      let! a := f x in let! q := try_inv B a in
      if q is Some z then same B (f y) (ret z) else ret false
    else ret true)
}.
(** Different elements have different images. *)
Definition one_to_one (A : RingAlg E) (B : RingAlg W) : Prop := forall x y, mem x -> mem y ->
  holds (agree (equals A x y) (same B (f x) (f y))).

Record field_map (A : FieldAlg E) (B : FieldAlg W) : Prop := {
  fm_ring : ring_map A B;
  fm_one_to_one : one_to_one A B;
  fm_is_zero : forall x, mem x -> holds (agree
    (is_zero A x) (let! a := f x in is_zero B a));
  fm_try_inv : forall x, mem x -> holds (let! o := try_inv A x in
    let! a := f x in let! q := try_inv B a in
    match o, q with
    | Some y, Some z => same B (f y) (ret z)
    | None, None => ret true
    | _, _ => ret false
    end);
  fm_inv : forall x, mem x -> returns (is_zero A x) false -> holds (same B
    (let! a := finv A x in f a) (let! a := f x in finv B a));
  fm_div : forall x y, mem x -> mem y -> returns (is_zero A y) false -> holds (same B
    (let! a := fdiv A x y in f a) (let! a := f x in let! b := f y in fdiv B a b));
  fm_power : forall n x, mem x -> returns (is_zero A x) false -> fits n -> holds (same B
    (let! a := fpower A n x in f a) (let! a := f x in fpower B n a))
}.
End Laws.

(** Two maps that undo each other. *)
Definition undoes (p : Prop) (E W : Type) (mem : E -> Prop) (f : E -> M W) (g : W -> M E)
    (A : Domain E) : Prop := forall x, mem x ->
  holds p (same A (let! a := f x in g a) (ret x)).

(** The maps of interest: from the residues (or all of [A]) to the residues modulo [m], from
    [A] to its fractions, from [A] to the polynomials over [A]; [A] with its base stand for
    any structure. *)
Definition to_residue E (A : EuclAlg E) (m x : E) : M E := rem A x m.
Definition to_fraction E (A : EuclAlg E) (x : E) : M (E * E) := let! o := one A in ret (x, o).
Definition to_constant E (A : RingAlg E) (x : E) : M (seq E) :=
  let! b := is_zero A x in ret (if b then [::] else [:: x]).
(** Between the two fields with two elements. *)
Definition bool_to_residue (b : bool) : M Z := ret (if b then 1%Z else 0%Z).
Definition residue_to_bool (x : Z) : M bool := ret (Z.eqb x 1).
