(** * EvalLaw.v -- values and roots of polynomials, as statements about calls.

    The library has no method for evaluation; [value] is what a user writes (Horner's rule). *)

From Coq Require Import ZArith.
From mathcomp Require Import all_ssreflect.
From Verif Require Import Rust Traits MConstr Laws HomLaw.

Set Implicit Arguments.
Unset Strict Implicit.
Unset Printing Implicit Defensive.

(** The value of the polynomial [v] at [x]. *)
Fixpoint value {E} (A : RingAlg E) (v : seq E) (x : E) : M E :=
  if v is a :: v' then
    let! y := value A v' x in
    let! z := mul A y x in
    add A z a
  else zero A.
(** Is [x] a root of [v]? *)
Definition is_root {E} (A : RingAlg E) (v : seq E) (x : E) : M bool :=
  let! y := value A v x in is_zero A y.
(** The polynomial X - x. *)
Definition linear {E} (A : RingAlg E) (x : E) : M (seq E) :=
  let! a := neg A x in let! o := one A in ret [:: a; o].

(** The elements are different according to [equals]. *)
Fixpoint all_different {E} (A : Domain E) (xs : seq E) : Prop :=
  if xs is x :: ys then (forall y, List.In y ys -> returns (equals A x y) false) /\
    all_different A ys
  else True.

Section Laws.
Variables (p : Prop) (E : Type) (mem : E -> Prop) (pmem : seq E -> Prop).
Local Notation holds := (holds p).

Record root_laws (A : RingAlg E) (P : IDomAlg (seq E)) : Prop := {
  (* X - x divides v exactly if x is a root *)
  rt_factor : forall v x, pmem v -> mem x -> holds (agree
    (let! l := linear A x in divisible P v l) (is_root A v x));
  (* a polynomial that is not zero has fewer roots than coefficients *)
  rt_count : forall v xs, pmem v -> returns (is_zero P v) false ->
    (forall x, List.In x xs -> mem x) -> all_different A xs ->
    (forall x, List.In x xs -> returns (is_root A v x) true) -> size xs < size v;
  (* polynomials with the same values at as many points as they have coefficients are equal *)
  rt_unique : forall v u xs, pmem v -> pmem u ->
    (forall x, List.In x xs -> mem x) -> all_different A xs ->
    size v <= size xs -> size u <= size xs ->
    (forall x, List.In x xs -> returns (same A (value A v x) (value A u x)) true) ->
    holds (equals P v u)
}.

(** The remainder by X - x is the value at x. *)
Definition remainder_law (A : FieldAlg E) (P : EuclAlg (seq E)) : Prop := forall v x,
  pmem v -> mem x -> holds (same P
    (let! l := linear A x in rem P v l) (let! y := value A v x in to_constant A y)).

(** In the residues modulo a polynomial, the value at (the residue of) X of a polynomial is its
    residue; in particular the modulus gets a root. *)
Definition adjoined (A : FieldAlg E) (m : seq E) : M (seq E) :=
  let! z := zero A in let! o := one A in to_residue (PolyEucl A) m [:: z; o].
Record adjoin_laws (A : FieldAlg E) (K : FieldAlg (seq E)) (m : seq E) : Prop := {
  ad_value : forall v, pmem v -> holds (same K
    (let! x := adjoined A m in let! u := mapM (to_constant A) v in value K u x)
    (to_residue (PolyEucl A) m v));
  ad_root : holds
    (let! x := adjoined A m in let! u := mapM (to_constant A) m in is_root K u x)
}.
End Laws.
