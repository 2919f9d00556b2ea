(** * WideSpec.v -- structures built on top of some integers. *)

From Coq Require Import ZArith.
From mathcomp Require Import all_ssreflect.
From Verif Require Import Rust Traits MInts MConstr ProfSpec.

Set Implicit Arguments.
Unset Strict Implicit.
Unset Printing Implicit Defensive.

(** The structures the crate can build on top of a Euclidean domain [I] of integers, as
    functions of [I] and of the profile. [int] says which numbers the Rust type of the
    integers has, and [ty] which values the elements have. *)
Section Over.
Variable int : Z -> Prop.

Inductive over_eucl : forall E : Type, (E -> Prop) -> (EuclAlg Z -> Cfg -> EuclAlg E) -> Prop :=
| over_ints : over_eucl int (fun I _ => I)
| over_eucl_field E (ty : E -> Prop) A : over_field ty A -> over_eucl ty (fun I c => A I c)
| over_eucl_poly E (ty : E -> Prop) A : over_field ty A ->
    over_eucl (in_vec ty) (fun I c => PolyEucl (A I c))
with over_field : forall E : Type, (E -> Prop) -> (EuclAlg Z -> Cfg -> FieldAlg E) -> Prop :=
| over_QuotientField E (ty : E -> Prop) A m : over_eucl ty A -> ty m ->
    over_field ty (fun I c => QuotientField c (A I c) m)
| over_ReducedFractions E (ty : E -> Prop) A : over_eucl ty A ->
    over_field (in_pair ty) (fun I c => ReducedFractions c (A I c)).

Inductive over_idom : forall E : Type, (E -> Prop) -> (EuclAlg Z -> Cfg -> IDomAlg E) -> Prop :=
| over_idom_eucl E (ty : E -> Prop) A : over_eucl ty A -> over_idom ty (fun I c => A I c)
| over_idom_poly E (ty : E -> Prop) A : over_idom ty A ->
    over_idom (in_vec ty) (fun I c => PolyIDom (A I c)).

Inductive over_ring : forall E : Type, (E -> Prop) -> (EuclAlg Z -> Cfg -> RingAlg E) -> Prop :=
| over_ring_idom E (ty : E -> Prop) A : over_idom ty A -> over_ring ty (fun I c => A I c)
| over_QuotientRing E (ty : E -> Prop) A m : over_eucl ty A -> ty m ->
    over_ring ty (fun I c => QuotientRing c (A I c) m)
| over_VectorRing E (ty : E -> Prop) n A : over_ring ty A ->
    over_ring (in_vec ty) (fun I c => VectorRing c n (A I c))
| over_ring_poly E (ty : E -> Prop) A : over_ring ty A ->
    over_ring (in_vec ty) (fun I c => PolyRing (A I c))
| over_MatrixRing E (ty : E -> Prop) n A : over_field ty A ->
    over_ring (in_vec ty) (fun I c => MatrixRing c (A I c) n).

Inductive over_group : forall E : Type, (E -> Prop) -> (EuclAlg Z -> Cfg -> GroupAlg E) -> Prop :=
| over_AdditiveGroup E (ty : E -> Prop) A : over_ring ty A ->
    over_group ty (fun I c => AdditiveGroup c (A I c))
| over_MultiplicativeGroup E (ty : E -> Prop) A : over_ring ty A ->
    over_group ty (fun I c => MultiplicativeGroup c (A I c))
| over_VectorGroup E (ty : E -> Prop) n A : over_group ty A ->
    over_group (in_vec ty) (fun I c => vector_group c n (A I c)).
End Over.

(** The integers that may replace CheckedInts of [w] bits *)
Definition at_least (c : Cfg) (w : Z) (J : EuclAlg Z) : Prop :=
  (exists2 w', (w <= w')%Z & J = CheckedInts c w') \/ J = ZZ.
Notation bits w := (fun x : Z => is_true (in_i w x)).
Notation all_nums := (fun _ : Z => True).
