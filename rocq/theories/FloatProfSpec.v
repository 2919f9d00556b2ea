(** * FloatProfSpec.v -- the structures built on top of a field, as ProfSpec.v does for the
    structures built on top of integers.

    [on_... real ty A]: [A B c] is a structure on top of the field [B], compiled with
    profile [c]; [real] says which values the elements of [B] have, [ty] which values those
    of [A B c] have. [mat] allows rings of matrices inside. *)

From Coq Require Import ZArith.
From mathcomp Require Import all_ssreflect.
From Flocq Require BinarySingleNaN.
From Verif Require Import Rust Traits MInts MConstr ProfSpec.

Set Implicit Arguments.
Unset Strict Implicit.
Unset Printing Implicit Defensive.

Section On.
Variables (R : Type) (real : R -> Prop) (mat : bool).

Inductive on_eucl : forall E : Type, (E -> Prop) -> (FieldAlg R -> Cfg -> EuclAlg E) -> Prop :=
| on_eucl_field E (ty : E -> Prop) A : on_field ty A -> on_eucl ty (fun B c => A B c)
| on_eucl_poly E (ty : E -> Prop) A : on_field ty A ->
    on_eucl (in_vec ty) (fun B c => PolyEucl (A B c))
with on_field : forall E : Type, (E -> Prop) -> (FieldAlg R -> Cfg -> FieldAlg E) -> Prop :=
| on_reals : on_field real (fun B _ => B)
| on_QuotientField E (ty : E -> Prop) A m : on_eucl ty A -> ty m ->
    on_field ty (fun B c => QuotientField c (A B c) m)
| on_ReducedFractions E (ty : E -> Prop) A : on_eucl ty A ->
    on_field (in_pair ty) (fun B c => ReducedFractions c (A B c)).

Inductive on_idom : forall E : Type, (E -> Prop) -> (FieldAlg R -> Cfg -> IDomAlg E) -> Prop :=
| on_idom_eucl E (ty : E -> Prop) A : on_eucl ty A -> on_idom ty (fun B c => A B c)
| on_idom_poly E (ty : E -> Prop) A : on_idom ty A ->
    on_idom (in_vec ty) (fun B c => PolyIDom (A B c)).

Inductive on_ring : forall E : Type, (E -> Prop) -> (FieldAlg R -> Cfg -> RingAlg E) -> Prop :=
| on_ring_idom E (ty : E -> Prop) A : on_idom ty A -> on_ring ty (fun B c => A B c)
| on_QuotientRing E (ty : E -> Prop) A m : on_eucl ty A -> ty m ->
    on_ring ty (fun B c => QuotientRing c (A B c) m)
| on_VectorRing E (ty : E -> Prop) n A : on_ring ty A ->
    on_ring (in_vec ty) (fun B c => VectorRing c n (A B c))
| on_ring_poly E (ty : E -> Prop) A : on_ring ty A ->
    on_ring (in_vec ty) (fun B c => PolyRing (A B c))
| on_MatrixRing E (ty : E -> Prop) n A : mat -> on_field ty A ->
    on_ring (in_vec ty) (fun B c => MatrixRing c (A B c) n).

Inductive on_group : forall E : Type, (E -> Prop) -> (FieldAlg R -> Cfg -> GroupAlg E) -> Prop :=
| on_AdditiveGroup E (ty : E -> Prop) A : on_ring ty A ->
    on_group ty (fun B c => AdditiveGroup c (A B c))
| on_MultiplicativeGroup E (ty : E -> Prop) A : on_ring ty A ->
    on_group ty (fun B c => MultiplicativeGroup c (A B c))
| on_VectorGroup E (ty : E -> Prop) n A : on_group ty A ->
    on_group (in_vec ty) (fun B c => vector_group c n (A B c)).
End On.

(** All floats, NaN and the infinities included. *)
Notation floats prec emax := (fun _ : BinarySingleNaN.binary_float prec emax => True).
