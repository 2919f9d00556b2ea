(** * PlaceSpec.v -- what an in-place method leaves behind. *)

From Coq Require Import ZArith.
From mathcomp Require Import all_ssreflect.
From Verif Require Import Rust Traits MConstr MPlace MemberSpec.

Set Implicit Arguments.
Unset Strict Implicit.
Unset Printing Implicit Defensive.

(** ** The places agree with the methods: forgetting what the place holds after a panic gives
    the method of the other files, for every bound on the iterations. *)
Definition forget E (m : PM E) : M E := fun k =>
  match m k with Held x => Done x | Broken _ => Panicked | Pending => Unfinished end.
Section Tracks.
Variable E : Type.
Definition tracks_mul (S : Semigroup E) (P : PlaceMul E) : Prop :=
  (forall x y, forget (p_mul_assign P x y) =1 mul_assign S x y) /\
  (forall x, forget (p_square P x) =1 square S x).
Definition tracks_add (C : CommMonoid E) (P : PlaceAdd E) : Prop :=
  (forall x y, forget (p_add_assign P x y) =1 add_assign C x y) /\
  (forall x, forget (p_double P x) =1 double C x).
Definition tracks_neg (A : AbelianGroup E) (P : PlaceNeg E) : Prop :=
  (forall x, forget (p_neg_assign P x) =1 neg_assign A x) /\
  (forall x y, forget (p_sub_assign P x y) =1 sub_assign A x y).
Definition tracks (A : RingAlg E) (P : PlaceRing E) : Prop :=
  [/\ tracks_mul A P, tracks_add A P & tracks_neg A P].
End Tracks.

(** ** A panic leaves the place as it was. *)
Section Untouched.
Variable E : Type.
Definition untouched1 (f : E -> PM E) : Prop := forall x k z, f x k = Broken z -> z = x.
Definition untouched2 (f : E -> E -> PM E) : Prop := forall x y k z, f x y k = Broken z -> z = x.
Definition untouched_mul (P : PlaceMul E) : Prop :=
  untouched2 (p_mul_assign P) /\ untouched1 (p_square P).
Definition untouched_add (P : PlaceAdd E) : Prop :=
  untouched2 (p_add_assign P) /\ untouched1 (p_double P).
Definition untouched_neg (P : PlaceNeg E) : Prop :=
  untouched1 (p_neg_assign P) /\ untouched2 (p_sub_assign P).
Definition untouched (P : PlaceRing E) : Prop :=
  [/\ untouched_mul P, untouched_add P & untouched_neg P].
End Untouched.

(** ** Vectors are changed entry by entry: a panic at entry [i] leaves the entries before it
    changed, the entry [i] as the base leaves it, and the entries after it unchanged. *)
Section Partly.
Variables (E : Type) (n : nat).
Definition partly1 (f : E -> PM E) (g : seq E -> PM (seq E)) : Prop :=
  forall v k w, g v k = Broken w ->
  size v <> n /\ w = v \/
  size v = n /\ size w = n /\ exists2 i : nat, i < n &
    forall (j : nat) (d : E), j < n ->
    if j < i then f (nth d v j) k = Held (nth d w j)
    else if j == i then f (nth d v j) k = Broken (nth d w j)
    else nth d w j = nth d v j.
Definition partly2 (f : E -> E -> PM E) (g : seq E -> seq E -> PM (seq E)) : Prop :=
  forall v u k w, g v u k = Broken w ->
  (size v <> n \/ size u <> n) /\ w = v \/
  size v = n /\ size u = n /\ size w = n /\ exists2 i : nat, i < n &
    forall (j : nat) (d : E), j < n ->
    if j < i then f (nth d v j) (nth d u j) k = Held (nth d w j)
    else if j == i then f (nth d v j) (nth d u j) k = Broken (nth d w j)
    else nth d w j = nth d v j.
Definition partly_mul (P : PlaceMul E) (Q : PlaceMul (seq E)) : Prop :=
  partly2 (p_mul_assign P) (p_mul_assign Q) /\ partly1 (p_square P) (p_square Q).
Definition partly_add (P : PlaceAdd E) (Q : PlaceAdd (seq E)) : Prop :=
  partly2 (p_add_assign P) (p_add_assign Q) /\ partly1 (p_double P) (p_double Q).
Definition partly_neg (P : PlaceNeg E) (Q : PlaceNeg (seq E)) : Prop :=
  partly1 (p_neg_assign P) (p_neg_assign Q) /\ partly2 (p_sub_assign P) (p_sub_assign Q).
End Partly.

(** ** Whether the call returns or panics, the place holds a member afterwards. *)
Section Keeps.
Variables (E : Type) (mem : E -> Prop).
Definition holds (m : PM E) : Prop := forall k,
  match m k with Held z => mem z | Broken z => mem z | Pending => True end.
Definition keeps_mul (P : PlaceMul E) : Prop :=
  (forall x y, mem x -> mem y -> holds (p_mul_assign P x y)) /\
  (forall x, mem x -> holds (p_square P x)).
Definition keeps_add (P : PlaceAdd E) : Prop :=
  (forall x y, mem x -> mem y -> holds (p_add_assign P x y)) /\
  (forall x, mem x -> holds (p_double P x)).
Definition keeps_neg (P : PlaceNeg E) : Prop :=
  (forall x, mem x -> holds (p_neg_assign P x)) /\
  (forall x y, mem x -> mem y -> holds (p_sub_assign P x y)).
Definition keeps (P : PlaceRing E) : Prop := [/\ keeps_mul P, keeps_add P & keeps_neg P].
End Keeps.

(** The call panicked. *)
Definition is_broken E (o : place E) : bool := if o is Broken _ then true else false.

(** The vectors of [n] members. *)
Definition vector_member E (n : nat) (mem : E -> Prop) (v : seq E) : Prop :=
  size v = n /\ entries mem v.
