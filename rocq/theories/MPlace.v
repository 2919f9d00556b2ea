(** * MPlace.v -- the in-place methods once more, with the place they write to.

    MInts.v, MConstr.v and MFloats.v read [&mut] as "returns the new value", which says
    nothing about the place if the call panics. Here a call of an in-place method also tells
    what the place holds when a panic unwinds. *)

From Coq Require Import ZArith.
From mathcomp Require Import all_ssreflect.
From Verif Require Import Rust Traits MInts MConstr.

Set Implicit Arguments.
Unset Strict Implicit.
Unset Printing Implicit Defensive.

(** [Held x]: the call has returned and the place holds [x]; [Broken x]: the call has panicked
    and the place holds [x]; [Pending]: the bound on the iterations was reached. *)
Inductive place (E : Type) := Held of E | Broken of E | Pending.
Arguments Pending {E}.
Definition PM (E : Type) := nat -> place E.

Section Statements.
Context {E : Type}.
(** [*x = m;]: [m] is computed first *)
Definition p_store (x : E) (m : M E) : PM E := fun k =>
  match m k with Done y => Held y | Panicked => Broken x | Unfinished => Pending end.
(** a call [m] that does not write to the place [x], followed by one that does *)
Definition p_after {A} (x : E) (m : M A) (f : A -> PM E) : PM E := fun k =>
  match m k with Done a => f a k | Panicked => Broken x | Unfinished => Pending end.

(** [v.iter_mut().for_each(|x| f(x))] *)
Fixpoint p_each (f : E -> PM E) (v : seq E) : PM (seq E) :=
  if v is x :: v' then fun k =>
    match f x k with
    | Held y =>
        match p_each f v' k with
        | Held w => Held (y :: w)
        | Broken w => Broken (y :: w)
        | Pending => Pending
        end
    | Broken y => Broken (y :: v')
    | Pending => Pending
    end
  else fun _ => Held [::].
(** [v.iter_mut().zip(u.iter()).for_each(|(x, y)| f(x, y))] *)
Fixpoint p_zip (f : E -> E -> PM E) (v u : seq E) : PM (seq E) :=
  match v, u with
  | x :: v', y :: u' => fun k =>
      match f x y k with
      | Held z =>
          match p_zip f v' u' k with
          | Held w => Held (z :: w)
          | Broken w => Broken (z :: w)
          | Pending => Pending
          end
      | Broken z => Broken (z :: v')
      | Pending => Pending
      end
  | _, _ => fun _ => Held v
  end.
End Statements.

(** ** The in-place methods of the traits *)
Record PlaceMul (E : Type) := mkPlaceMul {
  p_mul_assign : E -> E -> PM E;
  p_square : E -> PM E
}.
Record PlaceAdd (E : Type) := mkPlaceAdd {
  p_add_assign : E -> E -> PM E;
  p_double : E -> PM E
}.
Record PlaceNeg (E : Type) := mkPlaceNeg {
  p_neg_assign : E -> PM E;
  p_sub_assign : E -> E -> PM E
}.
Record PlaceRing (E : Type) := mkPlaceRing {
  pr_mul :> PlaceMul E;
  pr_add :> PlaceAdd E;
  pr_neg :> PlaceNeg E
}.

(** ** The default methods *)
Section Defaults.
Variable E : Type.
(* traits.rs:33-40 *)
Definition default_place_mul (mul : E -> E -> M E) : PlaceMul E :=
  mkPlaceMul (fun x y => p_store x (mul x y)) (fun x => p_store x (mul x x)).
(* traits.rs:79-86 *)
Definition default_place_add (add : E -> E -> M E) : PlaceAdd E :=
  mkPlaceAdd (fun x y => p_store x (add x y)) (fun x => p_store x (add x x)).
(* traits.rs:141-143, 153-155 *)
Definition default_place_neg (neg : E -> M E) (P : PlaceAdd E) : PlaceNeg E :=
  mkPlaceNeg (fun x => p_store x (neg x))
    (fun x y => p_after x (neg y) (fun z => p_add_assign P x z)).
Definition default_places (A : RingAlg E) : PlaceRing E :=
  let P := default_place_add (add A) in
  mkPlaceRing (default_place_mul (mul A)) P (default_place_neg (neg A) P).
End Defaults.

(* integers.rs:65-67: *elem *= 2; everything else is the default one *)
Definition integers_places : PlaceRing Z :=
  let P := mkPlaceAdd (p_add_assign (default_place_add (add ZZ)))
    (fun x => p_store x (ret (x * 2)%Z)) in
  mkPlaceRing (default_place_mul (mul ZZ)) P (default_place_neg (neg ZZ) P).
(* naturals.rs:67-69: *elem *= 2u32; everything else is the default one *)
Definition naturals_place_mul : PlaceMul N := default_place_mul (mul NN).
Definition naturals_place_add : PlaceAdd N :=
  mkPlaceAdd (p_add_assign (default_place_add (add NN))) (fun x => p_store x (ret (x * 2)%num)).
(* two_element_algebra.rs:25-29, 67-73, 81, 87-89 *)
Definition two_places : PlaceRing bool :=
  mkPlaceRing
    (mkPlaceMul (fun x y => p_store x (ret (andb x y))) (fun x => p_store x (ret x)))
    (mkPlaceAdd (fun x y => p_store x (ret (xorb x y))) (fun x => p_store x (ret false)))
    (mkPlaceNeg (fun x => p_store x (ret x)) (fun x y => p_store x (ret (xorb x y)))).

(** ** VectorAlgebra *)
Section Vectors.
Variables (E : Type) (n : nat).
(* vector_algebra.rs:81, 89, 159, 167, 182, 196: assert!, then for_each *)
Definition vector_place1 (f : E -> PM E) (v : seq E) : PM (seq E) :=
  p_after v (assert_len1 n v) (fun _ => p_each f v).
Definition vector_place2 (f : E -> E -> PM E) (v u : seq E) : PM (seq E) :=
  p_after v (assert_len2 n v u) (fun _ => p_zip f v u).
(* vector_algebra.rs:80-91 *)
Definition vector_place_mul (P : PlaceMul E) : PlaceMul (seq E) :=
  mkPlaceMul (vector_place2 (p_mul_assign P)) (vector_place1 (p_square P)).
(* vector_algebra.rs:158-169 *)
Definition vector_place_add (P : PlaceAdd E) : PlaceAdd (seq E) :=
  mkPlaceAdd (vector_place2 (p_add_assign P)) (vector_place1 (p_double P)).
(* vector_algebra.rs:181-184, 195-201 *)
Definition vector_place_neg (P : PlaceNeg E) : PlaceNeg (seq E) :=
  mkPlaceNeg (vector_place1 (p_neg_assign P)) (vector_place2 (p_sub_assign P)).
Definition vector_places (P : PlaceRing E) : PlaceRing (seq E) :=
  mkPlaceRing (vector_place_mul P) (vector_place_add P) (vector_place_neg P).
End Vectors.

(** ** MatrixRing *)
(* matrix_ring.rs:238-244, 255-257, 263-265 delegate to VectorAlgebra; mul_assign and square
   are the default ones *)
Definition matrix_places (E : Type) (A : FieldAlg E) (n : nat) (P : PlaceRing E)
  : PlaceRing (seq E) :=
  mkPlaceRing (default_place_mul (matrix_mul A n)) (vector_place_add (matrix_len n) P)
    (vector_place_neg (matrix_len n) P).

(** ** Permutations *)
(* permutations.rs:57-63; square is the default one *)
Definition perm_places (cfg : Cfg) (n : nat) : PlaceMul (seq nat) :=
  mkPlaceMul
    (fun v u => p_after v (debug_len cfg n v) (fun _ =>
      p_after v (debug_len cfg n u) (fun _ => p_each (fun a => p_store a (vget u a)) v)))
    (p_square (default_place_mul (perm_mul cfg n))).

(** ** AdditiveGroup and MultiplicativeGroup *)
(* additive_group.rs:53-59 *)
Definition additive_places (E : Type) (P : PlaceAdd E) : PlaceMul E :=
  mkPlaceMul (p_add_assign P) (p_double P).
(* multiplicative_group.rs:54-60 *)
Definition multiplicative_places (E : Type) (P : PlaceMul E) : PlaceMul E :=
  mkPlaceMul (p_mul_assign P) (p_square P).
