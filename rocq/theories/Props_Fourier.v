(** * Props_Fourier.v -- C102: the discrete Fourier transform, computed with the methods
    of the crate ([dft] and [inverse_dft], FourierSpec.v). *)

From mathcomp Require Import all_ssreflect all_algebra.
From Coq Require Import ZArith List.
From Verif Require Import Rust Traits MInts MConstr Spec RingSpec TowerSpec FourierSpec.
From Verif Require Import PTowerEx PValEx PFourier PFourierEx Refuted.

Import GRing.Theory.
Local Open Scope ring_scope.

(** [dft] returns the values of the polynomial with coefficients v at the powers of g. *)
Theorem C102_transform : forall (cfg : Cfg) (p : Prop) (E : Type) (F : fieldType)
    (rep : E -> F -> Prop) (A : FieldAlg E),
  field_alg_spec cfg p rep A ->
  forall (g : E) (b : F) (v : list E) (us : list F),
  good_isize cfg (Z.of_nat (length v)) -> rep g b -> b != 0 -> Forall2 rep v us ->
  ensures p (dft A g v)
    (fun w => Forall2 rep w (map (fun i => (Poly us).[b ^+ i]) (iota 0 (length us)))).
Proof. exact dft_ok. Qed.
Print Assumptions C102_transform.
Example C102_transform_case : finite_field debug64 gf4_rep (F4 debug64) 4 /\
  gf4_rep (false :: true :: nil) gf4_x /\
  returns (dft (F4 debug64) (false :: true :: nil) ((true :: nil) :: (false :: true :: nil) :: nil :: nil))
    ((true :: true :: nil) :: (false :: true :: nil) :: nil :: nil).
Proof. exact (conj (gf4_tower _) (conj gf4_x_rep (proj1 gf4_trip))). Qed.

(** If g is a primitive root of unity of order v.len(), [inverse_dft] undoes [dft]. *)
Theorem C102_inverse : forall (cfg : Cfg) (p : Prop) (E : Type) (F : fieldType)
    (rep : E -> F -> Prop) (A : FieldAlg E),
  field_alg_spec cfg p rep A ->
  forall (g : E) (b : F) (v : list E) (us : list F),
  good_isize cfg (Z.of_nat (length v)) -> rep g b -> (length v).-primitive_root b ->
  Forall2 rep v us ->
  ensures p (let! w := dft A g v in inverse_dft A g w) (fun z => Forall2 rep z us).
Proof. exact round_trip. Qed.
Print Assumptions C102_inverse.
Example C102_inverse_case : 3.-primitive_root gf4_x /\
  returns (inverse_dft (F4 debug64) (false :: true :: nil) ((true :: true :: nil) :: (false :: true :: nil) :: nil :: nil))
    ((true :: nil) :: (false :: true :: nil) :: nil :: nil).
Proof. exact (conj gf4_x_primitive (proj2 gf4_trip)). Qed.

(** Over finite fields the vector comes back as it was. *)
Theorem C102_finite : forall (cfg : Cfg) (E : Type) (F : fieldType) (rep : E -> F -> Prop)
    (A : FieldAlg E) (k : nat),
  finite_field cfg rep A k ->
  forall (g : E) (b : F) (v : list E), good_isize cfg (Z.of_nat (length v)) -> rep g b ->
  (length v).-primitive_root b -> (forall x, In x v -> exists u, rep x u) ->
  returns (let! w := dft A g v in inverse_dft A g w) v.
Proof. exact round_trip_exact. Qed.
Print Assumptions C102_finite.
Example C102_finite_case : finite_field debug64 gf4_rep (F4 debug64) 4 /\
  good_isize debug64 3 /\ gf4_rep (false :: true :: nil) gf4_x /\ 3.-primitive_root gf4_x.
Proof.
by split; [exact: gf4_tower|split; [split|split; [exact: gf4_x_rep|exact: gf4_x_primitive]]].
Qed.
