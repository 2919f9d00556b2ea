(** * Props_Median.v -- C125: medians. *)

From mathcomp Require Import all_ssreflect all_algebra ssrZ.
From Coq Require Import ZArith List.
From Verif Require Import Rust Traits MInts MConstr Spec PropSpec RingSpec Quotient.
From Verif Require Import PInts PIntsZ POrders PDiv MedianSpec PMedian Refuted.

(** The program [median] of MedianSpec.v returns the element that occurs twice, in every lattice. *)
Theorem C125_majority : forall (p : Prop) (E : Type) (V : eqType) (rep : E -> V -> Prop) (le : rel V)
    (A : LatticeAlg E),
  lattice_alg_spec p rep le A ->
  forall (x : E) (u : V) (y : E) (v : V) (z : E) (w : V), rep x u -> rep y v -> rep z w ->
  ensures p (median A x y z) (fun t => exists2 m, rep t m &
    [/\ u = v -> m = u, v = w -> m = v & w = u -> m = w]).
Proof. exact median_majority. Qed.
Print Assumptions C125_majority.
(** 6, 10, 6 under divisibility. *)
Example C125_majority_case :
  lattice_alg_spec False (div_rep (R := [idomainType of Z]) Z_assoc zz_rep) (edvd Z_eucl)
    (DivisibilityLattice ZZ) /\
  div_rep (R := [idomainType of Z]) Z_assoc zz_rep 6%Z 6%Z /\
  div_rep (R := [idomainType of Z]) Z_assoc zz_rep 10%Z 10%Z /\
  div_rep (R := [idomainType of Z]) Z_assoc zz_rep 6%Z 6%Z /\
  returns (median (DivisibilityLattice ZZ) 6 10 6)%Z 6%Z.
Proof.
split; first exact: (DivisibilityLattice_ok (@edvdP _ Z_eucl) (ZZ_ok debug64 False)).
do 3!split=> //.
by run 300%nat.
Qed.

(** It lies above all lower bounds and below all upper bounds of the three. *)
Theorem C125_between : forall (p : Prop) (E : Type) (V : eqType) (rep : E -> V -> Prop) (le : rel V)
    (A : LatticeAlg E),
  lattice_alg_spec p rep le A ->
  forall (x : E) (u : V) (y : E) (v : V) (z : E) (w : V), rep x u -> rep y v -> rep z w ->
  ensures p (median A x y z) (fun t => exists2 m, rep t m &
    (forall b, le b u -> le b v -> le b w -> le b m) /\
    (forall c, le u c -> le v c -> le w c -> le m c)).
Proof. exact median_between. Qed.
Print Assumptions C125_between.
(** The median of 12, 18, 20 under divisibility is 12 = lcm (6, 2, 4). *)
Example C125_between_case :
  lattice_alg_spec False (div_rep (R := [idomainType of Z]) Z_assoc zz_rep) (edvd Z_eucl)
    (DivisibilityLattice ZZ) /\
  div_rep (R := [idomainType of Z]) Z_assoc zz_rep 12%Z 12%Z /\
  div_rep (R := [idomainType of Z]) Z_assoc zz_rep 18%Z 18%Z /\
  div_rep (R := [idomainType of Z]) Z_assoc zz_rep 20%Z 20%Z /\
  returns (median (DivisibilityLattice ZZ) 12 18 20)%Z 12%Z.
Proof.
split; first exact: (DivisibilityLattice_ok (@edvdP _ Z_eucl) (ZZ_ok debug64 False)).
do 3!split=> //.
by run 300%nat.
Qed.

(** In a total order it is one of the three, at least two are below it and two above it. *)
Theorem C125_middle : forall (p : Prop) (E : Type) (V : eqType) (rep : E -> V -> Prop) (le : rel V)
    (A : LatticeAlg E),
  lattice_alg_spec p rep le A ->
  (forall (x : E) (u : V) (y : E) (v : V), rep x u -> rep y v -> le u v || le v u) ->
  forall (x : E) (u : V) (y : E) (v : V) (z : E) (w : V), rep x u -> rep y v -> rep z w ->
  ensures p (median A x y z) (fun t => exists2 m, rep t m &
    [/\ m \in u :: v :: w :: nil, (2 <= count (fun a => le a m) (u :: v :: w :: nil))%nat &
        (2 <= count (le m) (u :: v :: w :: nil))%nat]).
Proof. exact median_middle. Qed.
Print Assumptions C125_middle.
Example C125_middle_case :
  lattice_alg_spec False zz_rep Z.leb ZZ_lattice /\
  (forall x u y v, zz_rep x u -> zz_rep y v -> Z.leb u v || Z.leb v u) /\
  zz_rep 7%Z 7%Z /\ zz_rep (-3)%Z (-3)%Z /\ zz_rep 5%Z 5%Z /\
  returns (median ZZ_lattice 7 (-3) 5)%Z 5%Z.
Proof.
split; first exact: ZZ_lattice_ok.
split; first by move=> x u y v _ _; case: (Z.leb_spec u v) => //= /Z.lt_le_incl/Z.leb_le.
do 3!split=> //.
by run 300%nat.
Qed.
