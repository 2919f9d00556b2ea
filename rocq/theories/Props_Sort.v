(** * Props_Sort.v -- C124: sorting with [meet] and [join]. *)

From mathcomp Require Import all_ssreflect all_algebra ssrZ.
From Coq Require Import ZArith List.
From Verif Require Import Rust Traits MInts MConstr Spec PropSpec RingSpec Quotient.
From Verif Require Import PInts PIntsZ POrders PDiv SortSpec PSort Refuted.

(** The program [to_chain] of SortSpec.v turns a list into a chain of the same length, in every
    lattice. *)
Theorem C124_chain : forall (p : Prop) (E : Type) (V : eqType) (rep : E -> V -> Prop) (le : rel V)
    (A : LatticeAlg E),
  lattice_alg_spec p rep le A ->
  forall (xs : list E) (us : list V), Forall2 rep xs us ->
  ensures p (to_chain A xs) (fun t => exists ws : list V,
    [/\ Forall2 rep t ws, sorted le ws & size ws = size us]).
Proof. exact to_chain_ok. Qed.
Print Assumptions C124_chain.
(** 4, 6, 10 under divisibility. *)
Example C124_chain_case :
  lattice_alg_spec False (div_rep (R := [idomainType of Z]) Z_assoc zz_rep) (edvd Z_eucl)
    (DivisibilityLattice ZZ) /\
  Forall2 (div_rep (R := [idomainType of Z]) Z_assoc zz_rep) (4 :: 6 :: 10 :: nil)%Z
    (4 :: 6 :: 10 :: nil)%Z /\
  returns (to_chain (DivisibilityLattice ZZ) (4 :: 6 :: 10 :: nil))%Z (2 :: 2 :: 60 :: nil)%Z.
Proof.
split; first exact: (DivisibilityLattice_ok (@edvdP _ Z_eucl) (ZZ_ok debug64 False)).
split; first by repeat constructor.
by run 300%nat.
Qed.

(** It sorts when the order is total: nothing is lost and nothing is invented. *)
Theorem C124_sorts : forall (p : Prop) (E : Type) (V : eqType) (rep : E -> V -> Prop) (le : rel V)
    (A : LatticeAlg E),
  lattice_alg_spec p rep le A ->
  (forall (x : E) (u : V) (y : E) (v : V), rep x u -> rep y v -> le u v || le v u) ->
  forall (xs : list E) (us : list V), Forall2 rep xs us ->
  ensures p (to_chain A xs) (fun t => exists ws : list V,
    [/\ Forall2 rep t ws, sorted le ws & perm_eq ws us]).
Proof. exact to_chain_sorts. Qed.
Print Assumptions C124_sorts.
Example C124_sorts_case :
  lattice_alg_spec False zz_rep Z.leb ZZ_lattice /\
  (forall x u y v, zz_rep x u -> zz_rep y v -> Z.leb u v || Z.leb v u) /\
  Forall2 zz_rep (3 :: -1 :: 2 :: -1 :: nil)%Z (3 :: -1 :: 2 :: -1 :: nil)%Z /\
  returns (to_chain ZZ_lattice (3 :: -1 :: 2 :: -1 :: nil))%Z (-1 :: -1 :: 2 :: 3 :: nil)%Z.
Proof.
split; first exact: ZZ_lattice_ok.
split; first by move=> x u y v _ _; case: (Z.leb_spec u v) => //= /Z.lt_le_incl/Z.leb_le.
split; first by repeat constructor.
by run 300%nat.
Qed.

(** Then the order of the list does not matter. *)
Theorem C124_order : forall (p : Prop) (E : Type) (V : eqType) (rep : E -> V -> Prop) (le : rel V)
    (A : LatticeAlg E),
  lattice_alg_spec p rep le A ->
  (forall (x : E) (u : V) (y : E) (v : V), rep x u -> rep y v -> le u v || le v u) ->
  forall (xs : list E) (us : list V) (ys : list E) (vs : list V),
  Forall2 rep xs us -> Forall2 rep ys vs -> perm_eq us vs ->
  ensures p (to_chain A xs) (fun s => ensures p (to_chain A ys) (fun t => exists ws : list V,
    [/\ Forall2 rep s ws & Forall2 rep t ws])).
Proof. exact to_chain_order. Qed.
Print Assumptions C124_order.
Example C124_order_case :
  lattice_alg_spec False zz_rep Z.leb ZZ_lattice /\
  (forall x u y v, zz_rep x u -> zz_rep y v -> Z.leb u v || Z.leb v u) /\
  Forall2 zz_rep (3 :: -1 :: 2 :: nil)%Z (3 :: -1 :: 2 :: nil)%Z /\
  Forall2 zz_rep (2 :: 3 :: -1 :: nil)%Z (2 :: 3 :: -1 :: nil)%Z /\
  perm_eq (3 :: -1 :: 2 :: nil)%Z (2 :: 3 :: -1 :: nil)%Z /\
  returns (to_chain ZZ_lattice (3 :: -1 :: 2 :: nil))%Z (-1 :: 2 :: 3 :: nil)%Z /\
  returns (to_chain ZZ_lattice (2 :: 3 :: -1 :: nil))%Z (-1 :: 2 :: 3 :: nil)%Z.
Proof.
split; first exact: ZZ_lattice_ok.
split; first by move=> x u y v _ _; case: (Z.leb_spec u v) => //= /Z.lt_le_incl/Z.leb_le.
do 2!(split; first by repeat constructor).
split; first by [].
by split; run 300%nat.
Qed.

(** Under divisibility each entry of the chain divides the next, and the product of the list is
    kept up to an associate: the invariant factors of a diagonal matrix. *)
Theorem C124_divisors : forall (cfg : Cfg) (p : Prop) (E : Type) (R : idomainType)
    (rep : E -> R -> Prop) (AS : assoc_struct R) (S : eucl_struct R) (A : EuclAlg E),
  eucl_alg_spec cfg p rep AS S A ->
  forall (xs : list E) (us : list R),
  Forall2 (fun x a => rep x a /\ arep AS a = a) xs us ->
  ensures p (to_chain (DivisibilityLattice A) xs) (fun t => exists ws : list R,
    [/\ Forall2 (fun x a => rep x a /\ arep AS a = a) t ws, size ws = size us,
        forall i : nat, (i.+1 < size ws)%nat -> dvds (seq.nth 0%R ws i) (seq.nth 0%R ws i.+1),
        dvds (\prod_(w <- ws) w)%R (\prod_(u <- us) u)%R &
        dvds (\prod_(u <- us) u)%R (\prod_(w <- ws) w)%R]).
Proof. exact (fun cfg p E R rep AS S A hA => @divisor_chain R S cfg p E rep AS A hA). Qed.
Print Assumptions C124_divisors.
(** 240 = 4 * 6 * 10 = 2 * 2 * 60. *)
Example C124_divisors_case :
  eucl_alg_spec debug64 False (R := [idomainType of Z]) zz_rep Z_assoc Z_eucl ZZ /\
  Forall2 (fun x a : Z => zz_rep x a /\ arep (R := [idomainType of Z]) Z_assoc a = a)
    (4 :: 6 :: 10 :: nil)%Z (4 :: 6 :: 10 :: nil)%Z /\
  returns (to_chain (DivisibilityLattice ZZ) (4 :: 6 :: 10 :: nil))%Z (2 :: 2 :: 60 :: nil)%Z.
Proof.
split; first exact: ZZ_ok.
split; first by repeat constructor.
by run 300%nat.
Qed.
