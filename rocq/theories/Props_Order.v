(** * Props_Order.v -- the properties of DivisibilityOrder (C32).

    The members are the values denoting canonical representatives: those [a] with
    [arep AS a = a]. For the integers these are the natural numbers, for polynomials
    over a field zero and the monic ones. *)

From mathcomp Require Import all_ssreflect all_algebra zify ssrZ.
From Coq Require Import ZArith.
From Verif Require Import Rust Traits MInts MConstr Spec PropSpec NumSpec Laws.
From Verif Require Import PCases Wp.
From Verif Require Import PIntsZ PInts PDiv PPoly POrdProps Refuted.

Import GRing.Theory.
Local Open Scope ring_scope.

(** ** C32: the divisibility order *)

Theorem C32_order : forall (cfg : Cfg) (p : Prop) (E : Type) (R : idomainType)
    (rep : E -> R -> Prop) (AS : assoc_struct R) (A : IDomAlg E), idom_alg_spec cfg p rep AS A ->
  [/\ ensures p (omin (DivisibilityOrder A)) (fun z => rep z 1 /\ arep AS 1 = 1),
      ensures p (omax (DivisibilityOrder A)) (fun z => rep z 0 /\ arep AS 0 = 0) &
      forall x a, rep x a -> answers p (contains (DivisibilityOrder A) x) (arep AS a == a)] /\
  (forall x a y b, rep x a /\ arep AS a = a -> rep y b /\ arep AS b = b ->
   [/\ decides p (leq (DivisibilityOrder A) x y) (exists c, b = c * a),
       decides p (less_than (DivisibilityOrder A) x y) (a <> b /\ exists c, b = c * a),
       decides p (comparable (DivisibilityOrder A) x y)
         ((exists c, b = c * a) \/ (exists c, a = c * b)) &
       answers p (equals (DivisibilityOrder A) x y) (a == b)]).
Proof. exact divisibility_order. Qed.
Print Assumptions C32_order.
(** 4 and 6 are canonical, -4 is not. *)
Example C32_order_case :
  [/\ zz_rep 4%Z 4%Z /\ arep Z_assoc 4%Z = 4%Z,
      returns (contains (DivisibilityOrder ZZ) (-4)%Z) false,
      returns (leq (DivisibilityOrder ZZ) 4%Z 6%Z) false,
      returns (leq (DivisibilityOrder ZZ) 4%Z 12%Z) true &
      returns (comparable (DivisibilityOrder ZZ) 12%Z 4%Z) true].
Proof. by split; [|run 20%nat..]. Qed.
(** The laws of a bounded order, as statements about calls; [le] is only used to say
    that divisibility is decidable. *)
Theorem C32_order_laws : forall (cfg : Cfg) (p : Prop) (E : Type) (R : idomainType)
    (rep : E -> R -> Prop) (AS : assoc_struct R) (le : rel R) (A : IDomAlg E),
  (forall a b : R, le a b <-> exists c, b = c * a) -> idom_alg_spec cfg p rep AS A ->
  bounded_alg_laws p (fun x => exists a, rep x a /\ arep AS a = a) (DivisibilityOrder A).
Proof. exact divisibility_order_laws. Qed.
Print Assumptions C32_order_laws.
Example C32_order_laws_case :
  bounded_alg_laws False (fun x => exists a, zz_rep x a /\ arep Z_assoc a = a) (DivisibilityOrder ZZ).
Proof.
apply: (C32_order_laws debug64 False Z _ zz_rep Z_assoc
  (fun a b => if Z.eqb a 0 then Z.eqb b 0 else Z.eqb (Z.modulo b a) 0)) (zz_idom debug64) => a b.
case: (Z.eqb_spec a 0) => [->|h].
  by split=> [/Z.eqb_eq ->|[c ->]]; [exists 0; rewrite mul0r|rewrite mulr0].
split=> [/Z.eqb_eq /Z.mod_divide -/(_ h) [c ->]|[c ->]]; first by exists c.
by apply/Z.eqb_eq; apply: Z.mod_mul.
Qed.
Theorem C32_lattice : forall (cfg : Cfg) (p : Prop) (E : Type) (R : idomainType)
    (rep : E -> R -> Prop) (AS : assoc_struct R) (S : eucl_struct R) (A : EuclAlg E),
  eucl_alg_spec cfg p rep AS S A ->
  forall x a y b, rep x a /\ arep AS a = a -> rep y b /\ arep AS b = b ->
  ensures p (meet (DivisibilityLattice A) x y)
    (fun z => exists2 d, rep z d /\ arep AS d = d & is_gcd a b d) /\
  ensures p (join (DivisibilityLattice A) x y)
    (fun z => exists2 m, rep z m /\ arep AS m = m & is_lcm a b m).
Proof. exact divisibility_lattice. Qed.
Print Assumptions C32_lattice.
Example C32_lattice_case :
  [/\ zz_rep 4%Z 4%Z /\ arep Z_assoc 4%Z = 4%Z,
      returns (meet (DivisibilityLattice ZZ) 4%Z 6%Z) 2%Z &
      returns (join (DivisibilityLattice ZZ) 4%Z 6%Z) 12%Z].
Proof. by split; [|run 20%nat..]. Qed.
(** The laws of a bounded distributive lattice, as statements about calls. *)
Theorem C32_laws : forall (cfg : Cfg) (p : Prop) (E : Type) (R : idomainType)
    (rep : E -> R -> Prop) (AS : assoc_struct R) (S : eucl_struct R) (A : EuclAlg E),
  eucl_alg_spec cfg p rep AS S A ->
  [/\ bounded_alg_laws p (fun x => exists a, rep x a /\ arep AS a = a) (DivisibilityOrder A),
      lattice_alg_laws p (fun x => exists a, rep x a /\ arep AS a = a) (DivisibilityLattice A) &
      lattice_distributes p (fun x => exists a, rep x a /\ arep AS a = a) (DivisibilityLattice A)
        (DivisibilityLattice A)].
Proof. exact divisibility_laws. Qed.
Print Assumptions C32_laws.
(** The integers meet the contract; 4 divides 12 and 0, not 6; meet and join of 4 and 6
    are 2 and 12; negative numbers are no members. *)
Example C32_base cfg : eucl_alg_spec cfg False zz_rep Z_assoc Z_eucl ZZ.
Proof. exact (ZZ_ok cfg False). Qed.
Example C32_case :
  [/\ returns (leq (DivisibilityOrder ZZ) 4 12)%Z true,
      returns (leq (DivisibilityOrder ZZ) 4 6)%Z false,
      returns (leq (DivisibilityOrder ZZ) 4 0)%Z true,
      returns (comparable (DivisibilityOrder ZZ) 4 6)%Z false &
      returns (contains (DivisibilityOrder ZZ) (-4))%Z false] /\
  [/\ returns (meet (DivisibilityLattice ZZ) 4 6)%Z 2%Z,
      returns (join (DivisibilityLattice ZZ) 4 6)%Z 12%Z,
      returns (omin (DivisibilityOrder ZZ)) 1%Z & returns (omax (DivisibilityOrder ZZ)) 0%Z].
Proof. by split; split; run 20%nat. Qed.
