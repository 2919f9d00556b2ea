(** * Props_Laws.v -- C58 (divisibility, gcd, lcm) and C59 (neg, times, int, power) as
    laws about calls of the methods.

    GcdLaw.v and TimesLaw.v list the laws; [tower_*] (TowerSpec.v) are the structures
    that can be built from the numbers. *)

From mathcomp Require Import all_ssreflect all_fingroup all_algebra zify ssrZ.
From Coq Require Import ZArith.
From Verif Require Import Rust Traits MInts MConstr Spec PropSpec RingSpec NumSpec Laws.
From Verif Require Import GcdLaw TimesLaw PInts POrders TowerSpec PTower PTowerEx.
From Verif Require Import PCases PCasesT.
From Verif Require Import PGcdLaw PTimesLaw PLawTower Refuted.

Import GRing.Theory.
Local Open Scope ring_scope.

(** ** C58 *)
Theorem C58_divisibility : forall (cfg : Cfg) (p : Prop) (E : Type) (R : idomainType)
    (rep : E -> R -> Prop) (mem : E -> Prop), (forall x, mem x -> exists u, rep x u) ->
  forall (AS : assoc_struct R) (A : IDomAlg E),
  idom_alg_spec cfg p rep AS A -> divisibility_laws p mem A.
Proof. exact divisibility_laws_ok. Qed.
Print Assumptions C58_divisibility.
Example C58_divisibility_case : divisibility_laws False (fun x => exists a, zz_rep x a) ZZ.
Proof. by apply: C58_divisibility (zz_idom debug64). Qed.
Theorem C58_gcd : forall (cfg : Cfg) (p : Prop) (E : Type) (R : idomainType)
    (rep : E -> R -> Prop) (mem : E -> Prop), (forall x, mem x -> exists u, rep x u) ->
  forall (AS : assoc_struct R) (S : eucl_struct R) (A : EuclAlg E),
  eucl_alg_spec cfg p rep AS S A -> gcd_laws p mem A.
Proof. exact gcd_laws_ok. Qed.
Print Assumptions C58_gcd.
Example C58_gcd_case : gcd_laws False (fun x => exists a, zz_rep x a) ZZ.
Proof. by apply: C58_gcd (ZZ_ok debug64 False). Qed.
Theorem C58_divisibility_towers : forall (cfg : Cfg) (p : Prop) (E : Type) (R : idomainType)
    (rep : E -> R -> Prop) (AS : assoc_struct R) (A : IDomAlg E),
  tower_idom cfg p rep AS A -> divisibility_laws p (fun x => exists u, rep x u) A.
Proof. exact tower_divisibility. Qed.
Print Assumptions C58_divisibility_towers.
(** Polynomials with integer coefficients in two variables. *)
Example C58_divisibility_towers_case :
  divisibility_laws False (fun x => exists u, poly_of (poly_of zz_rep) x u) (PolyIDom (PolyIDom ZZ)).
Proof. exact: (C58_divisibility_towers _ _ _ _ _ _ _ (zxy_tower debug64 False)). Qed.
Theorem C58_gcd_towers : forall (cfg : Cfg) (p : Prop) (E : Type) (R : idomainType)
    (rep : E -> R -> Prop) (AS : assoc_struct R) (S : eucl_struct R) (A : EuclAlg E),
  tower_eucl cfg p rep AS S A -> gcd_laws p (fun x => exists u, rep x u) A.
Proof. exact tower_gcd. Qed.
Print Assumptions C58_gcd_towers.
(** The integers, and polynomials over the field with four elements. *)
Example C58_towers cfg p : tower_eucl cfg p zz_rep Z_assoc Z_eucl ZZ /\
  exists (R : idomainType) (rep : _ -> R -> Prop) AS S, tower_eucl cfg p rep AS S (PolyEucl (F4 cfg)).
Proof. by split; [exact: TE_ZZ|do 4 eexists; apply: TE_poly; exact: gf4_field]. Qed.
(** gcd (4, -2) is -2 or 2 depending on the order; 3 * gcd (4, 6) and gcd (12, 18);
    gcd (4, lcm (6, 10)) and lcm (gcd (4, 6), gcd (4, 10)); (1+x)^2 and (1+x)x. *)
Example C58_case :
  [/\ returns (gcd ZZ 4%Z (-2)%Z) (-2)%Z, returns (gcd ZZ (-2)%Z 4%Z) 2%Z,
      returns (alike ZZ (gcd ZZ 4%Z (-2)%Z) (gcd ZZ (-2)%Z 4%Z)) true,
      returns (gcd ZZ 12%Z 18%Z) 6%Z & returns (relative_primes ZZ 4%Z 6%Z) false] /\
  [/\ returns (let! l := lcm ZZ 6%Z 10%Z in gcd ZZ 4%Z l)%rust 2%Z,
      returns (gcd (PolyEucl BB) [:: true; false; true] [:: false; true; true])
        [:: true; true],
      returns (lcm (PolyEucl BB) [:: true; false; true] [:: false; true; true])
        [:: false; true; false; true] &
      returns (lcm ZZ 4%Z 0%Z) 0%Z].
Proof. by split; split; run 30%nat. Qed.

(** ** C59 *)
Theorem C59_additive : forall (cfg : Cfg) (p : Prop) (E : Type) (V : zmodType)
    (rep : E -> V -> Prop) (mem : E -> Prop), (forall x, mem x -> exists u, rep x u) ->
  forall A : AbelianAlg E, abelian_alg_spec cfg p rep A -> additive_laws cfg p mem A.
Proof. exact additive_laws_ok. Qed.
Print Assumptions C59_additive.
Example C59_additive_case cfg :
  additive_laws cfg False (fun x => exists a, zz_rep x a) (ring_abelian ZZ).
Proof. by apply: C59_additive (zz_abelian cfg). Qed.
Theorem C59_int : forall (cfg : Cfg) (p : Prop) (E : Type) (V : zmodType)
    (rep : E -> V -> Prop) (mem : E -> Prop) (op : V -> V -> V) (e : V),
  (forall x, mem x -> exists u, rep x u) -> left_id e op -> right_id e op ->
  (forall a b c : V, op a (b + c) = op a b + op a c) ->
  (forall a b c : V, op (a + b) c = op a c + op b c) ->
  forall A : RingAlg E, ring_alg_spec cfg p rep op e A -> int_laws cfg p mem A.
Proof. exact int_laws_ok. Qed.
Print Assumptions C59_int.
Example C59_int_case cfg : int_laws cfg False (fun x => exists a, zz_rep x a) ZZ.
Proof.
by apply: C59_int (zz_ring cfg) => //; [exact: mul1r|exact: mulr1|exact: mulrDr|exact: mulrDl].
Qed.
Theorem C59_power : forall (cfg : Cfg) (p : Prop) (E : Type) (V : eqType)
    (rep : E -> V -> Prop) (mem : E -> Prop) (op : V -> V -> V) (e : V) (inv : V -> V),
  (forall x, mem x -> exists u, rep x u) ->
  associative op -> left_id e op -> right_id e op ->
  (forall x u, rep x u -> inverse_of op e u (inv u)) ->
  forall A : GroupAlg E, group_alg_spec cfg p rep op e inv A -> power_laws cfg p mem A.
Proof. exact power_laws_ok. Qed.
Print Assumptions C59_power.
Example C59_power_case cfg :
  power_laws cfg False (fun x => exists a, zz_rep x a) (AdditiveGroup cfg (ring_abelian ZZ)).
Proof.
apply: C59_power (zz_group cfg) => //; [exact: addrA|exact: addr0|].
by move=> x u _; split; rewrite ?addNr ?addrN.
Qed.
Theorem C59_field : forall (cfg : Cfg) (p : Prop) (E : Type) (F : fieldType)
    (rep : E -> F -> Prop) (mem : E -> Prop), (forall x, mem x -> exists u, rep x u) ->
  forall A : FieldAlg E, field_alg_spec cfg p rep A -> field_power_laws cfg p mem A.
Proof. exact field_power_laws_ok. Qed.
Print Assumptions C59_field.
Example C59_field_case cfg : field_power_laws cfg False (fun x => exists a, qq_rep x a) (QQ cfg).
Proof. by apply: C59_field (qq_field cfg). Qed.
Theorem C59_ring_towers : forall (cfg : Cfg) (p : Prop), Z.le 2 (ptr_bits cfg) ->
  forall (E : Type) (V : zmodType) (rep : E -> V -> Prop) (op : V -> V -> V) (e : V)
    (A : RingAlg E), tower_ring cfg p rep op e A ->
  additive_laws cfg p (fun x => exists u, rep x u) (ring_abelian A) /\
  int_laws cfg p (fun x => exists u, rep x u) A.
Proof. exact tower_times. Qed.
Print Assumptions C59_ring_towers.
(** Matrices of rational functions over the field with four elements. *)
Example C59_ring_towers_case :
  int_laws debug64 False (fun x => exists u, @matrix_of 2 _ _ rat4_rep x u)
    (MatrixRing debug64 (Rat4 debug64) 2).
Proof. by have [|_] := C59_ring_towers _ _ _ _ _ _ _ _ _ (mat4_tower debug64 False). Qed.
Theorem C59_field_towers : forall (cfg : Cfg) (p : Prop) (E : Type) (F : fieldType)
    (rep : E -> F -> Prop) (A : FieldAlg E), tower_field cfg p rep A ->
  field_power_laws cfg p (fun x => exists u, rep x u) A.
Proof. exact tower_field_power. Qed.
Print Assumptions C59_field_towers.
Example C59_field_towers_case cfg :
  field_power_laws cfg False (fun x => exists u, rat4_rep x u) (Rat4 cfg).
Proof. exact: (C59_field_towers _ _ _ _ _ _ (rat4_tower cfg False)). Qed.
Theorem C59_permutations : forall (cfg : Cfg) (p : Prop) (n : nat),
  power_laws cfg p (fun v => exists s : {perm 'I_n}, permutation_of v s) (Permutations cfg n).
Proof. exact permutation_powers. Qed.
Print Assumptions C59_permutations.
Theorem C59_additive_group : forall (cfg : Cfg) (p : Prop) (E : Type) (V : zmodType)
    (rep : E -> V -> Prop) (A : AbelianAlg E), abelian_alg_spec cfg p rep A ->
  power_laws cfg p (fun x => exists u, rep x u) (AdditiveGroup cfg A).
Proof. exact additive_powers. Qed.
Print Assumptions C59_additive_group.
Example C59_additive_group_case cfg :
  power_laws cfg False (fun x => exists u, zz_rep x u) (AdditiveGroup cfg (ring_abelian ZZ)).
Proof. exact: (C59_additive_group _ _ _ _ _ _ (zz_abelian cfg)). Qed.
Theorem C59_multiplicative_group : forall (cfg : Cfg) (p : Prop) (E : Type) (V : eqType)
    (rep : E -> V -> Prop) (op : V -> V -> V) (e : V) (inv : V -> V) (A : MonoidAlg E),
  associative op -> left_id e op -> right_id e op -> monoid_alg_spec p rep op e A ->
  (forall u, (exists v, inverse_of op e u v) -> inverse_of op e u (inv u)) ->
  power_laws cfg p (fun x => exists u v, rep x u /\ inverse_of op e u v)
    (MultiplicativeGroup cfg A).
Proof. exact multiplicative_powers. Qed.
Print Assumptions C59_multiplicative_group.
Example C59_towers cfg p : exists (V : zmodType) (rep : _ -> V -> Prop) op e,
  tower_ring cfg p rep op e (MatrixRing cfg (QQ cfg) 2).
Proof. by do 4 eexists; apply: TR_matrix; apply: TF_fractions; exact: TE_ZZ. Qed.
(** times (-3) and int (-3) times; three turns of a 3-cycle; (2/3)^(2 * -2). *)
Example C59_case :
  [/\ returns (ztimes (QuotientRing debug64 ZZ 7%Z) (-3) 2%Z) 1%Z,
      returns (let! a := int (QuotientRing debug64 ZZ 7%Z) (-3) in
               mul (QuotientRing debug64 ZZ 7%Z) a 2%Z)%rust 1%Z,
      returns (gpower (Permutations debug64 4) 3 [:: 1; 2; 0; 3]%nat) [:: 0; 1; 2; 3]%nat,
      returns (gpower (Permutations debug64 4) (-1) [:: 1; 2; 0; 3]%nat) [:: 2; 0; 1; 3]%nat &
      returns (fpower (QQ debug64) (-4) (2, 3)%Z) (81, 16)%Z].
Proof. by split; run 30%nat. Qed.
