(** * Props_Count.v -- how many members the finite structures have, and the orders of
    their elements (C48, C49).

    [accepted A x] (CountSpec.v): [contains] returns true; [has_members P k] (TowerSpec.v):
    exactly [k] values have the property [P]. *)

From mathcomp Require Import all_ssreflect all_fingroup all_algebra zify ssrZ.
From Coq Require Import ZArith.
From Verif Require Import Rust Traits MInts MConstr Spec PropSpec RingSpec TowerSpec CountSpec.
From Verif Require Import PCases PTowerEx PGroups PPoly.
From Verif Require Import PCount PCount2 PCount3 PInts POrders PTower Refuted.

Import GRing.Theory.

(** ** C48: the number of members *)
Theorem C48_modular : forall (cfg : Cfg) (m : Z), m <> 0%Z ->
  has_members (accepted (QuotientRing cfg ZZ m)) (Z.to_nat (Z.abs m)) /\
  has_members (accepted (QuotientField cfg ZZ m)) (Z.to_nat (Z.abs m)).
Proof. exact modular_accepted. Qed.
Print Assumptions C48_modular.
Example C48_modular_case cfg : has_members (accepted (QuotientRing cfg ZZ (-10)%Z)) 10.
Proof. by have [|h _] := C48_modular cfg (-10)%Z. Qed.
Theorem C48_modular_checked : forall (cfg : Cfg) (w m : Z), m <> 0%Z -> (2 <= w)%Z -> in_i w m ->
  has_members (fun x => in_i w x /\ accepted (QuotientRing cfg (CheckedInts cfg w) m) x)
    (Z.to_nat (Z.abs m)) /\
  has_members (fun x => in_i w x /\ accepted (QuotientField cfg (CheckedInts cfg w) m) x)
    (Z.to_nat (Z.abs m)).
Proof. exact modular_checked_accepted. Qed.
Print Assumptions C48_modular_checked.
(** The hypotheses hold for i8 and the modulus -128, whose absolute value is not an i8. *)
Example C48_modular_checked_case : (-128 <> 0)%Z /\ (2 <= 8)%Z /\ in_i 8 (-128).
Proof. by []. Qed.
Theorem C48_vectors : forall (E : Type) (A : Domain E) (k n : nat),
  has_members (accepted A) k -> has_members (accepted (vector_domain n A)) (expn k n).
Proof. exact vectors_accepted. Qed.
Print Assumptions C48_vectors.
(** The eight vectors of three bits. *)
Example C48_vectors_case : has_members (accepted (vector_domain 3 BB)) 8.
Proof.
apply: (C48_vectors _ _ 2 3); exists [:: true; false]; split=> //.
  by repeat constructor; rewrite /= => -[].
by case; split=> [_|_]; rewrite /accepted /=; auto; run 10%nat.
Qed.
Theorem C48_matrices : forall (E : Type) (A : FieldAlg E) (k n : nat),
  has_members (accepted A) k -> has_members (accepted (matrix_domain A n)) (expn k (n * n)).
Proof. exact matrices_accepted. Qed.
Print Assumptions C48_matrices.
Example C48_matrices_case cfg : has_members (accepted (QuotientField cfg ZZ 7%Z)) 7.
Proof. by have [] := C48_modular cfg 7%Z. Qed.
(** The polynomials with at most [d] coefficients, over a structure with exactly one
    zero. *)
Theorem C48_polynomials : forall (E : Type) (A : AbelianAlg E) (k : nat) (z : E),
  has_members (accepted A) k -> accepted A z -> returns (is_zero A z) true ->
  (forall x, accepted A x -> x <> z -> returns (is_zero A x) false) ->
  forall d : nat, has_members (fun v => accepted (poly_domain A) v /\ (size v <= d)%nat)
    (expn k d).
Proof. exact polys_accepted. Qed.
Print Assumptions C48_polynomials.
Example C48_polynomials_case :
  [/\ accepted BB false, returns (is_zero BB false) true &
      forall x, accepted BB x -> x <> false -> returns (is_zero BB x) false].
Proof. by split; [exists 0%nat|exists 0%nat|case=> // _ _; exists 0%nat]. Qed.
Theorem C48_permutations : forall (cfg : Cfg) (n : nat),
  has_members (accepted (Permutations cfg n)) n`!.
Proof. exact permutations_accepted. Qed.
Print Assumptions C48_permutations.
(** The units modulo [m]: Euler's function. *)
Theorem C48_units : forall (cfg : Cfg) (m : Z), (2 <= Z.abs m)%Z ->
  (forall x, unit_member cfg (QuotientRing cfg ZZ m) x <->
     (0 <= x < Z.abs m)%Z /\ Z.gcd x m = 1%Z) /\
  has_members (unit_member cfg (QuotientRing cfg ZZ m)) (totient (Z.to_nat (Z.abs m))).
Proof. exact (fun cfg m h => conj (@modular_unit_member cfg m h) (modular_units_count cfg h)). Qed.
Print Assumptions C48_units.
Example C48_units_case : (2 <= Z.abs 12)%Z /\ totient (Z.to_nat (Z.abs 12)) = 4%nat.
Proof. by []. Qed.
(** MultiplicativeGroup itself accepts more: only invertibility is looked at. *)
Theorem C48_units_unreduced : forall cfg : Cfg,
  returns (contains (MultiplicativeGroup cfg (QuotientRing cfg ZZ 5%Z)) 12%Z) true /\
  returns (contains (QuotientRing cfg ZZ 5%Z) 12%Z) false.
Proof. exact multiplicative_contains_12. Qed.
Print Assumptions C48_units_unreduced.
(** The general linear group over a finite field. *)
Theorem C48_GL : forall (cfg : Cfg) (E : Type) (F : fieldType) (rep : E -> F -> Prop)
    (A : FieldAlg E) (q n : nat), finite_field cfg rep A q -> Z.le 2 (ptr_bits cfg) ->
  (forall x, (exists2 N : 'M[F]_n, matrix_of rep x N & N \in unitmx) <->
     (exists N : 'M[F]_n, matrix_of rep x N) /\
     accepted (MultiplicativeGroup cfg (MatrixRing cfg A n)) x) /\
  has_members (fun x => (exists N : 'M[F]_n, matrix_of rep x N) /\
    accepted (MultiplicativeGroup cfg (MatrixRing cfg A n)) x) (GL_order q n).
Proof. exact (fun cfg E F rep A q n h c => conj (GL_member n h c) (GL_count n h c)). Qed.
Print Assumptions C48_GL.
Example C48_GL_case cfg : finite_field cfg bb_rep BB 2 /\ GL_order 2 3 = 168%nat.
Proof. by split; [exact: FF_BB|rewrite /GL_order !big_ord_recl big_ord0]. Qed.

(** ** C49: the order of an element divides the order of the group *)
Theorem C49_groups : forall (cfg : Cfg) (E : Type) (V : eqType) (rep : E -> V -> Prop)
    (op : V -> V -> V) (e : V) (inv : V -> V) (G : GroupAlg E),
  group_alg_spec cfg False rep op e inv G ->
  (forall x y u, rep x u -> rep y u -> x = y) ->
  associative op -> left_id e op -> (forall x u, rep x u -> op (inv u) u = e) ->
  forall k : nat, has_members (fun x => exists u, rep x u) k -> good_isize cfg (Z.of_nat k) ->
  forall x u, rep x u -> ensures False (gpower G (Z.of_nat k) x) (fun y => rep y e).
Proof. exact group_lagrange. Qed.
Print Assumptions C49_groups.
(** The additive group of the field with four elements; the permutations of three points. *)
Example C49_groups_case :
  (forall x u, gf4_rep x u ->
   ensures False (gpower (AdditiveGroup debug64 (ring_abelian (F4 debug64))) 4 x)
     (fun y => gf4_rep y 0%R)) /\
  returns (gpower (Permutations debug64 3) 6 [:: 1; 2; 0]%nat) [:: 0; 1; 2]%nat.
Proof.
split; last run 20%nat.
have hF := gf4_tower debug64; have [h _ inj] := finite_field_members hF.
have hR := id_ring_ok (eu_idom_ok (fi_eucl_ok (finite_field_contract hF))).
by apply: (C49_groups _ _ _ gf4_rep _ _ _ _ (additive_group_ok (ring_abelian_ok hR)) inj) _ _ _ 4 h _ => //;
  [exact: addrA|exact: add0r|move=> x u _; exact: addNr].
Qed.
Theorem C49_units : forall (cfg : Cfg) (E : Type) (V : eqType) (rep : E -> V -> Prop)
    (op : V -> V -> V) (e : V) (A : MonoidAlg E),
  associative op -> left_id e op -> right_id e op -> monoid_alg_spec False rep op e A ->
  (forall x y u, rep x u -> rep y u -> x = y) ->
  forall k : nat,
  has_members (fun x => exists u, rep x u /\ exists v, inverse_of op e u v) k ->
  good_isize cfg (Z.of_nat k) ->
  forall x u, rep x u -> (exists v, inverse_of op e u v) ->
  ensures False (gpower (MultiplicativeGroup cfg A) (Z.of_nat k) x) (fun y => rep y e).
Proof. exact units_lagrange. Qed.
Print Assumptions C49_units.
(** The four units modulo 10; Euler's theorem below applies this one to all moduli. *)
Example C49_units_case :
  let G := MultiplicativeGroup debug64 (QuotientRing debug64 ZZ 10%Z) in
  [/\ returns (gpower G 4 3%Z) 1%Z, returns (gpower G 4 7%Z) 1%Z & returns (gpower G 2 7%Z) 9%Z].
Proof. by split; run 20%nat. Qed.
Theorem C49_additive : forall (cfg : Cfg) (E : Type) (V : zmodType) (rep : E -> V -> Prop)
    (A : AbelianAlg E) (k : nat), abelian_alg_spec cfg False rep A ->
  (forall x y u, rep x u -> rep y u -> x = y) ->
  has_members (fun x => exists u, rep x u) k -> good_isize cfg (Z.of_nat k) ->
  forall x u, rep x u ->
  ensures False (gpower (AdditiveGroup cfg A) (Z.of_nat k) x) (fun y => rep y 0%R).
Proof. exact additive_lagrange. Qed.
Print Assumptions C49_additive.
(** The field with four elements. *)
Example C49_additive_case x u : gf4_rep x u ->
  ensures False (gpower (AdditiveGroup debug64 (ring_abelian (F4 debug64))) 4 x)
    (fun y => gf4_rep y 0%R).
Proof.
have hF := gf4_tower debug64; have [h _ inj] := finite_field_members hF.
apply: (C49_additive _ _ _ gf4_rep _ 4) => //.
exact: ring_abelian_ok (id_ring_ok (eu_idom_ok (fi_eucl_ok (finite_field_contract hF)))).
Qed.
(** Euler's theorem. *)
Theorem C49_euler : forall (cfg : Cfg) (m : Z), (2 <= Z.abs m)%Z ->
  forall x, unit_member cfg (QuotientRing cfg ZZ m) x ->
  good_isize cfg (Z.of_nat (totient (Z.to_nat (Z.abs m)))) ->
  returns (gpower (MultiplicativeGroup cfg (QuotientRing cfg ZZ m))
    (Z.of_nat (totient (Z.to_nat (Z.abs m)))) x) 1%Z.
Proof. exact euler. Qed.
Print Assumptions C49_euler.
Example C49_euler_case :
  [/\ unit_member debug64 (QuotientRing debug64 ZZ 12%Z) 7%Z,
      good_isize debug64 (Z.of_nat (totient (Z.to_nat (Z.abs 12)))) &
      returns (gpower (MultiplicativeGroup debug64 (QuotientRing debug64 ZZ 12%Z)) 4 7%Z) 1%Z].
Proof. by split; [split; rewrite /accepted; run 20%nat|split|run 20%nat]. Qed.
Theorem C49_permutations : forall (cfg : Cfg) (n : nat) (v : seq nat),
  accepted (Permutations cfg n) v -> good_isize cfg (Z.of_nat n`!) ->
  returns (gpower (Permutations cfg n) (Z.of_nat n`!) v) (iota 0 n).
Proof. exact permutations_lagrange. Qed.
Print Assumptions C49_permutations.
Example C49_permutations_case :
  [/\ accepted (Permutations debug64 4) [:: 1; 2; 3; 0]%nat,
      good_isize debug64 (Z.of_nat 4`!) &
      returns (gpower (Permutations debug64 4) 24 [:: 1; 2; 3; 0]%nat) [:: 0; 1; 2; 3]%nat].
Proof. by split; [rewrite /accepted; run 20%nat|split|run 20%nat]. Qed.
Theorem C49_GL : forall (cfg : Cfg) (E : Type) (F : fieldType) (rep : E -> F -> Prop)
    (A : FieldAlg E) (q n : nat), finite_field cfg rep A q -> Z.le 2 (ptr_bits cfg) ->
  forall x, (exists N : 'M[F]_n, matrix_of rep x N) ->
  accepted (MultiplicativeGroup cfg (MatrixRing cfg A n)) x ->
  good_isize cfg (Z.of_nat (GL_order q n)) ->
  ensures False (gpower (MultiplicativeGroup cfg (MatrixRing cfg A n))
    (Z.of_nat (GL_order q n)) x) (fun z => @matrix_of n E F rep z 1%:M%R).
Proof. exact GL_lagrange. Qed.
Print Assumptions C49_GL.
Example C49_GL_case :
  [/\ accepted (MultiplicativeGroup debug64 (MatrixRing debug64 BB 2)) [:: true; true; true; false],
      good_isize debug64 (Z.of_nat 6) &
      returns (gpower (MultiplicativeGroup debug64 (MatrixRing debug64 BB 2)) 6
        [:: true; true; true; false]) [:: true; false; false; true]].
Proof. by split; [rewrite /accepted; run 20%nat|split|run 20%nat]. Qed.
