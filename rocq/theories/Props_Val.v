(** * Props_Val.v -- C99: residues of polynomials and vectors of values.

    [values_at rep a x y] (ValSpec.v): x is a polynomial of degree below n, y the vector of
    its values at the points a_0, ..., a_(n-1). [ring_alg_par ok R A B] (ParSpec.v): if R
    relates the arguments, each ring method of A and of B returns related values, or
    both panic. *)

From mathcomp Require Import all_ssreflect all_algebra zify ssrZ.
From Coq Require Import ZArith Lia.
From Verif Require Import Rust RustFacts Traits MInts MConstr Spec PropSpec RingSpec NumSpec ModSpec.
From Verif Require Import TowerSpec ParSpec SameSpec ValSpec.
From Verif Require Import PTower PTowerEx PSame2 PVal PValEx Refuted.

Import GRing.Theory.
Local Open Scope ring_scope.

(** The quotient by a product of different linear factors computes like the vectors. *)
Theorem C99_values : forall (c : Cfg) (E : Type) (F : fieldType) (rep : E -> F -> Prop)
    (A : FieldAlg E),
  field_alg_spec c False rep A -> field_alg_par (usual_isize c) eq A A ->
  forall (n : nat) (a : 'I_n.+1 -> F) (v : seq E),
  injective a -> poly_of rep v (\prod_i ('X - (a i)%:P)) ->
  ring_alg_par (usual_isize c) (values_at rep a)
    (QuotientRing c (PolyEucl A) v) (VectorRing c n.+1 A).
Proof. exact values_same. Qed.
Print Assumptions C99_values.
Example C99_values_case c : ring_alg_par (usual_isize c)
  (values_at gf4_rep (fun i : 'I_3 => gf4_x ^+ i))
  (QuotientRing c (PolyEucl (F4 c)) cubic1) (VectorRing c 3 (F4 c)).
Proof.
apply: (C99_values c _ _ _ _ (finite_field_contract (gf4_tower c)) (tower_settled (gf4_tower c))).
  exact: powers_inj gf4_x_primitive.
rewrite (powers_prod gf4_x_primitive); exact: cubic1_of.
Qed.

(** Interpolation: each vector belongs to exactly one polynomial of degree below n, and
    each such polynomial to exactly one vector. *)
Theorem C99_interpolation : forall (E : Type) (F : fieldType) (rep : E -> F -> Prop),
  (forall x u w, rep x u -> rep x w -> u = w) ->
  (forall x y u, rep x u -> rep y u -> x = y) -> (forall u, exists x, rep x u) ->
  forall (n : nat) (a : 'I_n.+1 -> F), injective a ->
  pairs_off (fun x => exists2 U : {poly F}, poly_of rep x U & (size x <= n.+1)%nat)
    (fun y => exists f : {ffun 'I_n.+1 -> F}, vector_of rep y f) (values_at rep a) /\
  exhausts (fun y => exists f : {ffun 'I_n.+1 -> F}, vector_of rep y f) (values_at rep a).
Proof. exact values_pairs. Qed.
Print Assumptions C99_interpolation.
Example C99_interpolation_case :
  pairs_off (fun x => exists2 U : {poly gf4}, poly_of gf4_rep x U & (size x <= 3)%nat)
    (fun y => exists f : {ffun 'I_3 -> gf4}, vector_of gf4_rep y f)
    (values_at gf4_rep (fun i : 'I_3 => gf4_x ^+ i)).
Proof.
have [_ ronto rinj] := finite_field_members (gf4_tower debug64).
have rfun := finite_field_fun (gf4_tower debug64).
exact: (proj1 (C99_interpolation _ _ _ rfun rinj ronto _ _ (powers_inj gf4_x_primitive))).
Qed.

(** The Fourier transform turns cyclic convolution into the product of vectors. *)
Theorem C99_fourier : forall (c : Cfg) (E : Type) (F : fieldType) (rep : E -> F -> Prop)
    (A : FieldAlg E),
  field_alg_spec c False rep A -> field_alg_par (usual_isize c) eq A A ->
  forall (n : nat) (g : F) (v : seq E),
  n.+1.-primitive_root g -> poly_of rep v ('X^n.+1 - 1) ->
  ring_alg_par (usual_isize c) (values_at rep (fun i : 'I_n.+1 => g ^+ i))
    (QuotientRing c (PolyEucl A) v) (VectorRing c n.+1 A).
Proof. exact fourier_same. Qed.
Print Assumptions C99_fourier.
(** Over the field with 4 elements 0, 1, w, w^2 = 1 + w: the product of 1 + w x and x + x^2
    modulo x^3 - 1 is w + x + w^2 x^2. The values at 1, w, w^2 are (w^2, w, 0), (0, 1, 1)
    and (0, w, 0). *)
Example C99_fourier_case : 3.-primitive_root gf4_x /\ poly_of gf4_rep cubic1 ('X^3 - 1 : {poly gf4}) /\
  returns (mul (QuotientRing debug64 (PolyEucl (F4 debug64)) cubic1)
    [:: [:: true]; [:: false; true]] [:: [::]; [:: true]; [:: true]])
    [:: [:: false; true]; [:: true]; [:: true; true]] /\
  returns (mul (VectorRing debug64 3 (F4 debug64))
    [:: [:: true; true]; [:: false; true]; [::]] [:: [::]; [:: true]; [:: true]])
    [:: [::]; [:: false; true]; [::]].
Proof.
by split; [exact: gf4_x_primitive|split; [exact: cubic1_of|split; run 30%nat]].
Qed.
