(** * Props_Diag.v -- C55: VectorAlgebra::diagonal and MatrixRing::transpose.

    The records [hom_*] of DiagSpec.v list the methods: for [f] a method of the base and
    [g] the method of the same name of the vector algebra, the call [g] on diagonal
    vectors returns, panics or runs for ever when the call [f] on the entries does, and
    returns the diagonal vector of the result of [f] (for questions: the answer of [f]).
    [anti_automorphism] lists the laws of transposition as statements about calls. *)

From mathcomp Require Import all_ssreflect all_algebra zify ssrZ.
From Coq Require Import ZArith.
From Verif Require Import Rust Traits MInts MConstr Spec PropSpec RingSpec NumSpec Laws.
From Verif Require Import DiagSpec PInts POrders PMatProps PDiag Refuted.

Theorem C55_entries : forall (E : Type) (n i : nat) (x d : E), (i < n)%nat ->
  size (vector_diagonal n x) = n /\ nth d (vector_diagonal n x) i = x.
Proof. exact diag_entries. Qed.
Print Assumptions C55_entries.
Example C55_entries_case : vector_diagonal 3 7%Z = [:: 7; 7; 7]%Z.
Proof. by []. Qed.
Theorem C55_domain : forall (E : Type) (n : nat) (A : Domain E),
  hom_domain (@vector_diagonal E n.+1) A (vector_domain n.+1 A).
Proof. exact diag_domain. Qed.
Print Assumptions C55_domain.
Theorem C55_semigroup : forall (E : Type) (n : nat) (A : Semigroup E),
  hom_semigroup (@vector_diagonal E n.+1) A (vector_semigroup n.+1 A).
Proof. exact diag_semigroup. Qed.
Print Assumptions C55_semigroup.
Theorem C55_monoid : forall (E : Type) (n : nat) (A : Monoid E),
  hom_monoid (@vector_diagonal E n.+1) A (vector_monoid n.+1 A).
Proof. exact diag_monoid. Qed.
Print Assumptions C55_monoid.
Theorem C55_group : forall (cfg : Cfg) (E : Type) (n : nat) (A : GroupAlg E),
  image1 (@vector_diagonal E n.+1) (ginv A) (ginv (vector_group cfg n.+1 A)).
Proof. exact diag_group. Qed.
Print Assumptions C55_group.
Theorem C55_additive : forall (cfg : Cfg) (E : Type) (n : nat) (A : AbelianAlg E),
  hom_cmonoid (@vector_diagonal E n.+1) A (vector_cmonoid n.+1 A) /\
  hom_abelian (@vector_diagonal E n.+1) A (vector_abelian cfg n.+1 A).
Proof. exact (fun cfg E n A => conj (diag_cmonoid n A) (diag_abelian cfg n A)). Qed.
Print Assumptions C55_additive.
Theorem C55_int : forall (E : Type) (n : nat) (A : UnitaryRing E) (z : Z),
  image (@vector_diagonal E n.+1) (int A z) (int (vector_unitary n.+1 A) z).
Proof. exact diag_int. Qed.
Print Assumptions C55_int.
Theorem C55_order : forall (E : Type) (n : nat) (A : OrderAlg E) (L : Lattice E)
    (B : BoundedOrder E) (N : BooleanAlgebra E),
  [/\ hom_order (@vector_diagonal E n.+1) A (vector_order n.+1 A),
      hom_lattice (@vector_diagonal E n.+1) L (vector_lattice n.+1 L),
      hom_bounded (@vector_diagonal E n.+1) B (vector_bounded n.+1 B) &
      image1 (@vector_diagonal E n.+1) (bnot N) (bnot (vector_boolean n.+1 N))].
Proof.
exact (fun E n A L B N => And4 (diag_order n A) (diag_lattice n L) (diag_bounded n B)
  (diag_boolean n N)).
Qed.
Print Assumptions C55_order.
(** Overflow in the base is overflow of the vector; 6 has no inverse modulo 9. *)
Example C55_case :
  [/\ returns (mul (VectorRing debug64 3 (QQ debug64)) (vector_diagonal 3 (1, 2)%Z)
         (vector_diagonal 3 (4, 3)%Z)) (vector_diagonal 3 (2, 3)%Z),
      panics (add (VectorRing debug64 3 (CheckedInts debug64 8)) (vector_diagonal 3 100%Z)
         (vector_diagonal 3 100%Z)),
      panics (add (CheckedInts debug64 8) 100%Z 100%Z),
      returns (try_inv (VectorRing debug64 2 (QuotientRing debug64 ZZ 9%Z))
         (vector_diagonal 2 6%Z)) None &
      returns (try_inv (VectorRing debug64 2 (QuotientRing debug64 ZZ 9%Z))
         (vector_diagonal 2 5%Z)) (Some (vector_diagonal 2 2%Z))].
Proof. by split; run 30%nat. Qed.

(** Transposition of vectors of n * n entries of any type. *)
Theorem C55_transpose : forall (E : Type) (n : nat) (v : seq E), size v = (n * n)%nat ->
  exists2 w, returns (matrix_transpose n v) w & transposed n v w.
Proof. exact transpose_entries. Qed.
Print Assumptions C55_transpose.
Example C55_transpose_case :
  returns (matrix_transpose 2 [:: 1; 2; 3; 4]%Z) [:: 1; 3; 2; 4]%Z.
Proof. by run 20%nat. Qed.
Theorem C55_twice : forall (E : Type) (n : nat) (v : seq E), size v = (n * n)%nat ->
  exists2 w, returns (matrix_transpose n v) w & returns (matrix_transpose n w) v.
Proof. exact transpose_twice. Qed.
Print Assumptions C55_twice.
Example C55_twice_case :
  returns (matrix_transpose 2 [:: 1; 3; 2; 4]%Z) [:: 1; 2; 3; 4]%Z.
Proof. by run 20%nat. Qed.
Theorem C55_laws : forall (cfg : Cfg) (p : Prop) (E : Type) (n : nat) (F : fieldType)
    (rep : E -> F -> Prop) (A : FieldAlg E),
  field_alg_spec cfg p rep A -> Z.le 2 (ptr_bits cfg) ->
  anti_automorphism cfg p (fun x => exists N, @matrix_of n E F rep x N)
    (MatrixRing cfg A n) (matrix_transpose n).
Proof. exact transpose_laws. Qed.
Print Assumptions C55_laws.
Example C55_base cfg : field_alg_spec cfg False bb_rep BB.
Proof. exact: BB_ok. Qed.
(** The order of the factors matters. *)
Example C55_matrix cfg :
  [/\ returns (matrix_transpose 2 [:: true; true; false; true]) [:: true; false; true; true],
      returns (let! a := mul (MatrixRing cfg BB 2) [:: true; true; false; true]
                            [:: true; false; false; false] in matrix_transpose 2 a)
        [:: true; false; false; false],
      returns (mul (MatrixRing cfg BB 2) [:: true; false; false; false]
                            [:: true; false; true; true]) [:: true; false; false; false] &
      returns (mul (MatrixRing cfg BB 2) [:: true; false; true; true]
                            [:: true; false; false; false]) [:: true; false; true; false]].
Proof. by split; run 30%nat. Qed.
