(** * Props_Entry.v -- C75: vectors, matrices and polynomials are computed entry by entry.

    [entrywise d n m entry] (EntrySpec.v): the call [m] returns the vector of the results of
    the [n] calls [entry k] if all of them return, and panics exactly if one of them panics.
    [entrywise1 d Q n f g] and [entrywise2 d Q n f g]: so does the method [g] of vectors of
    length [n] with entries in [Q], for the calls of the method [f] on the entries.
    [sum_of_products] is the program that adds products from left to right to zero;
    [row_column] and [convolution] (SumSpec.v) list the factors. [d] is only the value of
    [nth] outside of the vector.

    The base is any implementation of the trait, lawful or not, whose calls end on the
    values in [Q] (see C62), for instance the floats. *)

From mathcomp Require Import all_ssreflect all_algebra zify ssrZ.
From Coq Require Import ZArith SpecFloat.
From Flocq Require Import Core BinarySingleNaN.
From Verif Require Import Rust Traits MInts MConstr MFloats ProfSpec HaltSpec SumSpec EntrySpec FloatAlgSpec.
From Verif Require Import Wp.
From Verif Require Import PFloat3 PFloatAlg PHalt3 PHaltF PEntry Refuted.

Theorem C75_matrix_mul : forall (cfg : Cfg) (E : Type) (d : E) (Q : E -> Prop) (A : FieldAlg E),
  field_alg_rel (@halts) every_num Q A A -> (exists z, returns (zero A) z) ->
  forall (n : nat) (v u : seq E), size v = (n * n)%nat -> size u = (n * n)%nat ->
  (forall k, (k < n * n)%nat -> Q (nth d v k)) -> (forall k, (k < n * n)%nat -> Q (nth d u k)) ->
  entrywise d (n * n)%nat (mul (MatrixRing cfg A n) v u)
    (fun k => sum_of_products (zero A) (mul A) (add_assign A)
       (row_column d n v u (k %/ n) (k %% n))).
Proof. exact matrix_product. Qed.
Print Assumptions C75_matrix_mul.
(** Matrices of floats. *)
Example C75_matrix_mul_case cfg (v u : seq f64) : size v = (3 * 3)%nat -> size u = (3 * 3)%nat ->
  entrywise (B754_zero false) (3 * 3)%nat (mul (MatrixRing cfg (F64 cfg) 3) v u)
    (fun k => sum_of_products (zero (F64 cfg)) (mul (F64 cfg)) (add_assign (F64 cfg))
       (row_column (B754_zero false) 3 v u (k %/ 3) (k %% 3))).
Proof.
have [_ _ h _] := halt_f32_f64 cfg => hv hu.
apply: (C75_matrix_mul cfg f64 (B754_zero false) (fun _ => True) (F64 cfg) h _ 3 v u hv hu) => //.
by eexists; exact: returns_ret.
Qed.
Theorem C75_matrix_add : forall (cfg : Cfg) (E : Type) (d : E) (Q : E -> Prop) (A : FieldAlg E),
  field_alg_rel (@halts) every_num Q A A -> forall n : nat,
  let B := MatrixRing cfg A n in let m := (n * n)%nat in
  [/\ entrywise2 d Q m (add A) (add B), entrywise2 d Q m (add_assign A) (add_assign B)
    & entrywise1 d Q m (double A) (double B)] /\
  [/\ entrywise1 d Q m (neg A) (neg B), entrywise1 d Q m (neg_assign A) (neg_assign B),
      entrywise2 d Q m (sub A) (sub B) & entrywise2 d Q m (sub_assign A) (sub_assign B)].
Proof. exact matrix_sum. Qed.
Print Assumptions C75_matrix_add.
Example C75_matrix_add_case cfg (B := MatrixRing cfg (F64 cfg) 3) :
  entrywise2 (B754_zero false) (fun _ => True) (3 * 3)%nat (add (F64 cfg)) (add B).
Proof.
have [_ _ h _] := halt_f32_f64 cfg.
by have [[]] := C75_matrix_add cfg f64 (B754_zero false) (fun _ => True) (F64 cfg) h 3.
Qed.
Theorem C75_poly_mul : forall (E : Type) (d : E) (Q : E -> Prop) (A : RingAlg E),
  ring_alg_rel (@halts) every_num Q A A -> (exists z, returns (zero A) z) ->
  forall v u : seq E,
  (forall k, (k < size v)%nat -> Q (nth d v k)) -> (forall k, (k < size u)%nat -> Q (nth d u k)) ->
  entrywise d (if (size v == 0%nat) || (size u == 0%nat) then 0%nat else (size v + size u).-1)
    (mul (PolyRing A) v u)
    (fun k => sum_of_products (zero A) (mul A) (add A) (convolution d v u k)).
Proof. exact poly_product. Qed.
Print Assumptions C75_poly_mul.
Example C75_poly_mul_case cfg (a b c d : f64) :
  entrywise (B754_zero false) 3 (mul (PolyRing (F64 cfg)) [:: a; b] [:: c; d])
    (fun k => sum_of_products (zero (F64 cfg)) (mul (F64 cfg)) (add (F64 cfg))
       (convolution (B754_zero false) [:: a; b] [:: c; d] k)).
Proof.
have [_ _ h _] := halt_f32_f64 cfg.
apply: (C75_poly_mul f64 (B754_zero false) (fun _ => True) (F64 cfg) h _ [:: a; b] [:: c; d]) => //.
by eexists; exact: returns_ret.
Qed.
Theorem C75_vector : forall (cfg : Cfg) (E : Type) (d : E) (Q : E -> Prop) (A : RingAlg E),
  ring_alg_rel (@halts) every_num Q A A -> forall n : nat,
  let B := VectorRing cfg n A in
  [/\ entrywise2 d Q n (mul A) (mul B), entrywise2 d Q n (mul_assign A) (mul_assign B)
    & entrywise1 d Q n (square A) (square B)] /\
  [/\ entrywise2 d Q n (add A) (add B), entrywise2 d Q n (add_assign A) (add_assign B)
    & entrywise1 d Q n (double A) (double B)] /\
  [/\ entrywise1 d Q n (neg A) (neg B), entrywise1 d Q n (neg_assign A) (neg_assign B),
      entrywise2 d Q n (sub A) (sub B) & entrywise2 d Q n (sub_assign A) (sub_assign B)].
Proof. exact vector_ring_entries. Qed.
Print Assumptions C75_vector.
Example C75_vector_case cfg (B := VectorRing cfg 3 (F64 cfg)) :
  entrywise2 (B754_zero false) (fun _ => True) 3 (mul (F64 cfg)) (mul B).
Proof.
have [_ _ h _] := halt_f32_f64 cfg.
by have [[]] := C75_vector cfg f64 (B754_zero false) (fun _ => True) (F64 cfg) h 3.
Qed.
Theorem C75_vector_lattice : forall (E : Type) (d : E) (Q : E -> Prop) (n : nat)
    (A : LatticeAlg E), let B := VectorLattice n A in lattice_alg_rel (@halts) Q A A ->
  entrywise2 d Q n (meet A) (meet B) /\ entrywise2 d Q n (join A) (join B).
Proof. exact vector_lattice_entries. Qed.
Print Assumptions C75_vector_lattice.

(** The hypotheses hold for the fractions of 8-bit integers, and for f64. *)
Example C75_base cfg :
  field_alg_rel (@halts) every_num (in_pair (in_i 8))
    (ReducedFractions cfg (CheckedInts cfg 8)) (ReducedFractions cfg (CheckedInts cfg 8)) /\
  field_alg_rel (@halts) every_num (fun _ => True) (F64 cfg) (F64 cfg).
Proof.
split; last by case: (halt_f32_f64 cfg).
apply: (proj1 (@halt_field_stmt cfg _ _ (fun c => ReducedFractions c (CheckedInts c 8)) _)).
by apply: prof_ReducedFractions; exact: prof_CheckedInts.
Qed.
(** Fractions of i8: 1/11 + 1/12 panics, and so does the product of matrices where it
    occurs in one entry; a product of polynomials where it does
    not occur returns.
    Floats: in the third coefficient of the product 2^53 + 1 - 2^53 is computed from left
    to right and gives 0. *)
Example C75_case :
  [/\ panics (mul (MatrixRing debug64 (ReducedFractions debug64 (I8 debug64)) 2)
        [:: (1, 1); (1, 1); (0, 1); (1, 1)]%Z [:: (1, 11); (0, 1); (1, 12); (1, 2)]%Z),
      panics (sum_of_products (zero (ReducedFractions debug64 (I8 debug64)))
        (mul (ReducedFractions debug64 (I8 debug64)))
        (add_assign (ReducedFractions debug64 (I8 debug64)))
        [:: ((1, 1), (1, 11)); ((1, 1), (1, 12))]%Z),
      returns (mul (PolyRing (ReducedFractions debug64 (I8 debug64)))
        [:: (1, 11); (1, 12)]%Z [:: (-1, 1); (0, 1); (7, 1)]%Z)
        [:: (-1, 11); (-1, 12); (7, 11); (7, 12)]%Z &
      shows_all (mul (PolyRing (F64 debug64)) [:: f64_num 1 53; f64_num 1 0; f64_num (-1) 53]
        [:: f64_num 1 0; f64_num 1 0; f64_num 1 0])
        [:: S754_finite false 4503599627370496 1; S754_finite false 4503599627370496 1;
            S754_zero false; S754_finite true 9007199254740991 0;
            S754_finite true 4503599627370496 1]].
Proof. by split; [run 20%nat|run 20%nat|run 20%nat|show_all 20%nat]. Qed.
