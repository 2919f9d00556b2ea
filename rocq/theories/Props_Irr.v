(** * Props_Irr.v -- C97 (deciding irreducibility, and with it whether QuotientField is
    a field) and C98 (recognising generators of finite fields). *)

From mathcomp Require Import all_ssreflect all_algebra.
From Coq Require Import ZArith.
From Verif Require Import Rust Traits MInts MConstr Spec PropSpec RingSpec TowerSpec Quotient FFSpec.
From Verif Require Import IrrSpec PIrr PIrr2 PIrrEx Refuted.

(** ** C97: irreducible moduli *)

(** [irreducible_test] is the client program of IrrSpec.v. It never panics, and returns
    true exactly for the irreducible polynomials. *)
Theorem C97_test : forall (cfg : Cfg) (E : Type) (F : fieldType) (rep : E -> F -> Prop)
    (A : FieldAlg E) (k : nat),
  finite_field cfg rep A k ->
  forall (v : seq E) (P : {poly F}), poly_of rep v P -> 1 < size v ->
  decides False (irreducible_test cfg A k v) (@irreducible_elt (poly_idomainType F) P).
Proof. exact irreducible_test_ok. Qed.
Print Assumptions C97_test.
(** The modulus of the crate's test [field_256], and x^2 + 1 over GF(2). *)
Example C97_test_case : finite_field debug64 f2_rep (field2 debug64) 2 /\
  (exists P, poly_of f2_rep poly256 P) /\
  returns (irreducible_test debug64 (field2 debug64) 2 poly256) true /\
  returns (irreducible_test debug64 (field2 debug64) 2 (1 :: 0 :: 1 :: nil)%Z) false.
Proof.
exact (conj (field2_tower _) (conj poly256_of (conj test256 test_square))).
Qed.

(** If the answer is true, the quotient is a field: it has k^n members, the members of
    the polynomial ring shorter than the modulus, and all but zero are inverted. *)
Theorem C97_field : forall (cfg : Cfg) (E : Type) (F : fieldType) (rep : E -> F -> Prop)
    (A : FieldAlg E) (k : nat),
  finite_field cfg rep A k ->
  forall (v : seq E) (P : {poly F}), poly_of rep v P -> 1 < size v ->
  returns (irreducible_test cfg A k v) true ->
  has_members (fun x => (exists U : {poly F}, poly_of rep x U) /\ size x < size v) (expn k (size v).-1) /\
  forall x, (exists U : {poly F}, poly_of rep x U) /\ size x < size v -> x <> nil ->
  exists2 y, (exists U : {poly F}, poly_of rep y U) /\ size y < size v &
    returns (finv (QuotientField cfg (PolyEucl A) v) x) y /\
    returns (let! z := mul (QuotientField cfg (PolyEucl A) v) x y in
             is_one (QuotientField cfg (PolyEucl A) v) z) true.
Proof. exact tested_true. Qed.
Print Assumptions C97_field.
Example C97_field_case :
  returns (irreducible_test debug64 (field2 debug64) 2 poly256) true /\
  returns (finv (field256 debug64) (1 :: 1 :: nil)%Z) (0 :: 1 :: 1 :: 0 :: 1 :: 1 :: 1 :: 1 :: nil)%Z.
Proof. split; [exact test256|by run 100%nat]. Qed.

(** If the answer is false, it is not: some non-zero member makes [inv] panic. *)
Theorem C97_not_field : forall (cfg : Cfg) (E : Type) (F : fieldType) (rep : E -> F -> Prop)
    (A : FieldAlg E) (k : nat),
  finite_field cfg rep A k ->
  forall (v : seq E) (P : {poly F}), poly_of rep v P -> 1 < size v ->
  returns (irreducible_test cfg A k v) false ->
  exists x, [/\ (exists U : {poly F}, poly_of rep x U) /\ size x < size v, x <> nil &
    panics (finv (QuotientField cfg (PolyEucl A) v) x)].
Proof. exact tested_false. Qed.
Print Assumptions C97_not_field.
Example C97_not_field_case :
  (exists P, poly_of f2_rep (1 :: 0 :: 1 :: nil)%Z P) /\
  returns (irreducible_test debug64 (field2 debug64) 2 (1 :: 0 :: 1 :: nil)%Z) false /\
  panics (finv (QuotientField debug64 (PolyEucl (field2 debug64)) (1 :: 0 :: 1 :: nil)%Z)
            (1 :: 1 :: nil)%Z).
Proof. split; [exact square_of|split; [exact test_square|by run 100%nat]]. Qed.

(** ** C98: generators *)

(** A non-zero element generates the multiplicative group exactly when its power
    (k-1)/r is not 1, for each prime divisor r of k - 1. *)
Theorem C98_generator : forall (cfg : Cfg) (E : Type) (F : fieldType) (rep : E -> F -> Prop)
    (A : FieldAlg E) (k : nat),
  finite_field cfg rep A k -> good_isize cfg (Z.of_nat k) ->
  forall x, (exists u, rep x u) -> returns (is_zero A x) false ->
  generates (fun y => exists u, rep y u) A k x <->
  forall r, prime r -> r %| k.-1 ->
    returns (let! y := fpower A (Z.of_nat (k.-1 %/ r)) x in is_one A y) false.
Proof. exact primitive_test. Qed.
Print Assumptions C98_generator.
(** The claim in the crate's test [field_256]: 1 + x generates all 256 elements. *)
Example C98_generator_case : exists (F : fieldType) (rep : seq Z -> F -> Prop),
  finite_field debug64 rep (field256 debug64) 256 /\
  generates (fun x => exists u, rep x u) (field256 debug64) 256 (1 :: 1 :: nil)%Z.
Proof. exact field256_generator. Qed.
