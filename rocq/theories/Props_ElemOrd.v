(** * Props_ElemOrd.v -- C118: the order of an element of a field. *)

From mathcomp Require Import all_ssreflect all_algebra.
From Coq Require Import ZArith.
From Verif Require Import Rust Traits MInts MConstr Spec PropSpec RingSpec TowerSpec Quotient FFSpec.
From Verif Require Import PTower PIrrEx PDlogEx ElemOrdSpec PElemOrd PElemOrdEx Refuted.

(** If x^n = 1 and n divides the product of the primes in a list, the program
    [element_order] of ElemOrdSpec.v returns the smallest positive d with x^d = 1; the
    exponents of the powers that are 1 are the multiples of d. *)
Theorem C118_order : forall (cfg : Cfg) (p : Prop) (E : Type) (F : fieldType)
    (rep : E -> F -> Prop) (A : FieldAlg E), field_alg_spec cfg p rep A ->
  forall (n : nat) (primes : seq nat) (x : E) (u : F), rep x u -> 0 < n -> (u ^+ n = 1)%R ->
  all prime primes -> n %| \prod_(r <- primes) r -> good_isize cfg (Z.of_nat n) ->
  ensures p (element_order A n primes x) (fun d =>
    [/\ 0 < d, (u ^+ d = 1)%R, forall e, 0 < e < d -> (u ^+ e <> 1)%R &
        forall e, (u ^+ e = 1)%R <-> d %| e]).
Proof. exact element_order_ok. Qed.
Print Assumptions C118_order.
(** In the field of the crate's test [field_256], x has order 51. *)
Example C118_order_case :
  (exists (F : fieldType) (rep : seq Z -> F -> Prop),
    field_alg_spec debug64 False rep (field256 debug64) /\
    exists u, rep (0 :: 1 :: nil)%Z u /\ (u ^+ 255 = 1)%R) /\
  all prime [:: 3; 5; 17] /\ 255 %| \prod_(r <- [:: 3; 5; 17]) r /\
  good_isize debug64 (Z.of_nat 255) /\
  returns (element_order (field256 debug64) 255 [:: 3; 5; 17] (0 :: 1 :: nil)%Z) 51.
Proof.
split; [exact field256_fermat|split=> //; split; first by rewrite unlock].
by split; [split|exact order_x].
Qed.

(** The generators of a finite field with k elements are the elements for which it returns
    k - 1. *)
Theorem C118_generator : forall (cfg : Cfg) (E : Type) (F : fieldType) (rep : E -> F -> Prop)
    (A : FieldAlg E) (k : nat), finite_field cfg rep A k -> good_isize cfg (Z.of_nat k) ->
  forall (primes : seq nat) (x : E), (exists u, rep x u) -> returns (is_zero A x) false ->
  all prime primes -> k.-1 %| \prod_(r <- primes) r ->
  generates (fun y => exists u, rep y u) A k x <->
  returns (element_order A k.-1 primes x) k.-1.
Proof. exact element_order_generator. Qed.
Print Assumptions C118_generator.
(** 1 + x is a generator. *)
Example C118_generator_case :
  (exists (F : fieldType) (rep : seq Z -> F -> Prop),
    [/\ finite_field debug64 rep (field256 debug64) 256, good_isize debug64 (Z.of_nat 256),
      exists u, rep (1 :: 1 :: nil)%Z u &
      returns (is_zero (field256 debug64) (1 :: 1 :: nil)%Z) false]) /\
  all prime [:: 3; 5; 17] /\ 256.-1 %| \prod_(r <- [:: 3; 5; 17]) r /\
  returns (element_order (field256 debug64) 256.-1 [:: 3; 5; 17] (1 :: 1 :: nil)%Z) 256.-1.
Proof.
split; last by split=> //; split; [rewrite unlock|exact order_1x].
have [F [rep [t g gg z _]]] := field256_log; exists F, rep; split=> //; exact (ge_mem gg).
Qed.
