(** * Props_FF.v -- C61: the finite fields that can be built obey the laws of finite fields.

    [finite_field] (TowerSpec.v): prime fields and extensions by irreducible polynomials,
    to any depth; FFSpec.v lists the laws. *)

From mathcomp Require Import all_ssreflect all_algebra zify ssrZ.
From Coq Require Import ZArith.
From Verif Require Import Rust Traits MInts MConstr Spec PropSpec RingSpec NumSpec Laws.
From Verif Require Import FFSpec PInts POrders TowerSpec PTower PTowerEx PFinite PFF Refuted.

Import GRing.Theory.
Local Open Scope ring_scope.

Theorem C61_characteristic : forall (cfg : Cfg) (E : Type) (F : fieldType)
    (rep : E -> F -> Prop) (A : FieldAlg E) (k : nat), finite_field cfg rep A k ->
  good_isize cfg (Z.of_nat k) ->
  exists r d : nat, [/\ prime r, (0 < d)%nat, k = expn r d &
    characteristic_laws (fun x => exists u, rep x u) A r].
Proof. exact characteristic_ok. Qed.
Print Assumptions C61_characteristic.
(** The field with 16 elements. *)
Example C61_characteristic_case : exists r d : nat, [/\ prime r, (0 < d)%nat, 16%nat = expn r d &
  characteristic_laws (fun x => exists u, gf16_rep x u) (F16 debug64) r].
Proof. by apply: (C61_characteristic _ _ _ _ _ _ (gf16_tower debug64)). Qed.
Theorem C61_generator : forall (cfg : Cfg) (E : Type) (F : fieldType)
    (rep : E -> F -> Prop) (A : FieldAlg E) (k : nat), finite_field cfg rep A k ->
  good_isize cfg (Z.of_nat k) ->
  exists g, generates (fun x => exists u, rep x u) A k g.
Proof. exact generator_ok. Qed.
Print Assumptions C61_generator.
Example C61_generator_case : exists g, generates (fun x => exists u, gf16_rep x u) (F16 debug64) 16 g.
Proof. by apply: (C61_generator _ _ _ _ _ _ (gf16_tower debug64)). Qed.
Theorem C61_squares : forall (cfg : Cfg) (E : Type) (F : fieldType)
    (rep : E -> F -> Prop) (A : FieldAlg E) (k : nat), finite_field cfg rep A k ->
  good_isize cfg (Z.of_nat k) ->
  square_laws (fun x => exists u, rep x u) A k.
Proof. exact squares_ok. Qed.
Print Assumptions C61_squares.
(** The field with 16 elements, and the integers modulo 7. *)
Example C61_fields :
  (finite_field debug64 gf16_rep (F16 debug64) 16 /\ good_isize debug64 16) /\
  exists (F : fieldType) (rep : _ -> F -> Prop),
    finite_field debug64 rep (QuotientField debug64 ZZ 7%Z) 7 /\ good_isize debug64 7.
Proof.
split; first by split; [exact: gf16_tower|].
have h7 : Znumtheory.prime 7 by exact: (@prime_Z 7).
by do 2 eexists; split; [exact: (FF_prime debug64 h7)|].
Qed.
(** In F16, (x + y)^2 = x^2 + y^2, where x^2 = x + 1 and y^2 = y + x. Modulo 7, 3
    generates; 2 = 3 * 3 is a square and 3 is not. *)
Example C61_case :
  [/\ returns (fpower (F16 debug64) 2 [:: [:: false; true]; [:: true]])
        [:: [:: true]; [:: true]],
      returns (fpower (F16 debug64) 2 [:: [:: false; true]]) [:: [:: true; true]],
      returns (fpower (F16 debug64) 2 [:: [::]; [:: true]])
        [:: [:: false; true]; [:: true]] &
      returns (ztimes (F16 debug64) 2 [:: [:: false; true]; [:: true]]) [::]] /\
  let F7 := QuotientField debug64 ZZ 7%Z in
  [/\ returns (mapM (fun j => fpower F7 j 3%Z) [:: 0; 1; 2; 3; 4; 5]%Z) [:: 1; 3; 2; 6; 4; 5]%Z,
      returns (fpower F7 3 2%Z) 1%Z, returns (mul F7 3%Z 3%Z) 2%Z,
      returns (fpower F7 3 3%Z) 6%Z & returns (ztimes F7 7 3%Z) 0%Z].
Proof. by split; split; run 60%nat. Qed.
