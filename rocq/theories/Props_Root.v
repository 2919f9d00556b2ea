(** * Props_Root.v -- C106: square roots and quadratic equations over finite fields. *)

From mathcomp Require Import all_ssreflect all_algebra ssrZ.
From Coq Require Import ZArith.
From Verif Require Import Rust Traits MInts MConstr Spec PropSpec RingSpec TowerSpec Quotient FFSpec Laws.
From Verif Require Import PIrrEx RootSpec PRoot PRootEx Refuted.

(** In a field with an even number k of elements, power(k/2, x) is the only square root
    of x. *)
Theorem C106_even : forall (cfg : Cfg) (E : Type) (F : fieldType) (rep : E -> F -> Prop)
    (A : FieldAlg E) (k : nat),
  finite_field cfg rep A k -> good_isize cfg (Z.of_nat k) ->
  forall x : E, ~~ odd k -> (exists u, rep x u) ->
  exists2 y, returns (fpower A (Z.of_nat k./2) x) y &
    (exists u, rep y u) /\ returns (mul A y y) x /\
    forall z, (exists u, rep z u) -> returns (mul A z z) x -> z = y.
Proof. exact root_even. Qed.
Print Assumptions C106_even.
(** The field of the crate's test [field_256]. *)
Example C106_even_case : good_isize debug64 256%Z /\
  (exists (F : fieldType) (rep : list Z -> F -> Prop), finite_field debug64 rep (field256 debug64) 256 /\
    exists u, rep (1 :: 1 :: nil)%Z u) /\
  returns (fpower (field256 debug64) 128 (1 :: 1 :: nil))%Z (1 :: 1 :: 0 :: 1 :: 1 :: 1 :: 1 :: 1 :: nil)%Z /\
  returns (let! y := fpower (field256 debug64) 128 (1 :: 1 :: nil)%Z in mul (field256 debug64) y y)
    (1 :: 1 :: nil)%Z.
Proof.
split; first by split.
split; first exact: field256_member.
by split; run 1000%nat.
Qed.

(** In a field with k elements, k = 3 modulo 4, power((k+1)/4, x) is a square root of x
    if there is one. *)
Theorem C106_odd : forall (cfg : Cfg) (E : Type) (F : fieldType) (rep : E -> F -> Prop)
    (A : FieldAlg E) (k : nat),
  finite_field cfg rep A k -> good_isize cfg (Z.of_nat k) -> k %% 4 = 3 ->
  forall x : E, (exists u, rep x u) ->
  decides False
    (let! y := fpower A (Z.of_nat (k.+1 %/ 4)) x in let! z := mul A y y in equals A z x)
    (exists2 y, (exists u, rep y u) & returns (mul A y y) x).
Proof. exact root_three. Qed.
Print Assumptions C106_odd.
(** 2 = 4 * 4 modulo 7, and 3 is not a square. *)
Example C106_odd_case : (finite_field debug64 f7_rep (field7 debug64) 7 /\
  good_isize debug64 7%Z /\ (exists u, f7_rep 3%Z u)) /\
  returns (let! y := fpower (field7 debug64) 2%Z 2%Z in
           let! z := mul (field7 debug64) y y in equals (field7 debug64) z 2%Z) true /\
  returns (let! y := fpower (field7 debug64) 2%Z 3%Z in
           let! z := mul (field7 debug64) y y in equals (field7 debug64) z 3%Z) false.
Proof. split; [exact: field7_hyps|by split; run 100%nat]. Qed.

(** The client program of RootSpec.v finds all roots of x^2 + b x + c. *)
Theorem C106_quadratic : forall (cfg : Cfg) (E : Type) (F : fieldType) (rep : E -> F -> Prop)
    (A : FieldAlg E) (k : nat),
  finite_field cfg rep A k -> good_isize cfg (Z.of_nat k) -> k %% 4 = 3 ->
  forall (x : E) (b : F) (y : E) (c : F), rep x b -> rep y c ->
  ensures False (quadratic A k x y) (fun o =>
    match o with
    | Some w => exists u v, [/\ rep w.1 u, rep w.2 v &
        forall r : F, (r * r + b * r + c = 0 <-> r = u \/ r = v)%R]
    | None => forall r : F, (r * r + b * r + c <> 0)%R
    end).
Proof. exact quadratic_ok. Qed.
Print Assumptions C106_quadratic.
(** x^2 + x + 1 has the roots 2 and 4 modulo 7, and x^2 + x + 3 has none. *)
Example C106_quadratic_case : (finite_field debug64 f7_rep (field7 debug64) 7 /\
  good_isize debug64 7%Z /\ (exists u, f7_rep 3%Z u)) /\
  returns (quadratic (field7 debug64) 7 1 1)%Z (Some (4, 2)%Z) /\
  returns (quadratic (field7 debug64) 7 1 3)%Z None.
Proof. split; [exact: field7_hyps|by split; run 100%nat]. Qed.
