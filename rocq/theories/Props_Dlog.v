(** * Props_Dlog.v -- C116: discrete logarithms. *)

From mathcomp Require Import all_ssreflect all_algebra.
From Coq Require Import ZArith.
From Verif Require Import Rust Traits MInts MConstr Spec PropSpec RingSpec TowerSpec Quotient FFSpec.
From Verif Require Import PTower PIrrEx DlogSpec PDlog PDlogEx Refuted.

(** The program [discrete_log] of DlogSpec.v returns the smallest n < m * m with g^n = h, and
    None only when there is none; in any field, for any non-zero g. *)
Theorem C116_smallest : forall (cfg : Cfg) (p : Prop) (E : Type) (F : fieldType)
    (rep : E -> F -> Prop) (A : FieldAlg E), field_alg_spec cfg p rep A ->
  forall (m : nat) (g : E) (a : F) (h : E) (b : F), rep g a -> rep h b -> a <> 0%R ->
  ensures p (discrete_log A m g h) (fun o =>
    if o is Some n then b = (a ^+ n)%R /\ n < m * m /\ forall l, l < n -> b <> (a ^+ l)%R
    else forall l, l < m * m -> b <> (a ^+ l)%R).
Proof. exact discrete_log_ok. Qed.
Print Assumptions C116_smallest.
(** In the field of the crate's test [field_256], x = (1 + x)^25, which is beyond 5 * 5. *)
Example C116_smallest_case :
  (exists (F : fieldType) (rep : seq Z -> F -> Prop),
    field_alg_spec debug64 False rep (field256 debug64) /\
    exists a b, [/\ rep (1 :: 1 :: nil)%Z a, rep (0 :: 1 :: nil)%Z b & a <> 0%R]) /\
  returns (discrete_log (field256 debug64) 16 (1 :: 1 :: nil)%Z (0 :: 1 :: nil)%Z) (Some 25) /\
  returns (discrete_log (field256 debug64) 5 (1 :: 1 :: nil)%Z (0 :: 1 :: nil)%Z) None.
Proof. split; [exact field256_elements|split; [exact log_run|exact none_run]]. Qed.

(** In a finite field with k elements, of which g is a generator, every element that is not
    zero is found when k - 1 <= m * m. *)
Theorem C116_generator : forall (cfg : Cfg) (E : Type) (F : fieldType) (rep : E -> F -> Prop)
    (A : FieldAlg E) (k : nat), finite_field cfg rep A k -> good_isize cfg (Z.of_nat k) ->
  forall (m : nat) (g h : E), generates (fun x => exists u, rep x u) A k g ->
  returns (is_zero A g) false -> (exists u, rep h u) -> returns (is_zero A h) false ->
  k.-1 <= m * m ->
  exists n, [/\ n < k.-1, returns (discrete_log A m g h) (Some n) &
    returns (fpower A (Z.of_nat n) g) h].
Proof. exact discrete_log_generator. Qed.
Print Assumptions C116_generator.
(** 255 <= 16 * 16. *)
Example C116_generator_case :
  (exists (F : fieldType) (rep : seq Z -> F -> Prop),
    [/\ finite_field debug64 rep (field256 debug64) 256, good_isize debug64 (Z.of_nat 256),
      generates (fun x => exists u, rep x u) (field256 debug64) 256 (1 :: 1 :: nil)%Z,
      returns (is_zero (field256 debug64) (1 :: 1 :: nil)%Z) false &
      (exists u, rep (0 :: 1 :: nil)%Z u) /\
      returns (is_zero (field256 debug64) (0 :: 1 :: nil)%Z) false]) /\
  256.-1 <= 16 * 16 /\
  returns (discrete_log (field256 debug64) 16 (1 :: 1 :: nil)%Z (0 :: 1 :: nil)%Z) (Some 25) /\
  returns (fpower (field256 debug64) 25 (1 :: 1 :: nil)%Z) (0 :: 1 :: nil)%Z.
Proof. by split; [exact field256_log|split; last (split; [exact log_run|exact power_run])]. Qed.
