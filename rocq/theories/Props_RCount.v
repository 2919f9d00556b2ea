(** * Props_RCount.v -- C111: counting the roots of a polynomial in a finite field. *)

From mathcomp Require Import all_ssreflect all_algebra ssrZ.
From Coq Require Import ZArith List.
From Verif Require Import Rust Traits MInts MConstr Spec PropSpec RingSpec TowerSpec Quotient EvalLaw.
From Verif Require Import PInts PIrrEx PSqfEx RCountSpec PRCount Refuted.

(** [root_count] is the client program of RCountSpec.v, [is_root] the one of EvalLaw.v: a
    member x is a root if the value of v at x is zero. The number is exact. *)
Theorem C111_count : forall (cfg : Cfg) (E : Type) (F : fieldType) (rep : E -> F -> Prop)
    (A : FieldAlg E) (k : nat),
  finite_field cfg rep A k ->
  forall (v : list E) (P : {poly F}), poly_of rep v P ->
  ensures False (root_count A k v) (fun n =>
    has_members (fun x => (exists u, rep x u) /\ returns (is_root A v x) true) n).
Proof. exact root_count_ok. Qed.
Print Assumptions C111_count.
(** x^3 + x^2 + x + 1 = (x + 1)^3 has one root in GF(2); x^2 - 2 has two roots modulo 7. *)
Example C111_count_case : finite_field debug64 f2_rep (field2 debug64) 2 /\
  (exists P, poly_of f2_rep (1 :: 1 :: 1 :: 1 :: nil)%Z P) /\
  returns (root_count (field2 debug64) 2 (1 :: 1 :: 1 :: 1 :: nil)%Z) 1 /\
  returns (root_count (QuotientField debug64 ZZ 7%Z) 7 (5 :: 0 :: 1 :: nil)%Z) 2.
Proof.
split; first exact: field2_tower.
split; first exact: cube_of.
by split; run 100%nat.
Qed.

(** In particular the number is positive exactly if there is a root. *)
Theorem C111_exists : forall (cfg : Cfg) (E : Type) (F : fieldType) (rep : E -> F -> Prop)
    (A : FieldAlg E) (k : nat),
  finite_field cfg rep A k ->
  forall (v : list E) (P : {poly F}), poly_of rep v P ->
  decides False (let! n := root_count A k v in ret (0 < n))
    (exists2 x, (exists u, rep x u) & returns (is_root A v x) true).
Proof. exact no_roots. Qed.
Print Assumptions C111_exists.
(** x^2 + x + 1 has no root in GF(2), and x^2 - 3 has none modulo 7. *)
Example C111_exists_case : finite_field debug64 f2_rep (field2 debug64) 2 /\
  (exists P, poly_of f2_rep (1 :: 1 :: 1 :: nil)%Z P) /\
  returns (root_count (field2 debug64) 2 (1 :: 1 :: 1 :: nil)%Z) 0 /\
  returns (root_count (QuotientField debug64 ZZ 7%Z) 7 (4 :: 0 :: 1 :: nil)%Z) 0.
Proof.
split; first exact: field2_tower.
split; first exact: quadratic_of.
by split; run 100%nat.
Qed.
