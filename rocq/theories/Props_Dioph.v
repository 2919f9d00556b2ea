(** * Props_Dioph.v -- C105: linear equations in two unknowns. *)

From mathcomp Require Import all_ssreflect all_algebra ssrZ.
From Coq Require Import ZArith.
From Verif Require Import Rust Traits MInts MConstr Spec PropSpec RingSpec Quotient.
From Verif Require Import PInts PIntsZ DiophSpec PDioph Refuted.

Local Open Scope ring_scope.

(** [solve] and [shift] are the client programs of DiophSpec.v. [solve] returns a solution
    of a u + b v = c if there is one, and None otherwise. *)
Theorem C105_solve : forall (cfg : Cfg) (p : Prop) (E : Type) (R : idomainType)
    (rep : E -> R -> Prop) (AS : assoc_struct R) (S : eucl_struct R) (A : EuclAlg E),
  eucl_alg_spec cfg p rep AS S A ->
  forall (x : E) (a : R) (y : E) (b : R) (z : E) (c : R), rep x a -> rep y b -> rep z c ->
  ensures p (solve A x y z) (fun o =>
    match o with
    | Some w => exists u v, [/\ rep w.1 u, rep w.2 v & a * u + b * v = c]
    | None => forall u v, a * u + b * v <> c
    end).
Proof. exact solve_ok. Qed.
Print Assumptions C105_solve.
(** 6 u + 10 v = 8 and 6 u + 10 v = 7 *)
Example C105_solve_case :
  eucl_alg_spec debug64 False (R := [idomainType of Z]) zz_rep Z_assoc Z_eucl ZZ /\
  returns (solve ZZ 6 10 8)%Z (Some (8, -4)%Z) /\ returns (solve ZZ 6 10 7)%Z None.
Proof. split; [exact: ZZ_ok|by split; run 100%nat]. Qed.

(** [shift] turns a solution into a solution, for every parameter. *)
Theorem C105_shift : forall (cfg : Cfg) (p : Prop) (E : Type) (R : idomainType)
    (rep : E -> R -> Prop) (AS : assoc_struct R) (S : eucl_struct R) (A : EuclAlg E),
  eucl_alg_spec cfg p rep AS S A ->
  forall (x : E) (a : R) (y : E) (b : R) (u : E) (m : R) (v : E) (n : R) (w : E) (r c : R),
  rep x a -> rep y b -> rep u m -> rep v n -> rep w r ->
  (a != 0) || (b != 0) -> a * m + b * n = c ->
  ensures p (shift A x y u v w) (fun q => exists m' n',
    [/\ rep q.1 m', rep q.2 n' & a * m' + b * n' = c]).
Proof. exact shift_solution. Qed.
Print Assumptions C105_shift.
(** 6 * 3 + 10 * (-1) = 8 *)
Example C105_shift_case : ((6 : [idomainType of Z]) != 0) || ((10 : [idomainType of Z]) != 0) /\
  (6 : [idomainType of Z]) * 8 + 10 * -4 = 8 /\
  returns (shift ZZ 6 10 8 (-4) (-1))%Z (3, -1)%Z.
Proof. by split; [|split]; [| |run 100%nat]. Qed.

(** All solutions are found in this way. *)
Theorem C105_all : forall (cfg : Cfg) (p : Prop) (E : Type) (R : idomainType)
    (rep : E -> R -> Prop) (AS : assoc_struct R) (S : eucl_struct R) (A : EuclAlg E),
  eucl_alg_spec cfg p rep AS S A ->
  forall (x : E) (a : R) (y : E) (b : R) (u : E) (m : R) (v : E) (n m' n' : R),
  rep x a -> rep y b -> rep u m -> rep v n ->
  (a != 0) || (b != 0) -> a * m' + b * n' = a * m + b * n ->
  exists r, forall w, rep w r ->
    ensures p (shift A x y u v w) (fun q => rep q.1 m' /\ rep q.2 n').
Proof. exact shift_all. Qed.
Print Assumptions C105_all.
Example C105_all_case : (6 : [idomainType of Z]) * -2 + 10 * 2 = 6 * 8 + 10 * -4 /\
  returns (shift ZZ 6 10 8 (-4) (-2))%Z (-2, 2)%Z.
Proof. by split; [|run 100%nat]. Qed.
