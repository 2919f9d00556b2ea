(** * Props_Comp.v -- C110: the composition of polynomials. *)

From mathcomp Require Import all_ssreflect all_algebra ssrZ.
From Coq Require Import ZArith List.
From Verif Require Import Rust Traits MInts MConstr Spec PropSpec RingSpec TowerSpec Quotient FFSpec Laws EvalLaw.
From Verif Require Import PCases PIrrEx SqfSpec PSqfEx CompSpec PComp Refuted.

(** [compose], [value] and [derivative] are the client programs of CompSpec.v, EvalLaw.v and
    SqfSpec.v. *)
Theorem C110_compose : forall (cfg : Cfg) (p : Prop) (E : Type) (F : fieldType)
    (rep : E -> F -> Prop) (A : FieldAlg E),
  field_alg_spec cfg p rep A ->
  forall (v : list E) (P : {poly F}) (w : list E) (Q : {poly F}),
  poly_of rep v P -> poly_of rep w Q ->
  gives p (poly_of rep) (compose A v w) (comp_poly Q P).
Proof. exact compose_ok. Qed.
Print Assumptions C110_compose.
(** v = x^2 + x + 1 and w = x^3 + x^2 + 1 over GF(2), v(w) = x^6 + x^4 + x^3 + x^2 + 1 *)
Example C110_compose_case : field_alg_spec debug64 False f2_rep (field2 debug64) /\
  (exists P, poly_of f2_rep (1 :: 1 :: 1 :: nil)%Z P) /\
  (exists P, poly_of f2_rep (1 :: 0 :: 1 :: 1 :: nil)%Z P) /\
  returns (compose (field2 debug64) (1 :: 1 :: 1 :: nil)%Z (1 :: 0 :: 1 :: 1 :: nil)%Z)
    (1 :: 0 :: 1 :: 1 :: 1 :: 0 :: 1 :: nil)%Z.
Proof.
split; first exact: f2_contract.
split; first exact: quadratic_of.
split; [exact: cubic_of|by run 200%nat].
Qed.

(** The value of the composition is the value at the value. *)
Theorem C110_value : forall (cfg : Cfg) (p : Prop) (E : Type) (F : fieldType)
    (rep : E -> F -> Prop) (A : FieldAlg E),
  field_alg_spec cfg p rep A ->
  forall (v : list E) (P : {poly F}) (w : list E) (Q : {poly F}) (x : E) (a : F),
  poly_of rep v P -> poly_of rep w Q -> rep x a ->
  holds p (same A (let! u := compose A v w in value A u x)
    (let! y := value A w x in value A v y)).
Proof. exact compose_value. Qed.
Print Assumptions C110_value.
Example C110_value_case : field_alg_spec debug64 False f2_rep (field2 debug64) /\
  (exists P, poly_of f2_rep (1 :: 1 :: 1 :: nil)%Z P) /\
  (exists P, poly_of f2_rep (1 :: 0 :: 1 :: 1 :: nil)%Z P) /\ (exists a, f2_rep 1%Z a) /\
  returns (let! u := compose (field2 debug64) (1 :: 1 :: 1 :: nil)%Z (1 :: 0 :: 1 :: 1 :: nil)%Z in
           value (field2 debug64) u 1%Z) 1%Z.
Proof.
split; first exact: f2_contract.
split; first exact: quadratic_of.
split; first exact: cubic_of.
split; [by exists 1%R|by run 200%nat].
Qed.

(** Composition is associative. *)
Theorem C110_associative : forall (cfg : Cfg) (p : Prop) (E : Type) (F : fieldType)
    (rep : E -> F -> Prop) (A : FieldAlg E),
  field_alg_spec cfg p rep A ->
  forall (v : list E) (P : {poly F}) (w : list E) (Q : {poly F}) (t : list E) (T : {poly F}),
  poly_of rep v P -> poly_of rep w Q -> poly_of rep t T ->
  holds p (same (PolyEucl A) (let! u := compose A v w in compose A u t)
    (let! y := compose A w t in compose A v y)).
Proof. exact compose_assoc. Qed.
Print Assumptions C110_associative.
Example C110_associative_case : field_alg_spec debug64 False f2_rep (field2 debug64) /\
  (exists P, poly_of f2_rep (1 :: 1 :: 1 :: nil)%Z P) /\
  (exists P, poly_of f2_rep (1 :: 0 :: 1 :: 1 :: nil)%Z P) /\
  returns (let! u := compose (field2 debug64) (1 :: 1 :: 1 :: nil)%Z (1 :: 1 :: 1 :: nil)%Z in
           compose (field2 debug64) u (1 :: 0 :: 1 :: 1 :: nil)%Z)
    (1 :: 0 :: 1 :: 1 :: 0 :: 0 :: 0 :: 0 :: 1 :: 0 :: 0 :: 0 :: 1 :: nil)%Z.
Proof.
split; first exact: f2_contract.
split; first exact: quadratic_of.
split; [exact: cubic_of|by run 300%nat].
Qed.

(** The degree of the composition is the product of the degrees. *)
Theorem C110_degree : forall (cfg : Cfg) (p : Prop) (E : Type) (F : fieldType)
    (rep : E -> F -> Prop) (A : FieldAlg E),
  field_alg_spec cfg p rep A ->
  forall (v : list E) (P : {poly F}) (w : list E) (Q : {poly F}),
  poly_of rep v P -> poly_of rep w Q -> 0 < size v -> 1 < size w ->
  ensures p (compose A v w) (fun u => (size u).-1 = (size v).-1 * (size w).-1).
Proof. exact compose_degree. Qed.
Print Assumptions C110_degree.
Example C110_degree_case : field_alg_spec debug64 False f2_rep (field2 debug64) /\
  (exists P, poly_of f2_rep (1 :: 1 :: 1 :: nil)%Z P) /\
  (exists P, poly_of f2_rep (1 :: 0 :: 1 :: 1 :: nil)%Z P).
Proof.
split; first exact: f2_contract.
split; [exact: quadratic_of|exact: cubic_of].
Qed.

(** The derivative of a composition: v(w)' = v'(w) w'. *)
Theorem C110_chain : forall (cfg : Cfg) (p : Prop) (E : Type) (F : fieldType)
    (rep : E -> F -> Prop) (A : FieldAlg E),
  field_alg_spec cfg p rep A ->
  forall (v : list E) (P : {poly F}) (w : list E) (Q : {poly F}),
  poly_of rep v P -> poly_of rep w Q ->
  holds p (same (PolyEucl A) (let! u := compose A v w in derivative A u)
    (let! d := derivative A v in let! y := compose A d w in
     let! e := derivative A w in mul (PolyEucl A) y e)).
Proof. exact compose_chain. Qed.
Print Assumptions C110_chain.
Example C110_chain_case : field_alg_spec debug64 False f2_rep (field2 debug64) /\
  (exists P, poly_of f2_rep (1 :: 1 :: 1 :: nil)%Z P) /\
  (exists P, poly_of f2_rep (1 :: 0 :: 1 :: 1 :: nil)%Z P) /\
  returns (let! u := compose (field2 debug64) (1 :: 1 :: 1 :: nil)%Z (1 :: 0 :: 1 :: 1 :: nil)%Z in
           derivative (field2 debug64) u) (0 :: 0 :: 1 :: nil)%Z.
Proof.
split; first exact: f2_contract.
split; first exact: quadratic_of.
split; [exact: cubic_of|by run 300%nat].
Qed.
