(** * Props_Eval.v -- C70: values and roots of polynomials.

    [value], [is_root], [linear] and the laws are defined in EvalLaw.v. *)

From mathcomp Require Import all_ssreflect all_algebra zify ssrZ.
From Coq Require Import ZArith.
From Verif Require Import Rust Traits MInts MConstr Spec PropSpec RingSpec Laws HomLaw EvalLaw.
From Verif Require Import PInts POrders Quotient PPoly PTowerEx PEval Refuted.

Import GRing.Theory.
Local Open Scope ring_scope.

(** Taking the value at an element is a homomorphism. *)
Theorem C70_value : forall (cfg : Cfg) (p : Prop) (E : Type) (R : idomainType)
    (rep : E -> R -> Prop) (A : RingAlg E),
  ring_alg_spec cfg p rep *%R 1 A ->
  forall x : E, (exists c, rep x c) ->
  ring_map cfg p (fun v => exists P, poly_of rep v P) (fun v => value A v x) (PolyRing A) A.
Proof. exact value_map. Qed.
Print Assumptions C70_value.
(** The polynomials 2 - 3X + X^2 and 5 + X at 4. *)
Example C70_value_case cfg :
  ring_alg_spec cfg False zz_rep *%R 1 ZZ /\
  [/\ returns (value ZZ [:: 2%Z; (-3)%Z; 1%Z] 4%Z) 6%Z, returns (value ZZ [:: 5%Z; 1%Z] 4%Z) 9%Z,
      returns (mul (PolyRing ZZ) [:: 2%Z; (-3)%Z; 1%Z] [:: 5%Z; 1%Z])
        [:: 10%Z; (-13)%Z; 2%Z; 1%Z] &
      returns (value ZZ [:: 10%Z; (-13)%Z; 2%Z; 1%Z] 4%Z) 54%Z].
Proof. by split; [exact: (id_ring_ok (eu_idom_ok (ZZ_ok cfg False)))|split; run 20%nat]. Qed.

(** Roots and factors, the number of roots, and polynomials with equal values. *)
Theorem C70_roots : forall (cfg : Cfg) (p : Prop) (E : Type) (R : idomainType)
    (rep : E -> R -> Prop) (AS : assoc_struct R) (A : IDomAlg E),
  idom_alg_spec cfg p rep AS A ->
  root_laws p (fun x => exists c, rep x c) (fun v => exists P, poly_of rep v P) A (PolyIDom A).
Proof. exact root_laws_ok. Qed.
Print Assumptions C70_roots.
(** The roots of 2 - 3X + X^2 are 1 and 2, and X - 2 divides it. Modulo 8, which is not an
    integral domain, 1 - X^2 has the four roots 1, 3, 5, 7. *)
Example C70_roots_case cfg :
  [/\ returns (is_root ZZ [:: 2%Z; (-3)%Z; 1%Z] 1%Z) true,
      returns (is_root ZZ [:: 2%Z; (-3)%Z; 1%Z] 2%Z) true,
      returns (is_root ZZ [:: 2%Z; (-3)%Z; 1%Z] 3%Z) false,
      returns (let! l := linear ZZ 2%Z in divisible (PolyIDom ZZ) [:: 2%Z; (-3)%Z; 1%Z] l) true &
      returns (let! l := linear ZZ 3%Z in divisible (PolyIDom ZZ) [:: 2%Z; (-3)%Z; 1%Z] l) false] /\
  [/\ returns (is_root (QuotientRing cfg ZZ 8%Z) [:: 1%Z; 0%Z; (-1)%Z] 1%Z) true,
      returns (is_root (QuotientRing cfg ZZ 8%Z) [:: 1%Z; 0%Z; (-1)%Z] 3%Z) true,
      returns (is_root (QuotientRing cfg ZZ 8%Z) [:: 1%Z; 0%Z; (-1)%Z] (-3)%Z) true &
      returns (is_root (QuotientRing cfg ZZ 8%Z) [:: 1%Z; 0%Z; (-1)%Z] (-1)%Z) true].
Proof. by split; split; run 30%nat. Qed.

(** The remainder by X - x is the value at x. *)
Theorem C70_remainder : forall (cfg : Cfg) (p : Prop) (E : Type) (F : fieldType)
    (rep : E -> F -> Prop) (A : FieldAlg E),
  field_alg_spec cfg p rep A ->
  remainder_law p (fun x => exists c, rep x c) (fun v => exists P, poly_of rep v P) A (PolyEucl A).
Proof. exact remainder_law_ok. Qed.
Print Assumptions C70_remainder.
Example C70_remainder_case :
  [/\ returns (value (QQ debug64) [:: (1%Z, 2%Z); (0%Z, 1%Z); (3%Z, 1%Z)] (1%Z, 3%Z)) (5%Z, 6%Z) &
      returns (let! l := linear (QQ debug64) (1%Z, 3%Z) in
        rem (PolyEucl (QQ debug64)) [:: (1%Z, 2%Z); (0%Z, 1%Z); (3%Z, 1%Z)] l) [:: (5%Z, 6%Z)]].
Proof. by split; run 40%nat. Qed.

(** A polynomial of degree 2 or 3 is irreducible exactly if it has no root. *)
Theorem C70_irreducible : forall (cfg : Cfg) (p : Prop) (E : Type) (F : fieldType)
    (rep : E -> F -> Prop) (A : FieldAlg E),
  field_alg_spec cfg p rep A ->
  forall (v : seq E) (P : {poly F}), poly_of rep v P -> (2 < size v <= 4)%nat ->
  (forall c, exists x, rep x c) ->
  (forall x, (exists c, rep x c) -> returns (is_root A v x) false) ->
  @irreducible_elt (poly_idomainType F) P.
Proof. exact no_root_irreducible. Qed.
Print Assumptions C70_irreducible.
Theorem C70_no_root : forall (cfg : Cfg) (p : Prop) (E : Type) (F : fieldType)
    (rep : E -> F -> Prop) (A : FieldAlg E),
  field_alg_spec cfg p rep A ->
  forall (v : seq E) (P : {poly F}), poly_of rep v P -> (2 < size v)%nat ->
  @irreducible_elt (poly_idomainType F) P ->
  forall x, (exists c, rep x c) -> answers p (is_root A v x) false.
Proof. exact irreducible_no_root. Qed.
Print Assumptions C70_no_root.
Example C70_irreducible_case cfg :
  field_alg_spec cfg False bb_rep BB /\
  poly_of bb_rep [:: true; true; true] (mval gf4_modulus : {poly F2}) /\
  (forall c : F2, exists x, bb_rep x c) /\
  (forall x, returns (is_root BB [:: true; true; true] x) false).
Proof.
split; first exact: BB_ok.
split; first exact: quadratic_of.
split; last by case; run 20%nat.
by case=> -[|[|//]] h; [exists false|exists true]; apply: val_inj.
Qed.

(** An irreducible polynomial has a root in the field of its residues. *)
Theorem C70_adjoin : forall (cfg : Cfg) (p : Prop) (E : Type) (F : fieldType)
    (rep : E -> F -> Prop) (A : FieldAlg E),
  field_alg_spec cfg p rep A ->
  forall (m : {poly F}) (modulo : seq E),
  @irreducible_elt (poly_idomainType F) m -> poly_of rep modulo m ->
  adjoin_laws p (fun v => exists P, poly_of rep v P) A
    (QuotientField cfg (PolyEucl A) modulo) modulo.
Proof. exact adjoin_laws_ok. Qed.
Print Assumptions C70_adjoin.
(** In the field with four elements X is a root of 1 + X + X^2, and the value of X^3 is 1. *)
Example C70_adjoin_case cfg :
  @irreducible_elt (poly_idomainType F2) (mval gf4_modulus) /\
  [/\ returns (adjoined BB [:: true; true; true]) [:: false; true],
      returns (mapM (to_constant BB) [:: true; true; true]) [:: [:: true]; [:: true]; [:: true]],
      returns (is_root (F4 cfg) [:: [:: true]; [:: true]; [:: true]] [:: false; true]) true &
      returns (value (F4 cfg) [:: [::]; [::]; [::]; [:: true]] [:: false; true]) [:: true]].
Proof. by split; [exact: imodP|split; run 30%nat]. Qed.
