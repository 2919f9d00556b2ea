(** * Props_Finite.v -- all finite fields and all finite Boolean algebras can be
    constructed (C50, C51).

    [field_code A code], [boolean_code A code] (FiniteSpec.v): the calls of the methods of
    [A] on the codes of elements return the code of what the mathematical operation gives. *)

From mathcomp Require Import all_ssreflect all_algebra zify ssrZ.
From Coq Require Import ZArith.
From Verif Require Import Rust Traits MInts MConstr FiniteSpec PFinite PBool Refuted.

Import GRing.Theory.
Local Open Scope ring_scope.

(** ** C50: every finite field, of characteristic [p], is an extension of Z/p *)
Theorem C50_every_field : forall (cfg : Cfg) (K : finFieldType) (p : nat), p \in [char K] ->
  exists (modulo : seq Z) (code : K -> seq Z),
    field_code (QuotientField cfg (PolyEucl (QuotientField cfg ZZ (Z.of_nat p))) modulo) code /\
    expn p (size modulo).-1 = #|K|.
Proof. exact every_finite_field. Qed.
Print Assumptions C50_every_field.
(** The field with five elements of the library. *)
Example C50_every_field_case : 5%nat \in [char 'F_5] /\ #|'F_5| = 5%nat.
Proof. by split; [exact: char_Fp|exact: card_Fp]. Qed.
(** For every prime power there is a modulus of the right degree. *)
Theorem C50_prime_powers : forall (cfg : Cfg) (p k : nat), prime p -> is_true (0 < k)%nat ->
  exists (modulo : seq Z) (K : finFieldType) (code : K -> seq Z),
    [/\ size modulo = k.+1, #|K| = expn p k &
        field_code (QuotientField cfg (PolyEucl (QuotientField cfg ZZ (Z.of_nat p))) modulo)
          code].
Proof. exact every_prime_power. Qed.
Print Assumptions C50_prime_powers.
Example C50_case1 : is_true (7%nat \in [char 'F_7]) /\ #|'F_7| = 7%nat.
Proof. by rewrite char_Fp // card_Fp. Qed.
Example C50_case2 : prime 3 /\ is_true (0 < 2)%nat.
Proof. by []. Qed.
(** The field with 9 elements: x * x = 2 modulo x^2 + 1 and (1 + x) (2 + x) = 1. *)
Example C50_case3 :
  let F9 := QuotientField debug64 (PolyEucl (QuotientField debug64 ZZ 3%Z)) [:: 1; 0; 1]%Z in
  [/\ returns (mul F9 [:: 0; 1]%Z [:: 0; 1]%Z) [:: 2]%Z,
      returns (finv F9 [:: 1; 1]%Z) [:: 2; 1]%Z & panics (finv F9 [::])].
Proof. by split; run 40%nat. Qed.

(** ** C51: every finite Boolean algebra is a power of the two-element one *)
Theorem C51_every_algebra : forall (disp : unit) (B : finCDistrLatticeType disp),
  exists (n : nat) (code : B -> seq bool),
    boolean_code (VectorBoolean n BB_boolean) code /\ #|B| = expn 2 n.
Proof. exact every_boolean_algebra. Qed.
Print Assumptions C51_every_algebra.
(** The subsets of a set with three elements: the power has three coordinates. *)
Example C51_case :
  exists code : Order.DefaultSetSubsetOrder.subset_finCDistrLatticeType [finType of 'I_3] ->
    seq bool,
    boolean_code (VectorBoolean 3 BB_boolean) code.
Proof.
have [n [code [h e]]] :=
  C51_every_algebra _ (Order.DefaultSetSubsetOrder.subset_finCDistrLatticeType [finType of 'I_3]).
have e3 : expn 2 n = expn 2 3.
  by rewrite -e; have := card_powerset [set: 'I_3]; rewrite cardsT card_ord powersetT cardsT.
have n3 : n = 3%nat by apply/eqP; have /eqP := e3; rewrite eqn_exp2l.
by rewrite n3 in h; exists code.
Qed.
