(** * Props_Loose.v -- C76: polynomials with superfluous leading zeros.

    [padded rep n v P] (LooseSpec.v): the vector [v] lists the coefficients of the polynomial
    [P] followed by [n] zeros, so it is a member exactly for [n = 0], which is [poly_of rep v P];
    [loose rep v P]: so for some [n]. Over a base with zero divisors such vectors are
    returned by mul (C23). *)

From mathcomp Require Import all_ssreflect all_algebra zify ssrZ.
From Coq Require Import ZArith.
From Verif Require Import Rust Traits MInts MConstr Spec RingSpec LooseSpec.
From Verif Require Import PLoose PInts POrders PCases Refuted.

Import GRing.Theory.
Local Open Scope ring_scope.

(** The coefficients of sums, differences, products and multiples are right. *)
Theorem C76_ring : forall (cfg : Cfg) (p : Prop) (E : Type) (R : ringType) (rep : E -> R -> Prop)
    (A : RingAlg E), ring_alg_spec cfg p rep *%R 1 A -> loose_ring rep cfg p (PolyRing A).
Proof. exact loose_ring_ok. Qed.
Print Assumptions C76_ring.
Example C76_ring_case cfg : loose_ring zz_rep cfg False (PolyRing ZZ).
Proof. exact: C76_ring (zz_ring cfg). Qed.
(** Only times removes the zeros of every vector. *)
Example C76_zeros cfg :
  [/\ returns (ztimes (PolyRing ZZ) 1 [:: 2; 3; 0; 0]%Z) [:: 2; 3]%Z,
      returns (double (PolyRing ZZ) [:: 2; 3; 0; 0]%Z) [:: 4; 6]%Z,
      returns (add (PolyRing ZZ) [:: 2; 3; 0; 0]%Z [:: 1]%Z) [:: 3; 3; 0; 0]%Z,
      returns (mul (PolyRing ZZ) [:: 2; 3; 0]%Z [:: 1; 0]%Z) [:: 2; 3; 0; 0]%Z &
      returns (mul (PolyRing (QuotientRing cfg ZZ 6%Z)) [:: 0; 2]%Z [:: 0; 3]%Z) [:: 0; 0; 0]%Z].
Proof. by split; run 20%nat. Qed.
(** But contains, equals, is_zero, is_one, try_inv and invertible notice them. *)
Theorem C76_questions : forall (cfg : Cfg) (p : Prop) (E : Type) (R : ringType)
    (rep : E -> R -> Prop) (A : RingAlg E),
  ring_alg_spec cfg p rep *%R 1 A -> loose_questions rep p (PolyRing A).
Proof. exact loose_questions_ok. Qed.
Print Assumptions C76_questions.
Example C76_questions_case (cfg : Cfg) : loose_questions zz_rep False (PolyRing ZZ).
Proof. exact: C76_questions (zz_ring cfg). Qed.
Example C76_questions_zeros :
  [/\ padded zz_rep 2 [:: 1; 0; 0]%Z 1, returns (is_one (PolyRing ZZ) [:: 1; 0; 0]%Z) false,
      returns (equals (PolyRing ZZ) [:: 1; 0; 0]%Z [:: 1]%Z) false &
      returns (contains (PolyRing ZZ) [:: 1; 0; 0]%Z) false].
Proof.
by split; [rewrite /padded polyseq1; do !constructor|run 20%nat|run 20%nat|run 20%nat].
Qed.

(** Division by a member that is not longer: superfluous zeros of the dividend do no harm, and
    the remainder has none. *)
Theorem C76_try_div : forall (cfg : Cfg) (p : Prop) (E : Type) (R : idomainType)
    (rep : E -> R -> Prop) (A : IDomAlg E) (S : assoc_struct R),
  idom_alg_spec cfg p rep S A -> forall v P u U,
  loose rep v P -> poly_of rep u U -> U != 0 -> (size u <= size v)%nat ->
  ensures p (try_div (PolyIDom A) v u) (fun o => match o with
    | Some w => exists2 Q, loose rep w Q & P = Q * U
    | None => ~ exists Q, P = Q * U
    end).
Proof. exact loose_try_div. Qed.
Print Assumptions C76_try_div.
Example C76_try_div_case :
  [/\ loose zz_rep [:: -1; 0; 1; 0]%Z (Poly [:: -1; 0; 1]%Z),
      poly_of zz_rep [:: 1; 1]%Z (Poly [:: 1; 1]%Z), Poly [:: 1; 1]%Z != 0 :> {poly Z} &
      returns (try_div (PolyIDom ZZ) [:: -1; 0; 1; 0]%Z [:: 1; 1]%Z) (Some [:: -1; 1; 0]%Z)].
Proof.
split; [|exact: zz_poly|by rewrite -size_poly_eq0 (PolyK (c := 1))|run 20%nat].
by exists 1%nat; rewrite /padded (PolyK (c := 1)) //; do !constructor.
Qed.
Theorem C76_quo_rem : forall (cfg : Cfg) (p : Prop) (E : Type) (F : fieldType)
    (rep : E -> F -> Prop) (A : FieldAlg E), field_alg_spec cfg p rep A -> forall v P u U,
  loose rep v P -> poly_of rep u U -> U != 0 -> (size u <= size v)%nat ->
  ensures p (quo_rem (PolyEucl A) v u) (fun z =>
    loose rep z.1 (P %/ U) /\ poly_of rep z.2 (P %% U)).
Proof. exact loose_quo_rem. Qed.
Print Assumptions C76_quo_rem.
(** x + 1 + 0 x^2 divided by x, modulo 2. *)
Example C76_quo_rem_case :
  [/\ loose bb_rep [:: true; true; false] (Poly [:: 1; 1]), poly_of bb_rep [:: false; true] 'X,
      'X != 0 :> {poly 'F_2} &
      returns (quo_rem (PolyEucl BB) [:: true; true; false] [:: false; true])
        ([:: true; false], [:: true])].
Proof.
split; [|by rewrite /poly_of polyseqX; do !constructor|by rewrite polyX_eq0|run 20%nat].
by exists 1%nat; rewrite /padded (PolyK (c := 1)) //; do !constructor.
Qed.

(** If the divisor is longer than the dividend, superfluous zeros of either count. *)
Theorem C76_shorter : forall (E : Type) (v u : seq E), (size v < size u)%nat ->
  (forall A : IDomAlg E,
   returns (try_div (PolyIDom A) v u) (if size v == 0%nat then Some [::] else None)) /\
  (forall A : FieldAlg E, returns (quo_rem (PolyEucl A) v u) ([::], v)).
Proof. exact (fun E v u h => conj (fun A => try_div_shorter A h) (fun A => quo_rem_shorter A h)). Qed.
Print Assumptions C76_shorter.
(** So 0 = 0 * (x + 1) is not found if written with one coefficient, and
    3 = 1 * 3 + 0 is not if 3 is written with two. *)
Example C76_shorter_case cfg :
  [/\ returns (try_div (PolyIDom ZZ) [:: 0]%Z [:: 1; 1]%Z) None,
      returns (try_div (PolyIDom ZZ) [:: 3]%Z [:: 3; 0]%Z) None &
      returns (quo_rem (PolyEucl (QuotientField cfg ZZ 5%Z)) [:: 3]%Z [:: 3; 0]%Z) ([::], [:: 3]%Z)].
Proof. by split; run 20%nat. Qed.
(** Otherwise superfluous zeros of the divisor make the call panic. *)
Theorem C76_panics : forall (cfg : Cfg) (p : Prop) (E : Type) (R : idomainType)
    (rep : E -> R -> Prop) (A : IDomAlg E) (S : assoc_struct R),
  idom_alg_spec cfg p rep S A -> forall v n u U, padded rep n u U -> (0 < n)%nat ->
  (size u <= size v)%nat -> panics (try_div (PolyIDom A) v u).
Proof. exact loose_try_div_panics. Qed.
Print Assumptions C76_panics.
Example C76_panics_case : padded zz_rep 2 [:: 1; 0; 0]%Z 1 /\
  panics (try_div (PolyIDom ZZ) [:: 3; 4; 5]%Z [:: 1; 0; 0]%Z).
Proof. by split; [rewrite /padded polyseq1; do !constructor|run 20%nat]. Qed.
Theorem C76_quo_rem_panics : forall (cfg : Cfg) (p : Prop) (E : Type) (F : fieldType)
    (rep : E -> F -> Prop) (A : FieldAlg E), field_alg_spec cfg p rep A ->
  forall v n u U, padded rep n u U -> (0 < n)%nat -> (size u <= size v)%nat ->
  panics (quo_rem (PolyEucl A) v u).
Proof. exact loose_quo_rem_panics. Qed.
Print Assumptions C76_quo_rem_panics.
Example C76_quo_rem_panics_case : padded bb_rep 1 [:: true; false] 1 /\
  panics (quo_rem (PolyEucl BB) [:: true; true; true] [:: true; false]).
Proof. by split; [rewrite /padded polyseq1; do !constructor|run 20%nat]. Qed.

(** gcd returns an argument as it is if the other one is empty; of two others, it
    depends on the shorter one (on the second one for equal lengths). *)
Theorem C76_gcd_nil : forall (E : Type) (A : FieldAlg E) (v : seq E),
  returns (gcd (PolyEucl A) v [::]) v /\ returns (gcd (PolyEucl A) [::] v) v.
Proof. exact (fun E A v => conj (gcd_nil A v) (gcd_nil_left A v)). Qed.
Print Assumptions C76_gcd_nil.
Theorem C76_gcd : forall (cfg : Cfg) (p : Prop) (E : Type) (F : fieldType)
    (rep : E -> F -> Prop) (A : FieldAlg E), field_alg_spec cfg p rep A ->
  forall v m P u n Q, padded rep m v P -> padded rep n u Q -> (0 < size v)%nat -> (0 < size u)%nat ->
  if (if (size u <= size v)%nat then n else m) == 0%nat then
    ensures p (gcd (PolyEucl A) v u) (fun w => exists2 D, poly_of rep w D & D %= gcdp P Q)
  else panics (gcd (PolyEucl A) v u).
Proof. exact loose_gcd. Qed.
Print Assumptions C76_gcd.
Example C76_gcd_case :
  [/\ padded bb_rep 0 [:: true; true] (Poly [:: 1; 1]),
      padded bb_rep 2 [:: true; false; true; false; false] (Poly [:: 1; 0; 1]),
      returns (gcd (PolyEucl BB) [:: true; true] [:: true; false; true; false; false])
        [:: true; true] &
      panics (gcd (PolyEucl BB) [:: true; true; true; true; true; true]
        [:: true; false; true; false; false])].
Proof.
split; [| |run 20%nat|run 20%nat]; rewrite /padded (PolyK (c := 1)) //; by do !constructor.
Qed.
