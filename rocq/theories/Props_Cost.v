(** * Props_Cost.v -- bounds for the number of iterations of the loops (C52).

    [within k m Q] (CostSpec.v): no [while] loop of the call [m] tests its condition more
    than [k] times and no recursion is deeper than [k]; if the call returns, its value
    satisfies [Q].  [finishes k m] is [within k m] with no condition on the value. *)

From Coq Require Import ZArith List.
From mathcomp Require Import all_ssreflect.
From Verif Require Import Rust Traits MInts MConstr CostSpec PCost PCost2 PCost3 Refuted.

(** ** What it means for the outcome *)
Theorem C52_outcome : forall (A : Type) (k : nat) (m : M A) (Q : A -> Prop), within k m Q ->
  (exists2 v, returns m v & Q v) \/ panics m.
Proof. exact within_outcome. Qed.
Print Assumptions C52_outcome.
Example C52_outcome_case : within 6 (gcd ZZ 13%Z 8%Z) (fun d => d = 1%Z) /\ returns (gcd ZZ 13%Z 8%Z) 1%Z.
Proof.
split; last run 20%nat.
by split=> // [n hn|v [<-]] //; do 6!(case: n hn => [|n] // hn).
Qed.

(** ** Multiples and powers by doubling: as many iterations as the number has bits *)
Theorem C52_times : forall (E : Type) (P : E -> Prop) (add_assign : E -> E -> M E)
    (double : E -> M E) (k i : nat) (zero : M E) (num : Z) (x : E),
  within k zero P -> (forall x y, P x -> P y -> within k (add_assign x y) P) ->
  (forall x, P x -> within k (double x) P) ->
  (num < 2 ^ Z.of_nat i)%Z -> i < k -> P x ->
  within k (default_ntimes zero add_assign double num x) P.
Proof. exact ntimes_within. Qed.
Print Assumptions C52_times.
(** Not fewer. *)
Theorem C52_times_exact : forall (E : Type) (add_assign : E -> E -> M E) (double : E -> M E)
    (zero : M E) (k i : nat) (num : Z) (x : E),
  (exists z, zero k = Done z) -> (forall x y, exists z, add_assign x y k = Done z) ->
  (forall x, exists z, double x k = Done z) ->
  (2 ^ Z.of_nat i <= num)%Z -> k <= i.+1 ->
  default_ntimes zero add_assign double num x k = Unfinished.
Proof. exact ntimes_exact. Qed.
Print Assumptions C52_times_exact.
Example C52_times_exact_case :
  default_ntimes (zero ZZ) (add_assign ZZ) (double ZZ) 1000%Z 3%Z 10 = Unfinished.
Proof.
by apply: (C52_times_exact _ _ _ _ 10 9) => //; [exists 0%Z|move=> x y; eexists|move=> x; eexists].
Qed.
Theorem C52_power : forall (E : Type) (P : E -> Prop) (mul_assign : E -> E -> M E)
    (square : E -> M E) (cfg : Cfg) (k i : nat) (one : M E) (inv : E -> M E) (num : Z) (x : E),
  within k one P -> (forall x y, P x -> P y -> within k (mul_assign x y) P) ->
  (forall x, P x -> within k (square x) P) -> (forall x, P x -> within k (inv x) P) ->
  is_isize cfg num -> (0 < ptr_bits cfg)%Z ->
  (Z.abs num < 2 ^ Z.of_nat i)%Z -> i < k -> P x ->
  within k (default_gpower cfg one mul_assign square inv num x) P.
Proof. exact gpower_within. Qed.
Print Assumptions C52_power.
Example C52_power_case : within 11 (gpower (AdditiveGroup debug64 ZZ) (-1000)%Z 3%Z) (fun z => exists q, z = 3 * q)%Z.
Proof.
apply: (C52_power Z (fun z => exists q, z = 3 * q)%Z _ _ debug64 11 10) => //.
- by split=> // _ [<-]; exists 0%Z.
- by move=> x y [p ->] [q ->]; split=> // _ [<-]; exists (p + q)%Z; rewrite Z.mul_add_distr_l.
- by move=> x [p ->]; split=> // _ [<-]; exists (p * 2)%Z; rewrite Z.mul_assoc.
- by move=> x [p ->]; split=> // _ [<-]; exists (- p)%Z; rewrite Z.mul_opp_r.
- by exists 1%Z.
Qed.
Theorem C52_power_exact : forall (cfg : Cfg) (E : Type) (mul_assign : E -> E -> M E)
    (square inv : E -> M E) (one : M E) (k i : nat) (num : Z) (x : E),
  (exists z, one k = Done z) -> (forall x y, exists z, mul_assign x y k = Done z) ->
  (forall x, exists z, square x k = Done z) -> (forall x, exists z, inv x k = Done z) ->
  (Z.abs num < 2 ^ (ptr_bits cfg - 1))%Z ->
  (2 ^ Z.of_nat i <= Z.abs num)%Z -> k <= i.+1 ->
  default_gpower cfg one mul_assign square inv num x k = Unfinished.
Proof. exact gpower_exact. Qed.
Print Assumptions C52_power_exact.
Example C52_power_exact_case :
  gpower (AdditiveGroup debug64 ZZ) (-1000)%Z 3%Z 10 = Unfinished /\
  gpower (AdditiveGroup debug64 ZZ) (-1000)%Z 3%Z 11 = Done (-3000)%Z.
Proof.
split; last by vm_compute.
by apply: (C52_power_exact debug64 _ _ _ _ _ 10 9) => //;
  [exists 0%Z|move=> x y; eexists|move=> x; eexists|move=> x; eexists].
Qed.
(** 1000 has ten bits: ten iterations and a last test. *)
Example C52_times_case :
  [/\ (1000 < 2 ^ Z.of_nat 10)%Z, (2 ^ Z.of_nat 9 <= 1000)%Z,
      ntimes (CheckedInts debug64 64%Z) 1000%Z 3%Z 10 = Unfinished &
      ntimes (CheckedInts debug64 64%Z) 1000%Z 3%Z 11 = Done 3000%Z].
Proof. by split; vm_compute. Qed.

(** ** Euclid's algorithm on integers: Lame's theorem *)
Theorem C52_gcd : forall (i : nat) (x y : Z),
  (0 <= y < fib i.+2)%Z \/ (Z.abs y < fib i.+1)%Z ->
  finishes i.+1 (gcd ZZ x y) /\ finishes i.+1 (extended_gcd ZZ x y).
Proof. exact zz_lame. Qed.
Print Assumptions C52_gcd.
(** The bound is sharp. *)
Theorem C52_gcd_worst : forall k : nat, gcd ZZ (fib k.+2) (fib k.+1) k = Unfinished /\
  extended_gcd ZZ (fib k.+2) (fib k.+1) k = Unfinished.
Proof. exact (fun k => conj (zz_gcd_worst k) (zz_egcd_worst k)). Qed.
Print Assumptions C52_gcd_worst.
Theorem C52_gcd_machine : forall (cfg : Cfg) (w : Z) (i : nat) (x y : Z),
  (2 <= w)%Z -> in_i w x -> in_i w y -> (2 ^ (w - 1) < fib i.+1)%Z ->
  finishes i.+1 (gcd (CheckedInts cfg w) x y) /\
  finishes i.+1 (extended_gcd (CheckedInts cfg w) x y).
Proof. exact ci_lame. Qed.
Print Assumptions C52_gcd_machine.
(** gcd(13, 8) needs five divisions and a last test; any two i64 at most 92. *)
Example C52_gcd_case :
  [/\ fib 7 = 13%Z, fib 6 = 8%Z, gcd ZZ 13%Z 8%Z 5 = Unfinished & gcd ZZ 13%Z 8%Z 6 = Done 1%Z] /\
  [/\ (2 ^ (8 - 1) < fib 12)%Z, (2 ^ (32 - 1) < fib 47)%Z, (2 ^ (64 - 1) < fib 93)%Z &
      (2 ^ (128 - 1) < fib 185)%Z].
Proof. by split; split; vm_compute. Qed.

(** ** Modular arithmetic *)
Theorem C52_modular : forall (cfg : Cfg) (m : Z) (i k : nat),
  (2 <= Z.abs m)%Z -> (Z.abs m <= fib i.+2)%Z -> i < k ->
  quick_field k (fun x => (0 <= x < Z.abs m)%Z) (QuotientField cfg ZZ m).
Proof. exact modular_quick. Qed.
Print Assumptions C52_modular.
Theorem C52_modular_checked : forall (cfg : Cfg) (w m : Z) (i k : nat),
  (2 <= w)%Z -> in_i w m -> (2 <= Z.abs m)%Z -> (Z.abs m <= fib i.+2)%Z -> i < k ->
  quick_field k (fun x => (0 <= x < Z.abs m)%Z) (QuotientField cfg (CheckedInts cfg w) m).
Proof. exact modular_checked_quick. Qed.
Print Assumptions C52_modular_checked.
Example C52_modular_case : (2 <= 64)%Z /\ in_i 64%Z 1009%Z /\ (2 <= Z.abs 1009)%Z /\
  (Z.abs 1009 <= fib (15.+2))%Z.
Proof. by vm_compute. Qed.

(** ** Polynomials: at most as many divisions as the second argument has coefficients *)
Theorem C52_poly : forall (E : Type) (A : FieldAlg E) (k : nat) (P : E -> Prop),
  quick_field k P A -> forall v u, Forall P v -> Forall P u -> size u < k ->
  within k (gcd (PolyEucl A) v u) (Forall P) /\
  within k (extended_gcd (PolyEucl A) v u)
    (fun g => [/\ Forall P g.1.1, Forall P g.1.2 & Forall P g.2]).
Proof.
exact (fun E A k P h v u hv hu s => conj (poly_gcd_within h hv hu s) (poly_egcd_within h hv hu s)).
Qed.
Print Assumptions C52_poly.
(** Polynomials modulo 7. *)
Example C52_poly_case :
  within 6 (gcd (PolyEucl (QuotientField debug64 ZZ 7%Z)) [:: 1; 0; 3; 1]%Z [:: 2; 5; 1]%Z)
    (Forall (fun x => (0 <= x < 7)%Z)).
Proof.
have h : quick_field 6 (fun x => (0 <= x < 7)%Z) (QuotientField debug64 ZZ 7%Z).
  by apply: (C52_modular debug64 7%Z 4 6).
by apply: (proj1 (C52_poly _ _ _ _ h _ _ _ _ _)) => //; do !constructor.
Qed.
(** All fields obtained by extensions. *)
Theorem C52_extension : forall (E : Type) (A : FieldAlg E) (k : nat) (P : E -> Prop),
  quick_field k P A -> forall (cfg : Cfg) (m : seq E),
  Forall P m -> 1 < size m -> size m <= k ->
  quick_field k (fun v => Forall P v /\ size v < size m) (QuotientField cfg (PolyEucl A) m).
Proof. exact extension_quick. Qed.
Print Assumptions C52_extension.
Theorem C52_field_power : forall (cfg : Cfg) (E : Type) (A : EuclAlg E) (m : E) (k : nat)
    (P : E -> Prop) (i : nat) (num : Z) (x : E),
  quick_field k P (QuotientField cfg A m) -> is_isize cfg num -> (0 < ptr_bits cfg)%Z ->
  (Z.abs num < 2 ^ Z.of_nat i)%Z -> i < k -> P x ->
  within k (fpower (QuotientField cfg A m) num x) P /\
  within k (ztimes (QuotientField cfg A m) num x) P.
Proof. exact quotient_power_within. Qed.
Print Assumptions C52_field_power.
(** The field with 49 elements: every method within 6 iterations. *)
Example C52_extension_case :
  quick_field 6 (fun v => Forall (fun x => (0 <= x < 7)%Z) v /\ size v < 3)
    (QuotientField debug64 (PolyEucl (QuotientField debug64 ZZ 7%Z)) [:: 1; 0; 1]%Z).
Proof.
have h : quick_field 6 (fun x => (0 <= x < 7)%Z) (QuotientField debug64 ZZ 7%Z).
  exact: (C52_modular debug64 7%Z 4 6).
apply: (C52_extension _ _ _ _ h debug64 [:: 1; 0; 1]%Z) => //.
by do !constructor.
Qed.
