(** * Props_Exact.v -- C87: floats compute exactly as long as nothing is rounded.

    [ExactFloats] (ExactSpec.v) is ApproxFloats with a check after each operation, which
    panics when the result is not the exact one. What returns with the check returns the
    same without it, and obeys the contract of the field of rational numbers. *)

From mathcomp Require Import all_ssreflect all_algebra zify ssrZ.
From Coq Require Import ZArith Reals SpecFloat.
From Flocq Require Import Core BinarySingleNaN.
From Verif Require Import Rust Traits MInts MConstr MFloats Wp RingSpec Spec FloatSpec FitSpec DetSpec.
From Verif Require Import ProfSpec FloatProfSpec ExactSpec ExactQSpec.
From Verif Require Import PFloat3 PExact PExact2 PExact3 PExact4 PExactEx PExactRun Refuted.

Import GRing.Theory.
Local Open Scope ring_scope.
Local Notation show v := (map (fun x : f64 => B2SF x) v).
Local Notation one := (S754_finite false (2 ^ 52) (-52)).
Local Notation minus_one := (S754_finite true (2 ^ 52) (-52)).
Local Notation nought := (S754_zero false).
Local Notation X64 := (ExactFloats debug64 prec64 emax64).

Theorem C87_arithmetic : forall (cfg : Cfg) (prec emax : Z) (hp : Prec_gt_0 prec)
    (he : Prec_lt_emax prec emax), exact_arithmetic (ExactFloats cfg hp he).
Proof. exact exact_floats. Qed.
Print Assumptions C87_arithmetic.
(** 1/3 is not a float of 64 bits: the checked inverse of 3 panics, that of 2 does not. *)
Example C87_arithmetic_case :
  panics (finv X64 (f64_num 3 0)) /\ yields (finv X64 (f64_num 2 0)) (/ 2)%R.
Proof. exact: invert_two_three. Qed.

(** ** What returns with the check returns the same without it. *)
Theorem C87_euclidean : forall (c1 c2 : Cfg) (prec emax : Z) (hp : Prec_gt_0 prec)
    (he : Prec_lt_emax prec emax), stricter c1 c2 ->
  forall (E : Type) (ty : E -> Prop) (A : FieldAlg _ -> Cfg -> EuclAlg E),
  on_eucl (floats prec emax) ty A ->
  let A1 := A (ExactFloats c1 hp he) c1 in let A2 := A (ApproxFloats c2 hp he) c2 in
  eucl_alg_rel (@follows) (fun _ => True) ty A1 A2 /\
  lattice_alg_rel (@follows) ty (DivisibilityLattice A1) (DivisibilityLattice A2).
Proof. exact (fun c1 c2 prec emax hp he h E ty A => exact_eucl hp he h (ty := ty) (S := A)). Qed.
Print Assumptions C87_euclidean.
(** A debug and a release build; polynomials over the floats of 64 bits. *)
Example C87_euclidean_case :
  eucl_alg_rel (@follows) (fun _ => True) (in_vec (floats 53 1024))
    (PolyEucl X64) (PolyEucl (F64 release64)).
Proof.
have st : stricter debug64 release64 by [].
exact: (proj1 (C87_euclidean debug64 release64 53 1024 prec64 emax64 st _ _
  (fun B c => PolyEucl B) (on_eucl_poly (on_reals (floats 53 1024))))).
Qed.
Theorem C87_field : forall (c1 c2 : Cfg) (prec emax : Z) (hp : Prec_gt_0 prec)
    (he : Prec_lt_emax prec emax), stricter c1 c2 ->
  forall (E : Type) (ty : E -> Prop) (A : FieldAlg _ -> Cfg -> FieldAlg E),
  on_field (floats prec emax) ty A ->
  let A1 := A (ExactFloats c1 hp he) c1 in let A2 := A (ApproxFloats c2 hp he) c2 in
  field_alg_rel (@follows) (fun _ => True) ty A1 A2 /\
  forall n v, in_vec ty v -> follows ty (determinant A1 n v) (determinant A2 n v).
Proof. exact (fun c1 c2 prec emax hp he h E ty A => exact_field hp he h (ty := ty) (S := A)). Qed.
Print Assumptions C87_field.
Example C87_field_case :
  field_alg_rel (@follows) (fun _ => True) (in_pair (in_vec (floats 53 1024)))
    (ReducedFractions debug64 (PolyEucl X64)) (ReducedFractions release64 (PolyEucl (F64 release64))).
Proof.
have st : stricter debug64 release64 by [].
exact: (proj1 (C87_field debug64 release64 53 1024 prec64 emax64 st _ _
  (fun B c => ReducedFractions c (PolyEucl B))
  (on_ReducedFractions (on_eucl_poly (on_reals (floats 53 1024)))))).
Qed.
Theorem C87_integral : forall (c1 c2 : Cfg) (prec emax : Z) (hp : Prec_gt_0 prec)
    (he : Prec_lt_emax prec emax), stricter c1 c2 ->
  forall (E : Type) (ty : E -> Prop) (A : FieldAlg _ -> Cfg -> IDomAlg E),
  on_idom (floats prec emax) ty A ->
  let A1 := A (ExactFloats c1 hp he) c1 in let A2 := A (ApproxFloats c2 hp he) c2 in
  idom_alg_rel (@follows) (fun _ => True) ty A1 A2 /\
  bounded_alg_rel (@follows) ty (DivisibilityOrder A1) (DivisibilityOrder A2).
Proof. exact (fun c1 c2 prec emax hp he h E ty A => exact_idom hp he h (ty := ty) (S := A)). Qed.
Print Assumptions C87_integral.
Example C87_integral_case :
  idom_alg_rel (@follows) (fun _ => True) (in_vec (in_vec (floats 53 1024)))
    (PolyIDom (PolyEucl X64)) (PolyIDom (PolyEucl (F64 release64))).
Proof.
have st : stricter debug64 release64 by [].
exact: (proj1 (C87_integral debug64 release64 53 1024 prec64 emax64 st _ _
  (fun B c => PolyIDom (PolyEucl B))
  (on_idom_poly (on_idom_eucl (on_eucl_poly (on_reals (floats 53 1024))))))).
Qed.
Theorem C87_ring : forall (c1 c2 : Cfg) (prec emax : Z) (hp : Prec_gt_0 prec)
    (he : Prec_lt_emax prec emax), stricter c1 c2 ->
  forall (E : Type) (ty : E -> Prop) (A : FieldAlg _ -> Cfg -> RingAlg E),
  on_ring (floats prec emax) true ty A ->
  ring_alg_rel (@follows) (fun _ => True) ty
    (A (ExactFloats c1 hp he) c1) (A (ApproxFloats c2 hp he) c2).
Proof. exact (fun c1 c2 prec emax hp he h E ty A => exact_ring_on hp he h (ty := ty) (S := A)). Qed.
Print Assumptions C87_ring.
Example C87_ring_case :
  ring_alg_rel (@follows) (fun _ => True) (in_vec (floats 53 1024))
    (MatrixRing debug64 X64 3) (MatrixRing release64 (F64 release64) 3).
Proof.
have st : stricter debug64 release64 by [].
exact: (C87_ring debug64 release64 53 1024 prec64 emax64 st _ _
  (fun B c => MatrixRing c B 3) (on_MatrixRing 3 (isT : true) (on_reals (floats 53 1024)))).
Qed.
Theorem C87_group : forall (c1 c2 : Cfg) (prec emax : Z) (hp : Prec_gt_0 prec)
    (he : Prec_lt_emax prec emax), stricter c1 c2 ->
  forall (E : Type) (ty : E -> Prop) (A : FieldAlg _ -> Cfg -> GroupAlg E),
  on_group (floats prec emax) true ty A ->
  group_alg_rel (@follows) (fun _ => True) ty
    (A (ExactFloats c1 hp he) c1) (A (ApproxFloats c2 hp he) c2).
Proof. exact (fun c1 c2 prec emax hp he h E ty A => exact_group_on hp he h (ty := ty) (S := A)). Qed.
Print Assumptions C87_group.
Example C87_group_case :
  group_alg_rel (@follows) (fun _ => True) (in_vec (floats 53 1024))
    (MultiplicativeGroup debug64 (MatrixRing debug64 X64 3))
    (MultiplicativeGroup release64 (MatrixRing release64 (F64 release64) 3)).
Proof.
have st : stricter debug64 release64 by [].
exact: (C87_group debug64 release64 53 1024 prec64 emax64 st _ _
  (fun B c => MultiplicativeGroup c (MatrixRing c B 3))
  (on_MultiplicativeGroup (on_MatrixRing 3 (isT : true) (on_reals (floats 53 1024))))).
Qed.

(** ** What returns with the check is right over the rational numbers. *)
Theorem C87_contract : forall (cfg : Cfg) (prec emax : Z) (hp : Prec_gt_0 prec)
    (he : Prec_lt_emax prec emax),
  field_alg_spec cfg True (@denotes prec emax) (ExactFloats cfg hp he).
Proof. exact exact_field_ok. Qed.
Print Assumptions C87_contract.
Example C87_contract_case : denotes (f64_num 2 0) (rat_of 2) /\
  field_alg_spec debug64 True (@denotes 53 1024) X64.
Proof. by split; [exact: is_int_denotes two_is|exact: C87_contract]. Qed.
Theorem C87_members : forall (prec emax : Z) (x : binary_float prec emax), is_finite x = true ->
  exists q, denotes x q /\ forall q', denotes x q' -> q' = q.
Proof. exact denotes_unique. Qed.
Print Assumptions C87_members.
Example C87_members_case : exists q, denotes (f64_num 1 (-1)) q /\ q = rat_of 1 / rat_of 2.
Proof.
have [q [h u]] := C87_members 53 1024 (f64_num 1 (-1)) erefl; exists q; split=> //.
by apply/esym/u; exact: half_denotes.
Qed.
Theorem C87_division : forall (cfg : Cfg) (prec emax : Z) (hp : Prec_gt_0 prec)
    (he : Prec_lt_emax prec emax) (v u : seq (binary_float prec emax)) (P Q : {poly rationals}),
  poly_of (@denotes prec emax) v P -> poly_of (@denotes prec emax) u Q -> Q != 0 ->
  ensures True (quo_rem (PolyEucl (ExactFloats cfg hp he)) v u) (fun z =>
    [/\ returns (quo_rem (PolyEucl (ApproxFloats cfg hp he)) v u) z,
      poly_of (@denotes prec emax) z.1 (P %/ Q) & poly_of (@denotes prec emax) z.2 (P %% Q)]).
Proof. exact exact_division. Qed.
Print Assumptions C87_division.
(** x^3 - 1 by x - 1, with the check: x^2 + x + 1, and no remainder *)
Example C87_division_case :
  [/\ poly_of (@denotes 53 1024) cube_floats (map_poly rat_of cube_poly),
      poly_of (@denotes 53 1024) line_floats (map_poly rat_of line_poly) &
      returns (let! z := quo_rem (PolyEucl X64) cube_floats line_floats in ret (show z.1, show z.2))
        ([:: one; one; one], [::])].
Proof.
split; [exact/ints_rep/cube_is|exact/ints_rep/line_is|].
by rewrite RunFloatsE; run 20%nat.
Qed.
Theorem C87_gcd : forall (cfg : Cfg) (prec emax : Z) (hp : Prec_gt_0 prec)
    (he : Prec_lt_emax prec emax) (v u : seq (binary_float prec emax)) (P Q : {poly rationals}),
  poly_of (@denotes prec emax) v P -> poly_of (@denotes prec emax) u Q ->
  ensures True (extended_gcd (PolyEucl (ExactFloats cfg hp he)) v u) (fun z =>
    returns (extended_gcd (PolyEucl (ApproxFloats cfg hp he)) v u) z /\
    exists D S T : {poly rationals},
      [/\ poly_of (@denotes prec emax) z.1.1 D, poly_of (@denotes prec emax) z.1.2 S,
        poly_of (@denotes prec emax) z.2 T, D = S * P + T * Q & D %= gcdp P Q]).
Proof. exact exact_gcd. Qed.
Print Assumptions C87_gcd.
Example C87_gcd_case :
  [/\ poly_of (@denotes 53 1024) cube_floats (map_poly rat_of cube_poly),
      poly_of (@denotes 53 1024) line_floats (map_poly rat_of line_poly) &
      returns (let! z := extended_gcd (PolyEucl X64) cube_floats line_floats in
               ret (show z.1.1, show z.1.2, show z.2))
        ([:: minus_one; one], [::], [:: one])].
Proof.
split; [exact/ints_rep/cube_is|exact/ints_rep/line_is|].
by rewrite RunFloatsE; run 20%nat.
Qed.

(** ** Some computations in which nothing is rounded *)
Theorem C87_monic : forall (cfg : Cfg) (prec emax : Z) (hp : Prec_gt_0 prec)
    (he : Prec_lt_emax prec emax) (v u : seq (binary_float prec emax)) (P Q : {poly Z}) (B C : Z),
  poly_of (@is_int prec emax) v P -> poly_of (@is_int prec emax) u Q ->
  (forall i, Z.abs P`_i <= B)%Z -> (forall i, Z.abs Q`_i <= C)%Z ->
  Z.abs (lead_coef Q) = 1%Z ->
  (B * (1 + C) ^ Z.of_nat (size P - size Q + 1) < 2 ^ prec)%Z ->
  exists2 z, returns (quo_rem (PolyEucl (ApproxFloats cfg hp he)) v u) z &
    exists S T : {poly Z}, [/\ poly_of (@is_int prec emax) z.1 S, poly_of (@is_int prec emax) z.2 T,
      P = S * Q + T & (size T < size Q)%nat].
Proof. exact monic_division. Qed.
Print Assumptions C87_monic.
Example C87_monic_case : exists2 z, returns (quo_rem (PolyEucl (F64 debug64)) cube_floats line_floats) z &
  exists S T : {poly Z}, [/\ poly_of (@is_int 53 1024) z.1 S, poly_of (@is_int 53 1024) z.2 T,
    cube_poly = S * line_poly + T & (size T < size line_poly)%nat].
Proof.
apply: (C87_monic _ _ _ _ _ _ _ _ _ _ _ cube_is line_is cube_bound line_bound).
  by rewrite line_lead.
by rewrite cube_seq line_seq.
Qed.
Theorem C87_determinant : forall (cfg : Cfg) (prec emax : Z) (hp : Prec_gt_0 prec)
    (he : Prec_lt_emax prec emax) (K : Z), (3 * K + 2 <= prec)%Z -> (2 <= ptr_bits cfg)%Z ->
  forall (n : nat) (N : 'M[Z]_n) (v : seq (binary_float prec emax)),
  int_entries v N -> power_minors K N ->
  exists2 x, returns (determinant (ApproxFloats cfg hp he) n v) x &
    is_int x ((-1) ^+ exchanges (map_mx rat_of N) * \det N).
Proof. exact power_determinant. Qed.
Print Assumptions C87_determinant.
Example C87_determinant_case : [/\ int_entries had_floats had, power_minors 1 had &
  shows (determinant (F64 debug64) 2 had_floats) (S754_finite true (2 ^ 52) (-51))].
Proof. by split; [exact: had_entries|exact: had_minors|show 20%nat]. Qed.
Theorem C87_inverse : forall (cfg : Cfg) (prec emax : Z) (hp : Prec_gt_0 prec)
    (he : Prec_lt_emax prec emax) (K : Z), (3 * K + 2 <= prec)%Z -> (2 <= ptr_bits cfg)%Z ->
  forall (n : nat) (N : 'M[Z]_n) (v : seq (binary_float prec emax)),
  int_entries v N -> power_minors K N ->
  if \det N == 0 then returns (try_inv (MatrixRing cfg (ApproxFloats cfg hp he) n) v) None
  else exists2 u, returns (try_inv (MatrixRing cfg (ApproxFloats cfg hp he) n) v) (Some u) &
    size u = (n * n)%nat /\ forall i j : 'I_n,
      float_is (nth (B754_zero false) u (i * n + j)) (IZR ((\adj N) i j) / IZR (\det N))%R.
Proof. exact power_inverse. Qed.
Print Assumptions C87_inverse.
Example C87_inverse_case : exists2 u, returns (try_inv (MatrixRing debug64 (F64 debug64) 2) had_floats) (Some u) &
  forall i j : 'I_2, float_is (nth (B754_zero false) u (i * 2 + j)) (IZR ((\adj had) i j) / -2)%R.
Proof.
have := C87_inverse debug64 53 1024 prec64 emax64 (Zpos xH) _ _ 2 had had_floats had_entries had_minors.
by rewrite had_det; case=> // u r [_ h]; exists u.
Qed.
