(** * Props_New.v -- C91: constructors and accessors.  See /verif/DESIGN.md. *)

From mathcomp Require Import all_ssreflect zify ssrZ.
From Coq Require Import ZArith.
From Verif Require Import Rust Traits MInts MConstr MNew ProfSpec Refuted PNew.

(** ** VectorAlgebra and MatrixRing *)
Theorem C91_vector : forall (A : Type) (base : A) (len : nat),
  exists2 s, returns (va_new base len) s & va_base s = base /\ va_len s = len.
Proof. exact new_vector. Qed.
Print Assumptions C91_vector.
Example C91_vector_case : exists2 s, returns (va_new ZZ 3) s & va_base s = ZZ /\ va_len s = 3%nat.
Proof. exact: C91_vector. Qed.

Theorem C91_matrix : forall (cfg : Cfg) (A : Type) (base : A) (n : nat), (0 <= ptr_bits cfg)%Z ->
  if (Z.of_nat n * Z.of_nat n <? 2 ^ ptr_bits cfg)%Z then
    exists2 s, returns (mr_new cfg base n) s &
      [/\ mr_base s = base, mr_size s = n, returns (mr_len cfg s) (n * n)%nat &
          va_len (mr_valg s) = (n * n)%nat]
  else panics (mr_new cfg base n).
Proof. exact new_matrix. Qed.
Print Assumptions C91_matrix.
Example C91_matrix_case : let cfg := mkCfg true true 8%Z in
  (exists2 s, returns (mr_new cfg BB 15) s &
      [/\ mr_base s = BB, mr_size s = 15%nat, returns (mr_len cfg s) 225%nat & va_len (mr_valg s) = 225%nat]) /\
  panics (mr_new cfg BB 16).
Proof. by move=> cfg; split; [exact: (C91_matrix cfg _ BB 15)|exact: (C91_matrix cfg _ BB 16)]. Qed.

(** ** The constructors that check their arguments *)
Theorem C91_quotient_ring : forall (E : Type) (A : EuclAlg E) (m : E),
  (forall s, returns (qr_new A m) s <->
     [/\ returns (contains A m) true, qr_base s = A & qr_modulo s = m]) /\
  (returns (contains A m) false \/ panics (contains A m) -> panics (qr_new A m)) /\
  (returns (quotient_ring_new A m) tt <-> exists s, returns (qr_new A m) s).
Proof. exact new_quotient_ring. Qed.
Print Assumptions C91_quotient_ring.
(** 0/5 is not reduced; on 1/0, [contains] itself panics. *)
Example C91_quotient_ring_case : let Q := ReducedFractions debug64 ZZ in
  (exists2 s, returns (qr_new ZZ 12%Z) s & qr_base s = ZZ /\ qr_modulo s = 12%Z) /\
  panics (qr_new Q (0, 5)%Z) /\ panics (qr_new Q (1, 0)%Z).
Proof.
move=> Q; split; last split.
- by exists (mkQuotientRing ZZ 12%Z) => //; apply/(proj1 (C91_quotient_ring Z ZZ 12%Z)); split=> //; run 5%nat.
- by apply: (proj1 (proj2 (C91_quotient_ring _ Q (0, 5)%Z))); left; run 9%nat.
- by apply: (proj1 (proj2 (C91_quotient_ring _ Q (1, 0)%Z))); right; run 9%nat.
Qed.

Theorem C91_quotient_field : forall (E : Type) (A : EuclAlg E) (m : E),
  (forall s, returns (qf_new A m) s <->
     [/\ returns (contains A m) true, returns (let! o := one A in let! r := rem A o o in is_zero A r) true,
         qf_base s = A & qf_modulo s = m]) /\
  (returns (contains A m) false \/ panics (contains A m) -> panics (qf_new A m)) /\
  (returns (quotient_field_new A m) tt <-> exists s, returns (qf_new A m) s).
Proof. exact new_quotient_field. Qed.
Print Assumptions C91_quotient_field.
Example C91_quotient_field_case :
  exists2 s, returns (qf_new ZZ 7%Z) s & qf_base s = ZZ /\ qf_modulo s = 7%Z.
Proof.
by exists (mkQuotientField ZZ 7%Z) => //; apply/(proj1 (C91_quotient_field Z ZZ 7%Z)); split=> //; run 5%nat.
Qed.

Theorem C91_fractions : forall (E : Type) (A : EuclAlg E),
  (forall s, returns (rf_new A) s <->
     returns (let! o := one A in is_zero A o) false /\ rf_base s = A) /\
  (returns (let! o := one A in is_zero A o) true -> panics (rf_new A)) /\
  (returns (fractions_new A) tt <-> exists s, returns (rf_new A) s).
Proof. exact new_fractions. Qed.
Print Assumptions C91_fractions.
Example C91_fractions_case : exists2 s, returns (rf_new ZZ) s & rf_base s = ZZ.
Proof. by exists (mkReducedFractions ZZ) => //; apply/(proj1 (C91_fractions Z ZZ)); split=> //; run 5%nat. Qed.

(** No structure of the crate is refused, although some are trivial. *)
Theorem C91_fractions_always : forall (c : Cfg) (E : Type) (ty : E -> Prop) A,
  prof_eucl ty A -> exists s, returns (rf_new (A c)) s.
Proof. exact fractions_always. Qed.
Print Assumptions C91_fractions_always.
(** Modulo one, 1 + 1 and 1 * 0 are both 0, but 1 does not count as zero. *)
Example C91_fractions_always_case : let A := QuotientField debug64 ZZ 1%Z in
  (exists s, returns (rf_new A) s) /\
  returns (add A 1%Z 1%Z) 0%Z /\ returns (mul A 1%Z 0%Z) 0%Z /\ returns (is_zero A 1%Z) false.
Proof.
split; last by split; [|split]; run 5%nat.
apply: (C91_fractions_always debug64 _ (fun _ => True) (fun c => QuotientField c ZZ 1%Z)).
by apply: prof_eucl_field; apply: prof_QuotientField prof_ZZ _.
Qed.

(** The check of MatrixRing::new is the one used in C25, C78 and C89. *)
Theorem C91_matrix_check : forall (cfg : Cfg) (A : Type) (base : A) (n : nat),
  returns (matrix_new cfg n) tt <-> exists s, returns (mr_new cfg base n) s.
Proof. exact new_matrix_check. Qed.
Print Assumptions C91_matrix_check.
Example C91_matrix_check_case : exists s, returns (mr_new debug64 BB 3) s.
Proof. by apply/(C91_matrix_check debug64 _ BB 3); run 1%nat. Qed.

(** ** The other constructors *)
Theorem C91_polynomials : forall (A : Type) (base : A), exists2 s, returns (pa_new base) s & pa_base s = base.
Proof. exact new_polynomials. Qed.
Print Assumptions C91_polynomials.
Theorem C91_wrappers : forall (A E : Type) (base : A) (G : AbelianAlg E) (O : MonoidAlg E) (n : nat),
  [/\ exists2 s, returns (do_new base) s & do_base s = base,
      exists2 s, returns (ag_new G) s & ag_base s = G,
      exists2 s, returns (mg_new O) s & mg_base s = O &
      exists2 s, returns (pm_new n) s & pm_size s = n].
Proof. exact new_wrappers. Qed.
Print Assumptions C91_wrappers.
Example C91_polynomials_case : exists2 s, returns (pa_new BB) s & pa_base s = BB.
Proof. exact: C91_polynomials. Qed.
Example C91_wrappers_case : exists2 s, returns (mg_new (ZZ : MonoidAlg Z)) s & mg_base s = ZZ :> MonoidAlg Z.
Proof. by have [] := C91_wrappers _ Z ZZ ZZ ZZ 5. Qed.

(** ** A structure computes with the arguments of its constructor *)
Theorem C91_methods : forall (cfg : Cfg) (E : Type),
  (forall (A : RingAlg E) n s, returns (va_new A n) s -> va_methods cfg s = VectorRing cfg n A) /\
  (forall (A : FieldAlg E) n s, returns (mr_new cfg A n) s -> mr_methods cfg s = MatrixRing cfg A n) /\
  (forall (A : RingAlg E) s, returns (pa_new A) s -> pa_methods s = PolyRing A) /\
  (forall (A : IDomAlg E) s, returns (pa_new A) s -> pa_domain_methods s = PolyIDom A) /\
  (forall (A : FieldAlg E) s, returns (pa_new A) s -> pa_euclidean_methods s = PolyEucl A) /\
  (forall (A : EuclAlg E) m s, returns (qr_new A m) s -> qr_methods cfg s = QuotientRing cfg A m) /\
  (forall (A : EuclAlg E) m s, returns (qf_new A m) s -> qf_methods cfg s = QuotientField cfg A m) /\
  (forall (A : EuclAlg E) s, returns (rf_new A) s -> rf_methods cfg s = ReducedFractions cfg A) /\
  (forall (A : EuclAlg E) s, returns (do_new A) s -> do_methods s = DivisibilityLattice A) /\
  (forall (A : AbelianAlg E) s, returns (ag_new A) s -> ag_methods cfg s = AdditiveGroup cfg A) /\
  (forall (A : MonoidAlg E) s, returns (mg_new A) s -> mg_methods cfg s = MultiplicativeGroup cfg A) /\
  (forall n s, returns (pm_new n) s -> pm_methods cfg s = Permutations cfg n).
Proof. exact new_methods. Qed.
Print Assumptions C91_methods.
(** 5 * 8 = 4 modulo 12, from the constructor to the result. *)
Example C91_methods_case : returns (let! s := qr_new ZZ 12%Z in mul (qr_methods debug64 s) 5%Z 8%Z) 4%Z.
Proof. run 5%nat. Qed.
