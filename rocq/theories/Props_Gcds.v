(** * Props_Gcds.v -- C113: gcd and lcm of lists of elements. *)

From mathcomp Require Import all_ssreflect all_algebra ssrZ.
From Coq Require Import ZArith List.
From Verif Require Import Rust Traits MInts MConstr Spec PropSpec RingSpec Quotient.
From Verif Require Import PInts PIntsZ GcdsSpec PGcds Refuted.

(** [gcds] and [lcms] are the client programs of GcdsSpec.v. The divisors of the result are
    the common divisors of the list. *)
Theorem C113_gcd : forall (cfg : Cfg) (p : Prop) (E : Type) (R : idomainType)
    (rep : E -> R -> Prop) (AS : assoc_struct R) (S : eucl_struct R) (A : EuclAlg E),
  eucl_alg_spec cfg p rep AS S A ->
  forall (xs : list E) (s : list R), Forall2 rep xs s ->
  ensures p (gcds A xs) (fun z => exists2 g, rep z g &
    forall c, dvds c g <-> (forall a, In a s -> dvds c a)).
Proof. exact gcds_ok. Qed.
Print Assumptions C113_gcd.
Example C113_gcd_case :
  eucl_alg_spec debug64 False (R := [idomainType of Z]) zz_rep Z_assoc Z_eucl ZZ /\
  Forall2 zz_rep (12 :: -30 :: 42 :: nil)%Z (12 :: -30 :: 42 :: nil)%Z /\
  returns (let! g := gcds ZZ (12 :: -30 :: 42 :: nil)%Z in associate_repr ZZ g) 6%Z.
Proof.
split; first exact: ZZ_ok.
split; [by repeat constructor|by run 200%nat].
Qed.

(** The multiples of the result are the common multiples of the list. *)
Theorem C113_lcm : forall (cfg : Cfg) (p : Prop) (E : Type) (R : idomainType)
    (rep : E -> R -> Prop) (AS : assoc_struct R) (S : eucl_struct R) (A : EuclAlg E),
  eucl_alg_spec cfg p rep AS S A ->
  forall (xs : list E) (s : list R), Forall2 rep xs s ->
  ensures p (lcms A xs) (fun z => exists2 m, rep z m &
    forall c, dvds m c <-> (forall a, In a s -> dvds a c)).
Proof. exact lcms_ok. Qed.
Print Assumptions C113_lcm.
Example C113_lcm_case :
  eucl_alg_spec debug64 False (R := [idomainType of Z]) zz_rep Z_assoc Z_eucl ZZ /\
  Forall2 zz_rep (12 :: -30 :: 42 :: nil)%Z (12 :: -30 :: 42 :: nil)%Z /\
  returns (let! g := lcms ZZ (12 :: -30 :: 42 :: nil)%Z in associate_repr ZZ g) 420%Z.
Proof.
split; first exact: ZZ_ok.
split; [by repeat constructor|by run 200%nat].
Qed.

(** Lists with the same elements, in any order and with repetitions, give associates. *)
Theorem C113_gcd_order : forall (cfg : Cfg) (p : Prop) (E : Type) (R : idomainType)
    (rep : E -> R -> Prop) (AS : assoc_struct R) (S : eucl_struct R) (A : EuclAlg E),
  eucl_alg_spec cfg p rep AS S A ->
  forall (xs : list E) (s : list R) (ys : list E) (t : list R),
  Forall2 rep xs s -> Forall2 rep ys t -> (forall x, In x xs <-> In x ys) ->
  answers p (let! g := gcds A xs in let! h := gcds A ys in associates A g h) true.
Proof. exact gcds_perm. Qed.
Print Assumptions C113_gcd_order.
Theorem C113_lcm_order : forall (cfg : Cfg) (p : Prop) (E : Type) (R : idomainType)
    (rep : E -> R -> Prop) (AS : assoc_struct R) (S : eucl_struct R) (A : EuclAlg E),
  eucl_alg_spec cfg p rep AS S A ->
  forall (xs : list E) (s : list R) (ys : list E) (t : list R),
  Forall2 rep xs s -> Forall2 rep ys t -> (forall x, In x xs <-> In x ys) ->
  answers p (let! g := lcms A xs in let! h := lcms A ys in associates A g h) true.
Proof. exact lcms_perm. Qed.
Print Assumptions C113_lcm_order.
Example C113_gcd_order_case :
  eucl_alg_spec debug64 False (R := [idomainType of Z]) zz_rep Z_assoc Z_eucl ZZ /\
  Forall2 zz_rep (4 :: 6 :: nil)%Z (4 :: 6 :: nil)%Z /\
  Forall2 zz_rep (6 :: 4 :: 6 :: nil)%Z (6 :: 4 :: 6 :: nil)%Z /\
  (forall x, In x (4 :: 6 :: nil)%Z <-> In x (6 :: 4 :: 6 :: nil)%Z) /\
  returns (gcds ZZ (4 :: 6 :: nil)%Z) 2%Z.
Proof.
split; first exact: ZZ_ok.
split; first by repeat constructor.
split; first by repeat constructor.
split; [by move=> x /=; intuition|by run 200%nat].
Qed.
Example C113_lcm_order_case :
  returns (lcms ZZ (4 :: 6 :: nil)%Z) 12%Z /\ returns (lcms ZZ (6 :: 4 :: 6 :: nil)%Z) 12%Z.
Proof. by split; run 200%nat. Qed.
