(** * Props_Fit.v -- when matrices of fractions of machine integers do not overflow
    (C82).  See /verif/DESIGN.md. *)

From mathcomp Require Import all_ssreflect all_algebra zify ssrZ.
From Coq Require Import ZArith.
From Verif Require Import Rust Traits MInts MConstr NumSpec FracSpec DetSpec FitSpec Refuted PFitInt.

Import GRing.Theory.
Local Open Scope ring_scope.

(** Fractions of [w]-bit integers; the matrix [ex_int] of the examples is in FitSpec.v. *)
Local Notation QI w := (ReducedFractions debug64 (CheckedInts debug64 w)).

(** ** C82: no overflow if the minors are small *)

(** The determinant of an integer matrix, with fractions of [w]-bit integers: if no
    minor exceeds [M] and [2 M^3 < 2^(w-1)] nothing panics, and the result is the
    integer, up to the sign the code forgets (C42). *)
Theorem C82_determinant : forall (cfg : Cfg) (w : Z), (2 <= w)%Z ->
  forall M : Z, (2 <= ptr_bits cfg)%Z -> (2 * M * M * M < 2 ^ (w - 1))%Z ->
  forall (n : nat) (N : 'M[Z]_n) (v : seq (Z * Z)), frac_entries v N -> minors_within M N ->
  returns (determinant (ReducedFractions cfg (CheckedInts cfg w)) n v)
    (((-1) ^+ exchanges (map_mx (@FracField.tofrac [idomainType of Z]) N) * \det N)%R, 1%Z).
Proof. exact small_determinant. Qed.
Print Assumptions C82_determinant.

Theorem C82_invertible : forall (cfg : Cfg) (w : Z), (2 <= w)%Z ->
  forall M : Z, (2 <= ptr_bits cfg)%Z -> (2 * M * M * M < 2 ^ (w - 1))%Z ->
  forall (n : nat) (N : 'M[Z]_n) (v : seq (Z * Z)), frac_entries v N -> minors_within M N ->
  returns (matrix_invertible (ReducedFractions cfg (CheckedInts cfg w)) n v) (\det N != 0).
Proof. exact small_invertible. Qed.
Print Assumptions C82_invertible.

(** The inverse is the adjugate over the determinant, in lowest terms. *)
Theorem C82_inverse : forall (cfg : Cfg) (w : Z), (2 <= w)%Z ->
  forall M : Z, (2 <= ptr_bits cfg)%Z -> (2 * M * M * M < 2 ^ (w - 1))%Z ->
  forall (n : nat) (N : 'M[Z]_n) (v : seq (Z * Z)), frac_entries v N -> minors_within M N ->
  let inverse := matrix_try_inv cfg (ReducedFractions cfg (CheckedInts cfg w)) n v in
  if \det N == 0 then returns inverse None
  else exists2 u, returns inverse (Some u) &
    size u = (n * n)%nat /\ forall i j : 'I_n, let x := nth (0, 1)%Z u (i * n + j) in
      canonical_pair x /\ (x.1 * \det N = x.2 * (\adj N) i j)%Z.
Proof. exact small_inverse. Qed.
Print Assumptions C82_inverse.

(** Minors of a matrix with entries at most [B] are at most [n! B^n]. *)
Theorem C82_entries : forall (n : nat) (N : 'M[Z]_n) (B : Z), (1 <= B)%Z ->
  (forall i j, (Z.abs (N i j) <= B)%Z) ->
  minors_within (Z.of_nat n`! * B ^ Z.of_nat n)%Z N.
Proof. exact entries_minors. Qed.
Print Assumptions C82_entries.

(** Products do not panic if the entries are small, ... *)
Theorem C82_mul : forall (cfg : Cfg) (w : Z), (2 <= w)%Z ->
  forall (n : nat) (v u : seq (Z * Z)) (N T : 'M[Z]_n) (B C : Z),
  frac_entries v N -> frac_entries u T ->
  (forall i j, (Z.abs (N i j) <= B)%Z) -> (forall i j, (Z.abs (T i j) <= C)%Z) ->
  (Z.of_nat n * (B * C) < 2 ^ (w - 1))%Z ->
  exists2 z, returns (matrix_mul (ReducedFractions cfg (CheckedInts cfg w)) n v u) z &
    frac_entries z (N *m T)%R.
Proof. exact product_small. Qed.
Print Assumptions C82_mul.

(** ... and more generally if every product and every partial sum fits. *)
Theorem C82_mul_fits : forall (cfg : Cfg) (w : Z), (2 <= w)%Z ->
  forall (n : nat) (v u : seq (Z * Z)) (N T : 'M[Z]_n),
  frac_entries v N -> frac_entries u T ->
  (forall i j k : 'I_n, fits w (N i k * T k j)) ->
  (forall i j (m : nat), fits w (\sum_(k < n | (k < m)%nat) N i k * T k j)%R) ->
  exists2 z, returns (matrix_mul (ReducedFractions cfg (CheckedInts cfg w)) n v u) z &
    frac_entries z (N *m T)%R.
Proof. exact product_fits. Qed.
Print Assumptions C82_mul_fits.

(** [[0, 2], [3, 4]] with 32-bit integers: the entries are at most 4, so the minors are
    at most 2! 4^2 = 32, and 2 * 32^3 < 2^31. *)
Example C82_hyp :
  [/\ frac_entries ex_frac ex_int, forall i j, (Z.abs (ex_int i j) <= 4)%Z,
      minors_within 32 ex_int & (2 * 32 * 32 * 32 < 2 ^ (32 - 1))%Z].
Proof.
have e : forall i j, (Z.abs (ex_int i j) <= 4)%Z.
  by move=> [[|[|]] // ?] [[|[|]] // ?]; rewrite mxE.
split=> //; last exact: (C82_entries 2 ex_int 4).
by split=> // -[[|[|]] // ?] [[|[|]] // ?]; rewrite mxE.
Qed.
Example C82_entries_case : minors_within 32 ex_int.
Proof.
by apply: (C82_entries 2 ex_int 4) => // -[[|[|]] // ?] [[|[|]] // ?]; rewrite mxE.
Qed.
Example C82_determinant_case :
  returns (determinant (QI 32) 2 ex_frac) (6, 1)%Z /\
  returns (determinant (QI 32) 2 ex_frac) (((-1) ^+
    exchanges (map_mx (@FracField.tofrac [idomainType of Z]) ex_int) * \det ex_int)%R, 1%Z).
Proof.
have [h1 _ h2 h3] := C82_hyp; split; first by run 20%nat.
exact: (C82_determinant debug64 32 _ 32 _ h3 2 ex_int ex_frac h1 h2).
Qed.
Example C82_invertible_case : returns (matrix_invertible (QI 32) 2 ex_frac) true /\ \det ex_int <> 0.
Proof.
by split; [run 20%nat|rewrite (expand_det_row _ ord0) !big_ord_recl big_ord0 /cofactor !det_mx11 !mxE].
Qed.
Example C82_inverse_case :
  returns (matrix_try_inv debug64 (QI 32) 2 ex_frac)
    (Some [:: (-2, 3); (1, 3); (1, 2); (0, 1)]%Z).
Proof. run 30%nat. Qed.
Example C82_mul_case :
  [/\ frac_entries ex_frac ex_int, (Z.of_nat 2 * (4 * 4) < 2 ^ (8 - 1))%Z &
      returns (matrix_mul (QI 8) 2 ex_frac ex_frac) [:: (6, 1); (8, 1); (12, 1); (22, 1)]%Z].
Proof. by have [h _ _ _] := C82_hyp; split=> //; run 20%nat. Qed.

(** It is not enough that the matrix, its determinant and its inverse fit:
    [[12, 11], [13, 12]] is unimodular, and i8 panics at 11 * -13. *)
Example C82_panics :
  let v := [:: (12, 1); (11, 1); (13, 1); (12, 1)]%Z in
  [/\ panics (determinant (QI 8) 2 v), panics (matrix_try_inv debug64 (QI 8) 2 v),
      returns (determinant (QI 16) 2 v) (1, 1)%Z &
      returns (matrix_try_inv debug64 (QI 16) 2 v)
        (Some [:: (12, 1); (-11, 1); (-13, 1); (12, 1)]%Z)].
Proof. by split; run 30%nat. Qed.
(** A product overflows by its partial sum only: 8 * 15 + 8 * 2 - 8 * 15. *)
Example C82_mul_panics :
  panics (matrix_mul (QI 8) 3
    [:: (8, 1); (8, 1); (8, 1); (0, 1); (0, 1); (0, 1); (0, 1); (0, 1); (0, 1)]%Z
    [:: (15, 1); (0, 1); (0, 1); (2, 1); (0, 1); (0, 1); (-15, 1); (0, 1); (0, 1)]%Z).
Proof. run 20%nat. Qed.
