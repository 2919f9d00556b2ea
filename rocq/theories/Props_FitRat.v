(** * Props_FitRat.v -- C90: when matrices of fractions of machine integers, with
    denominators, do not overflow.  See /verif/DESIGN.md. *)

From mathcomp Require Import all_ssreflect all_algebra zify ssrZ.
From Coq Require Import ZArith.
From Verif Require Import Rust Traits MInts MConstr NumSpec FracSpec DetSpec FitSpec FitRatSpec Refuted
  PFitInt PFitRat.

Import GRing.Theory.
Local Open Scope ring_scope.

Local Notation QI w := (ReducedFractions debug64 (CheckedInts debug64 w)).

(** The matrix of the examples: (1/2 1/3; 1/4 0), with denominators 6 and 4. *)
Example C90_hyp :
  [/\ ratio_entries half_fracs half_matrix half_dens, minors_within 18 half_matrix,
      all_dens half_dens = 24%Z & (2 * (18 * 24) * (18 * 24) * (18 * 24) < 2 ^ (32 - 1))%Z].
Proof.
split=> //; last by rewrite /all_dens !big_ord_recl big_ord0.
  by split=> // [[[|[|]] // ?]|[[|[|]] // ?] [[|[|]] // ?]]; rewrite ?mxE.
by apply: (entries_minors (B := 3%Z)) => // -[[|[|]] // ?] [[|[|]] // ?]; rewrite mxE.
Qed.

(** ** Determinant and inverse: the minors of the numerators times all denominators are small *)
Theorem C90_determinant : forall (cfg : Cfg) (w : Z), (2 <= w)%Z ->
  forall M : Z, (2 <= ptr_bits cfg)%Z ->
  forall (n : nat) (N : 'M[Z]_n) (D : 'I_n -> Z) (v : seq (Z * Z)),
  let L := (M * all_dens D)%Z in
  (2 * L * L * L < 2 ^ (w - 1))%Z -> ratio_entries v N D -> minors_within M N ->
  exists2 x, returns (determinant (ReducedFractions cfg (CheckedInts cfg w)) n v) x &
    canonical_pair x /\
    (x.1 * all_dens D = x.2 * ((-1) ^+ exchanges (ratio_matrix N D) * \det N)%R)%Z.
Proof. exact rational_determinant. Qed.
Print Assumptions C90_determinant.
Example C90_determinant_case :
  returns (determinant (QI 32) 2 half_fracs) (-1, 12)%Z /\
  exists2 x, returns (determinant (QI 32) 2 half_fracs) x & canonical_pair x /\
    (x.1 * all_dens half_dens = x.2 * ((-1) ^+ exchanges (ratio_matrix half_matrix half_dens) * \det half_matrix)%R)%Z.
Proof.
have [h1 h2 h3 h4] := C90_hyp; split; first by run 20%nat.
by apply: (C90_determinant debug64 32 _ 18 _ 2 half_matrix half_dens half_fracs _ h1 h2) => //; rewrite h3.
Qed.

Theorem C90_invertible : forall (cfg : Cfg) (w : Z), (2 <= w)%Z ->
  forall M : Z, (2 <= ptr_bits cfg)%Z ->
  forall (n : nat) (N : 'M[Z]_n) (D : 'I_n -> Z) (v : seq (Z * Z)),
  let L := (M * all_dens D)%Z in
  (2 * L * L * L < 2 ^ (w - 1))%Z -> ratio_entries v N D -> minors_within M N ->
  returns (matrix_invertible (ReducedFractions cfg (CheckedInts cfg w)) n v) (\det N != 0).
Proof. exact rational_invertible. Qed.
Print Assumptions C90_invertible.
Example C90_invertible_case :
  returns (matrix_invertible (QI 32) 2 half_fracs) true /\
  returns (matrix_invertible (QI 32) 2 half_fracs) (\det half_matrix != 0).
Proof.
have [h1 h2 h3 h4] := C90_hyp; split; first by run 20%nat.
by apply: (C90_invertible debug64 32 _ 18 _ 2 half_matrix half_dens half_fracs _ h1 h2) => //; rewrite h3.
Qed.

(** The inverse is the adjugate times the denominators over the determinant. *)
Theorem C90_inverse : forall (cfg : Cfg) (w : Z), (2 <= w)%Z ->
  forall M : Z, (2 <= ptr_bits cfg)%Z ->
  forall (n : nat) (N : 'M[Z]_n) (D : 'I_n -> Z) (v : seq (Z * Z)),
  let L := (M * all_dens D)%Z in
  (2 * L * L * L < 2 ^ (w - 1))%Z -> ratio_entries v N D -> minors_within M N ->
  let inverse := matrix_try_inv cfg (ReducedFractions cfg (CheckedInts cfg w)) n v in
  if \det N == 0 then returns inverse None
  else exists2 u, returns inverse (Some u) &
    size u = (n * n)%nat /\ forall i j : 'I_n, let x := nth (0, 1)%Z u (i * n + j) in
      canonical_pair x /\ (x.1 * \det N = x.2 * ((\adj N) i j * D j))%Z.
Proof. exact rational_inverse. Qed.
Print Assumptions C90_inverse.
Example C90_inverse_case :
  returns (matrix_try_inv debug64 (QI 32) 2 half_fracs) (Some [:: (0, 1); (4, 1); (3, 1); (-6, 1)]%Z) /\
  let inverse := matrix_try_inv debug64 (QI 32) 2 half_fracs in
  if \det half_matrix == 0 then returns inverse None
  else exists2 u, returns inverse (Some u) &
    size u = 4%nat /\ forall i j : 'I_2, let x := nth (0, 1)%Z u (i * 2 + j) in
      canonical_pair x /\ (x.1 * \det half_matrix = x.2 * ((\adj half_matrix) i j * half_dens j))%Z.
Proof.
have [h1 h2 h3 h4] := C90_hyp; split; first by run 30%nat.
by apply: (C90_inverse debug64 32 _ 18 _ 2 half_matrix half_dens half_fracs _ h1 h2) => //; rewrite h3.
Qed.

(** ** Single operations, with denominators [q] and [r] that need not be the reduced ones *)
Theorem C90_frac_mul : forall (cfg : Cfg) (w : Z), (2 <= w)%Z ->
  forall (x y : Z * Z) (q r a b : Z), canonical_pair x -> canonical_pair y -> (1 <= q)%Z -> (1 <= r)%Z ->
  (x.1 * q = x.2 * a)%Z -> (y.1 * r = y.2 * b)%Z ->
  (Z.abs (a * b) < 2 ^ (w - 1))%Z -> (q * r < 2 ^ (w - 1))%Z ->
  exists2 z, returns (mul (ReducedFractions cfg (CheckedInts cfg w)) x y) z &
    canonical_pair z /\ (z.1 * (q * r) = z.2 * (a * b))%Z.
Proof. exact frac_mul_fits. Qed.
Print Assumptions C90_frac_mul.
(** 1/2 = 3/6 and 1/3 = 4/12; the product is 12/72. *)
Example C90_frac_mul_case : exists2 z, returns (mul (QI 8) (1, 2)%Z (1, 3)%Z) z &
  canonical_pair z /\ (z.1 * (6 * 12) = z.2 * (3 * 4))%Z.
Proof. by apply: (C90_frac_mul debug64 8). Qed.

Theorem C90_frac_add : forall (cfg : Cfg) (w : Z), (2 <= w)%Z ->
  forall (x y : Z * Z) (q a b : Z), canonical_pair x -> canonical_pair y -> (1 <= q)%Z ->
  (x.1 * q = x.2 * a)%Z -> (y.1 * q = y.2 * b)%Z ->
  ((Z.abs a + Z.abs b) * q < 2 ^ (w - 1))%Z -> (q * q < 2 ^ (w - 1))%Z ->
  exists2 z, returns (add (ReducedFractions cfg (CheckedInts cfg w)) x y) z &
    canonical_pair z /\ (z.1 * q = z.2 * (a + b))%Z.
Proof. exact frac_add_fits. Qed.
Print Assumptions C90_frac_add.
(** 1/2 = 3/6 and 1/3 = 2/6. *)
Example C90_frac_add_case : exists2 z, returns (add (QI 8) (1, 2)%Z (1, 3)%Z) z &
  canonical_pair z /\ (z.1 * 6 = z.2 * (3 + 2))%Z.
Proof. by apply: (C90_frac_add debug64 8). Qed.

(** ** Products of matrices, with denominators of the rows and of the columns *)
Theorem C90_mul : forall (cfg : Cfg) (w : Z), (2 <= w)%Z ->
  forall (n : nat) (v u : seq (Z * Z)) (N T : 'M[Z]_n) (D E : 'I_n -> Z) (B C d e : Z),
  ratio_entries v N D -> column_entries u T E ->
  (forall i j, (Z.abs (N i j) <= B)%Z) -> (forall i j, (Z.abs (T i j) <= C)%Z) ->
  (forall i, (D i <= d)%Z) -> (forall j, (E j <= e)%Z) ->
  (Z.of_nat n * (B * C) * (d * e) < 2 ^ (w - 1))%Z -> ((d * e) * (d * e) < 2 ^ (w - 1))%Z ->
  exists2 z, returns (matrix_mul (ReducedFractions cfg (CheckedInts cfg w)) n v u) z &
    size z = (n * n)%nat /\ forall i j : 'I_n, let x := nth (0, 1)%Z z (i * n + j) in
      canonical_pair x /\ (x.1 * (D i * E j) = x.2 * (N *m T)%R i j)%Z.
Proof. exact rational_product. Qed.
Print Assumptions C90_mul.
(** The square of the matrix of the examples; its columns have the denominators 4 and 3. *)
Example C90_mul_case : let T := \matrix_(i < 2, j < 2) nth 0%Z (nth [::] [:: [:: 2; 1]; [:: 1; 0]]%Z i) j in
  returns (matrix_mul (QI 16) 2 half_fracs half_fracs) [:: (1, 3); (1, 6); (1, 8); (1, 12)]%Z /\
  exists2 z, returns (matrix_mul (QI 16) 2 half_fracs half_fracs) z & size z = 4%nat /\
    forall i j : 'I_2, let x := nth (0, 1)%Z z (i * 2 + j) in
      canonical_pair x /\
      (x.1 * (half_dens i * nth 1%Z [:: 4; 3]%Z j) = x.2 * (half_matrix *m T)%R i j)%Z.
Proof.
move=> T; split; first by run 20%nat.
apply: (C90_mul debug64 16 _ 2 half_fracs half_fracs half_matrix T half_dens
  (fun j => nth 1%Z [:: 4; 3]%Z j) 3 2 6 4) => //.
- by have [] := C90_hyp.
- by split=> // [[[|[|]] // ?]|[[|[|]] // ?] [[|[|]] // ?]]; rewrite ?mxE.
- by move=> [[|[|]] // ?] [[|[|]] // ?]; rewrite mxE.
- by move=> [[|[|]] // ?] [[|[|]] // ?]; rewrite mxE.
- by case=> [[|[|]] // ?].
- by case=> [[|[|]] // ?].
Qed.
(** The condition on the denominators is needed: with i8, 1/16 + 1/8 panics. *)
Example C90_panics : panics (matrix_mul (QI 8) 2 [:: (1, 16); (1, 8); (0, 1); (0, 1)]%Z
  [:: (1, 1); (0, 1); (1, 1); (0, 1)]%Z).
Proof. run 20%nat. Qed.
