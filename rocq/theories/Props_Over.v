(** * Props_Over.v -- C67: when the arithmetic of vectors and polynomials of machine integers
    panics.

    [coef], [convolution], [canonical_poly], [vector_checked] and [poly_checked] are defined
    in OverSpec.v. *)

From mathcomp Require Import all_ssreflect all_algebra zify ssrZ.
From Coq Require Import ZArith.
From Verif Require Import Rust Traits MInts MConstr NumSpec OverSpec Refuted POver.

Local Open Scope Z_scope.

(** Vectors: exactly when an entry of the result does not fit. *)
Theorem C67_vector : forall (cfg : Cfg) (w : Z) (n : nat) (x y : seq Z),
  size x = n -> size y = n ->
  [/\ vector_checked n (forall k, (k < n)%nat -> fits w (coef x k + coef y k))
        (add (VectorRing cfg n (CheckedInts cfg w)) x y) (fun k => coef x k + coef y k),
      vector_checked n (forall k, (k < n)%nat -> fits w (coef x k - coef y k))
        (sub (VectorRing cfg n (CheckedInts cfg w)) x y) (fun k => coef x k - coef y k)
    & vector_checked n (forall k, (k < n)%nat -> fits w (coef x k * coef y k))
        (mul (VectorRing cfg n (CheckedInts cfg w)) x y) (fun k => coef x k * coef y k)].
Proof. exact vector_over. Qed.
Print Assumptions C67_vector.
Theorem C67_vector1 : forall (cfg : Cfg) (w : Z) (n : nat) (x : seq Z), size x = n ->
  [/\ vector_checked n (forall k, (k < n)%nat -> fits w (- coef x k))
        (neg (VectorRing cfg n (CheckedInts cfg w)) x) (fun k => - coef x k),
      vector_checked n (forall k, (k < n)%nat -> fits w (coef x k + coef x k))
        (double (VectorRing cfg n (CheckedInts cfg w)) x) (fun k => coef x k + coef x k)
    & vector_checked n (forall k, (k < n)%nat -> fits w (coef x k * coef x k))
        (square (VectorRing cfg n (CheckedInts cfg w)) x) (fun k => coef x k * coef x k)].
Proof. exact vector_over1. Qed.
Print Assumptions C67_vector1.
Example C67_vector_case cfg :
  [/\ returns (add (VectorRing cfg 2 (CheckedInts cfg 8)) [:: 100; -28] [:: 27; -100])
        [:: 127; -128],
      panics (add (VectorRing cfg 2 (CheckedInts cfg 8)) [:: 100; -29] [:: 27; -100]) &
      panics (neg (VectorRing cfg 2 (CheckedInts cfg 8)) [:: 5; -128])].
Proof. by split; run 10%nat. Qed.

(** Polynomials. *)
Theorem C67_add : forall (cfg : Cfg) (w : Z) (v u : seq Z),
  canonical_poly v -> canonical_poly u ->
  poly_checked (forall k, (k < size v)%nat -> (k < size u)%nat -> fits w (coef v k + coef u k))
    (add (PolyRing (CheckedInts cfg w)) v u) (fun k => coef v k + coef u k).
Proof. exact poly_add_checked. Qed.
Print Assumptions C67_add.
Example C67_add_case :
  [/\ canonical_poly [:: 100; 3], canonical_poly [:: 28; 1],
      panics (add (PolyRing (I8 debug64)) [:: 100; 3] [:: 28; 1]) &
      returns (add (PolyRing (I8 debug64)) [:: 100; 3] [:: 27; -3]) [:: 127]].
Proof. by split; [| |run 10%nat..]. Qed.
Theorem C67_neg : forall (cfg : Cfg) (w : Z) (v : seq Z), canonical_poly v ->
  poly_checked (forall k, (k < size v)%nat -> fits w (- coef v k))
    (neg (PolyRing (CheckedInts cfg w)) v) (fun k => - coef v k).
Proof. exact poly_neg_checked. Qed.
Print Assumptions C67_neg.
Example C67_neg_case :
  [/\ canonical_poly [:: -128; 3], panics (neg (PolyRing (I8 debug64)) [:: -128; 3]) &
      returns (neg (PolyRing (I8 debug64)) [:: -127; 3]) [:: 127; -3]].
Proof. by split; [|run 10%nat..]. Qed.
(** The second argument is negated first, which can overflow on its own. *)
Theorem C67_sub : forall (cfg : Cfg) (w : Z) (v u : seq Z),
  canonical_poly v -> canonical_poly u ->
  poly_checked ((forall k, (k < size u)%nat -> fits w (- coef u k)) /\
      (forall k, (k < size v)%nat -> (k < size u)%nat -> fits w (coef v k - coef u k)))
    (sub (PolyRing (CheckedInts cfg w)) v u) (fun k => coef v k - coef u k).
Proof. exact poly_sub_checked. Qed.
Print Assumptions C67_sub.
Example C67_sub_case :
  [/\ canonical_poly [:: -1; 1], canonical_poly [:: -128; 2],
      panics (sub (PolyRing (I8 debug64)) [:: -1; 1] [:: -128; 2]) &
      returns (sub (PolyRing (I8 debug64)) [:: -1; 1] [:: -127; 2]) [:: 126; -1]].
Proof. by split; [| |run 10%nat..]. Qed.
Theorem C67_times : forall (cfg : Cfg) (w n : Z) (v : seq Z), canonical_poly v ->
  poly_checked (forall k, (k < size v)%nat -> fits w n /\ fits w (n * coef v k))
    (ztimes (PolyRing (CheckedInts cfg w)) n v) (fun k => n * coef v k).
Proof. exact poly_times_checked. Qed.
Print Assumptions C67_times.
Example C67_times_case :
  [/\ canonical_poly [:: 32; 1], panics (ztimes (PolyRing (I8 debug64)) 4 [:: 32; 1]) &
      returns (ztimes (PolyRing (I8 debug64)) (-4) [:: 32; 1]) [:: -128; -4]].
Proof. by split; [|run 10%nat..]. Qed.
(** Exactly when a product of coefficients or a partial sum of products does not fit. *)
Theorem C67_mul : forall (cfg : Cfg) (w : Z) (v u : seq Z),
  canonical_poly v -> canonical_poly u ->
  poly_checked (forall i j, (i < size v)%nat -> (j < size u)%nat ->
      fits w (coef v i * coef u j) /\ fits w (convolution v u (i + j)%nat i.+1))
    (mul (PolyRing (CheckedInts cfg w)) v u) (fun k => convolution v u k (size v)).
Proof. exact poly_mul_checked. Qed.
Print Assumptions C67_mul.
(** 100 + 100 - 100 fits, but not the partial sum. *)
Example C67_mul_case :
  [/\ canonical_poly [:: 10; 10; -10], canonical_poly [:: 10; 10; 10],
      panics (mul (PolyRing (I8 debug64)) [:: 10; 10; -10] [:: 10; 10; 10]) &
      returns (mul (PolyRing (I8 debug64)) [:: 10; -10; 10] [:: 10; 10; 10])
        [:: 100; 0; 100; 0; 100]].
Proof. by split; [| |run 10%nat..]. Qed.
(** So small coefficients never panic. *)
Theorem C67_small : forall (cfg : Cfg) (w : Z) (v u : seq Z) (a b : Z),
  canonical_poly v -> canonical_poly u -> 0 <= a -> 0 <= b -> bounded a v -> bounded b u ->
  (a + b < 2 ^ (w - 1) ->
    poly_checked True (add (PolyRing (CheckedInts cfg w)) v u) (fun k => coef v k + coef u k) /\
    poly_checked True (sub (PolyRing (CheckedInts cfg w)) v u)
      (fun k => coef v k - coef u k)) /\
  (Z.of_nat (minn (size v) (size u)) * (a * b) < 2 ^ (w - 1) ->
    poly_checked True (mul (PolyRing (CheckedInts cfg w)) v u)
      (fun k => convolution v u k (size v))).
Proof. exact poly_small. Qed.
Print Assumptions C67_small.
(** (1 + x)(5 - x) = 5 + 4x - x^2 in i8, and the hypotheses of [C67_small]. *)
Example C67_small_case cfg :
  [/\ canonical_poly [:: 1; 1], canonical_poly [:: 5; -1], bounded 1 [:: 1; 1],
      bounded 5 [:: 5; -1] & Z.of_nat 2 * (1 * 5) < 2 ^ (8 - 1)] /\
  returns (mul (PolyRing (CheckedInts cfg 8)) [:: 1; 1] [:: 5; -1]) [:: 5; 4; -1].
Proof.
split; last by run 10%nat.
by split=> //; [case=> [|[|[|k]]]|case=> [|[|[|k]]]].
Qed.
(** The claims that a product panics only if a coefficient of the product does not fit, and
    that the order of the factors does not matter, are false: in i8
    (1 + x - x^2)(10 + 65x + 65x^2) = 10 + 75x + 120x^2 - 65x^4 panics because 65 + 65 is
    computed before 10 is subtracted. *)
Theorem C67_mul_refuted : forall cfg : Cfg,
  panics (mul (PolyRing (CheckedInts cfg 8)) [:: 1; 1; -1] [:: 10; 65; 65]) /\
  returns (mul (PolyRing (CheckedInts cfg 8)) [:: 10; 65; 65] [:: 1; 1; -1])
    [:: 10; 75; 120; 0; -65].
Proof. by move=> cfg; split; run 20%nat. Qed.
Print Assumptions C67_mul_refuted.
(** The same for a difference: -(-128) overflows, although -1 - (-128) = 127 fits. *)
Theorem C67_sub_refuted : forall cfg : Cfg,
  panics (sub (PolyRing (CheckedInts cfg 8)) [:: -1] [:: -128]) /\
  returns (sub (CheckedInts cfg 8) (-1) (-128)) 127.
Proof. by move=> cfg; split; run 20%nat. Qed.
Print Assumptions C67_sub_refuted.
