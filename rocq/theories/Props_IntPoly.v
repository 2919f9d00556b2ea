(** * Props_IntPoly.v -- C88: integer polynomials do not overflow within bounds.

    Polynomials with integer coefficients over the rational numbers of a machine type, or
    over floats: with bounds for the coefficients, no call overflows or is rounded. *)

From mathcomp Require Import all_ssreflect all_algebra zify ssrZ.
From Coq Require Import ZArith Reals SpecFloat.
From Flocq Require Import Core BinarySingleNaN.
From Verif Require Import Rust Traits MInts MConstr MFloats Wp RingSpec Spec NumSpec FloatSpec.
From Verif Require Import ExactQSpec IntPolySpec PIntPoly3 PIntPoly4 PExactEx PIntPolyEx PFloat3 PFloatEx Refuted.

Import GRing.Theory.
Local Open Scope ring_scope.
Local Notation show v := (map (fun x : f64 => B2SF x) v).
Local Notation R32 := (ReducedFractions debug64 (CheckedInts debug64 32)).
Local Notation gauss := [:: (1, 1); (0, 1); (1, 1)]%Z.

(** ** Over the rational numbers of a machine type *)
Theorem C88_neg : forall (cfg : Cfg) (w : Z), (2 <= w)%Z ->
  forall (v : seq (Z * Z)) (P : {poly Z}) (B : Z),
  poly_of (is_frac w) v P -> (forall i, Z.abs P`_i <= B)%Z -> (B < 2 ^ (w - 1))%Z ->
  exists2 z, returns (neg (PolyEucl (ReducedFractions cfg (CheckedInts cfg w))) v) z & poly_of (is_frac w) z (- P).
Proof. exact frac_neg. Qed.
Print Assumptions C88_neg.
Example C88_neg_case : exists2 z, returns (neg (PolyEucl R32) [:: (3, 1); (4, 1)]%Z) z &
  poly_of (is_frac 32) z (- g1).
Proof. by apply: (C88_neg _ _ _ _ _ _ g1_frac g1_bound). Qed.
Theorem C88_add : forall (cfg : Cfg) (w : Z), (2 <= w)%Z ->
  forall (v u : seq (Z * Z)) (P Q : {poly Z}) (B C : Z),
  poly_of (is_frac w) v P ->
  poly_of (is_frac w) u Q ->
  (forall i, Z.abs P`_i <= B)%Z ->
  (forall i, Z.abs Q`_i <= C)%Z ->
  (B + C < 2 ^ (w - 1))%Z ->
  exists2 z, returns (add (PolyEucl (ReducedFractions cfg (CheckedInts cfg w))) v u) z & poly_of (is_frac w) z (P + Q).
Proof. exact frac_add. Qed.
Print Assumptions C88_add.
Example C88_add_case : exists2 z,
  returns (add (PolyEucl R32) [:: (3, 1); (4, 1)]%Z [:: (1, 1); (-2, 1)]%Z) z & poly_of (is_frac 32) z (g1 + g2).
Proof. by apply: (C88_add _ _ _ _ _ _ _ _ _ g1_frac g2_frac g1_bound g2_bound). Qed.
Theorem C88_sub : forall (cfg : Cfg) (w : Z), (2 <= w)%Z ->
  forall (v u : seq (Z * Z)) (P Q : {poly Z}) (B C : Z),
  poly_of (is_frac w) v P ->
  poly_of (is_frac w) u Q ->
  (forall i, Z.abs P`_i <= B)%Z ->
  (forall i, Z.abs Q`_i <= C)%Z ->
  (B + C < 2 ^ (w - 1))%Z ->
  exists2 z, returns (Traits.sub (PolyEucl (ReducedFractions cfg (CheckedInts cfg w))) v u) z & poly_of (is_frac w) z (P - Q).
Proof. exact frac_sub. Qed.
Print Assumptions C88_sub.
Example C88_sub_case : exists2 z,
  returns (Traits.sub (PolyEucl R32) [:: (3, 1); (4, 1)]%Z [:: (1, 1); (-2, 1)]%Z) z & poly_of (is_frac 32) z (g1 - g2).
Proof. by apply: (C88_sub _ _ _ _ _ _ _ _ _ g1_frac g2_frac g1_bound g2_bound). Qed.
Theorem C88_mul : forall (cfg : Cfg) (w : Z), (2 <= w)%Z ->
  forall (v u : seq (Z * Z)) (P Q : {poly Z}) (B C : Z),
  poly_of (is_frac w) v P ->
  poly_of (is_frac w) u Q ->
  (forall i, Z.abs P`_i <= B)%Z ->
  (forall i, Z.abs Q`_i <= C)%Z ->
  (Z.of_nat (size P) * (B * C) < 2 ^ (w - 1))%Z ->
  exists2 z, returns (mul (PolyEucl (ReducedFractions cfg (CheckedInts cfg w))) v u) z & poly_of (is_frac w) z (P * Q).
Proof. exact frac_mul. Qed.
Print Assumptions C88_mul.
(** (3 + 4x)(1 - 2x) over fractions of 32 bits. In 8 bits, (64 x)^2 does not fit: a panic. *)
Example C88_mul_case :
  (exists2 z, returns (mul (PolyEucl R32) [:: (3, 1); (4, 1)]%Z [:: (1, 1); (-2, 1)]%Z) z &
    poly_of (is_frac 32) z (g1 * g2)) /\
  panics (let R8 := ReducedFractions debug64 (CheckedInts debug64 8) in
    mul (PolyEucl R8) [:: (0, 1); (64, 1)]%Z [:: (0, 1); (64, 1)]%Z).
Proof.
split; last by run 20%nat.
by apply: (C88_mul _ _ _ _ _ _ _ _ _ g1_frac g2_frac g1_bound g2_bound); rewrite ?g1_seq.
Qed.
Theorem C88_quo_rem : forall (cfg : Cfg) (w : Z), (2 <= w)%Z ->
  forall (v u : seq (Z * Z)) (P Q : {poly Z}) (B C : Z),
  poly_of (is_frac w) v P ->
  poly_of (is_frac w) u Q ->
  (forall i, Z.abs P`_i <= B)%Z ->
  (forall i, Z.abs Q`_i <= C)%Z ->
  Z.abs (lead_coef Q) = 1%Z ->
  (B * (1 + C) ^ Z.of_nat (size P - size Q + 1) < 2 ^ (w - 1))%Z ->
  exists2 z, returns (quo_rem (PolyEucl (ReducedFractions cfg (CheckedInts cfg w))) v u) z &
    exists S T : {poly Z}, [/\ poly_of (is_frac w) z.1 S, poly_of (is_frac w) z.2 T,
      P = S * Q + T & (size T < size Q)%nat].
Proof. exact frac_quo_rem. Qed.
Print Assumptions C88_quo_rem.
Example C88_quo_rem_case : exists2 z, returns (quo_rem (PolyEucl R32) [:: (3, 1); (4, 1)]%Z gauss) z &
  exists S T : {poly Z}, [/\ poly_of (is_frac 32) z.1 S, poly_of (is_frac 32) z.2 T,
    g1 = S * gm + T & (size T < size gm)%nat].
Proof.
by apply: (C88_quo_rem _ _ _ _ _ _ _ _ _ g1_frac gm_frac g1_bound gm_bound gm_lead); rewrite ?g1_seq ?gm_seq.
Qed.
(** Residues modulo a polynomial with leading coefficient 1 or -1: number rings such as the
    Gaussian integers *)
Theorem C88_residue_mul : forall (cfg : Cfg) (w : Z), (2 <= w)%Z ->
  forall (v u m : seq (Z * Z)) (P Q N : {poly Z}) (B C D : Z),
  poly_of (is_frac w) v P ->
  poly_of (is_frac w) u Q ->
  poly_of (is_frac w) m N ->
  (forall i, Z.abs P`_i <= B)%Z ->
  (forall i, Z.abs Q`_i <= C)%Z ->
  (forall i, Z.abs N`_i <= D)%Z ->
  Z.abs (lead_coef N) = 1%Z ->
  let d := Z.of_nat (size (P * Q) - size N + 1) in
  (Z.of_nat (size P) * (B * C) * (1 + D) ^ d < 2 ^ (w - 1))%Z ->
  exists2 z, returns (mul (QuotientRing cfg (PolyEucl (ReducedFractions cfg (CheckedInts cfg w))) m) v u) z /\
      returns (mul (QuotientField cfg (PolyEucl (ReducedFractions cfg (CheckedInts cfg w))) m) v u) z &
    exists T : {poly Z}, [/\ poly_of (is_frac w) z T, exists U, P * Q = U * N + T & (size T < size N)%nat].
Proof. exact frac_residue_mul. Qed.
Print Assumptions C88_residue_mul.
Example C88_residue_mul_case :
  returns (mul (QuotientField debug64 (PolyEucl R32) gauss) [:: (3, 1); (4, 1)]%Z [:: (1, 1); (-2, 1)]%Z)
    [:: (11, 1); (-2, 1)]%Z /\
  exists2 z, returns (mul (QuotientRing debug64 (PolyEucl R32) gauss) [:: (3, 1); (4, 1)]%Z [:: (1, 1); (-2, 1)]%Z) z &
    exists T : {poly Z}, [/\ poly_of (is_frac 32) z T, exists U, g1 * g2 = U * gm + T & (size T < size gm)%nat].
Proof.
split; first by run 40%nat.
have w2 : (2 <= 32)%Z by [].
have [|z [r _] h] := C88_residue_mul debug64 32 w2 _ _ _ _ _ _ _ _ _ g1_frac g2_frac gm_frac g1_bound g2_bound gm_bound gm_lead;
  last by exists z.
by have := size_g12; rewrite ?g1_seq gm_seq; move: (size _) => [|[|[|[|n]]]].
Qed.
Theorem C88_residue_add : forall (cfg : Cfg) (w : Z), (2 <= w)%Z ->
  forall (v u m : seq (Z * Z)) (P Q N : {poly Z}) (B C D : Z),
  poly_of (is_frac w) v P ->
  poly_of (is_frac w) u Q ->
  poly_of (is_frac w) m N ->
  (forall i, Z.abs P`_i <= B)%Z ->
  (forall i, Z.abs Q`_i <= C)%Z ->
  (forall i, Z.abs N`_i <= D)%Z ->
  Z.abs (lead_coef N) = 1%Z ->
  let d := Z.of_nat (size (P + Q) - size N + 1) in
  ((B + C) * (1 + D) ^ d < 2 ^ (w - 1))%Z ->
  exists2 z, returns (add (QuotientRing cfg (PolyEucl (ReducedFractions cfg (CheckedInts cfg w))) m) v u) z /\
      returns (add (QuotientField cfg (PolyEucl (ReducedFractions cfg (CheckedInts cfg w))) m) v u) z &
    exists T : {poly Z}, [/\ poly_of (is_frac w) z T, exists U, P + Q = U * N + T & (size T < size N)%nat].
Proof. exact frac_residue_add. Qed.
Print Assumptions C88_residue_add.
Example C88_residue_add_case :
  returns (add (QuotientField debug64 (PolyEucl R32) gauss) [:: (3, 1); (4, 1)]%Z [:: (1, 1); (-2, 1)]%Z)
    [:: (4, 1); (2, 1)]%Z /\
  exists2 z, returns (add (QuotientRing debug64 (PolyEucl R32) gauss) [:: (3, 1); (4, 1)]%Z [:: (1, 1); (-2, 1)]%Z) z &
    exists T : {poly Z}, [/\ poly_of (is_frac 32) z T, exists U, g1 + g2 = U * gm + T & (size T < size gm)%nat].
Proof.
split; first by run 40%nat.
have w2 : (2 <= 32)%Z by [].
have [|z [r _] h] := C88_residue_add debug64 32 w2 _ _ _ _ _ _ _ _ _ g1_frac g2_frac gm_frac g1_bound g2_bound gm_bound gm_lead;
  last by exists z.
by have := size_g1p2; rewrite ?g1_seq gm_seq; move: (size _) => [|[|[|[|n]]]].
Qed.

(** ** Over floats *)
Theorem C88_float_neg : forall (cfg : Cfg) (prec emax : Z) (hp : Prec_gt_0 prec)
    (he : Prec_lt_emax prec emax) (v : seq (binary_float prec emax)) (P : {poly Z}) (B : Z),
  poly_of (@is_int prec emax) v P -> (forall i, Z.abs P`_i <= B)%Z -> (B < 2 ^ prec)%Z ->
  exists2 z, returns (neg (PolyEucl (ApproxFloats cfg hp he)) v) z & poly_of (@is_int prec emax) z (- P).
Proof. exact float_neg. Qed.
Print Assumptions C88_float_neg.
Example C88_float_neg_case : exists2 z, returns (neg (PolyEucl (F64 debug64)) [:: f64_num 2 0; f64_num 1 0]) z &
  poly_of (@is_int 53 1024) z (- t1).
Proof. by apply: (C88_float_neg _ _ _ _ _ _ _ _ t1_is t1_bound). Qed.
Theorem C88_float_add : forall (cfg : Cfg) (prec emax : Z) (hp : Prec_gt_0 prec)
    (he : Prec_lt_emax prec emax) (v u : seq (binary_float prec emax)) (P Q : {poly Z}) (B C : Z),
  poly_of (@is_int prec emax) v P ->
  poly_of (@is_int prec emax) u Q ->
  (forall i, Z.abs P`_i <= B)%Z ->
  (forall i, Z.abs Q`_i <= C)%Z ->
  (B + C < 2 ^ prec)%Z ->
  exists2 z, returns (add (PolyEucl (ApproxFloats cfg hp he)) v u) z & poly_of (@is_int prec emax) z (P + Q).
Proof. exact float_add. Qed.
Print Assumptions C88_float_add.
Example C88_float_add_case : exists2 z, returns (add (PolyEucl (F64 debug64)) [:: f64_num 2 0; f64_num 1 0] line_floats) z &
  poly_of (@is_int 53 1024) z (t1 + line_poly).
Proof. by apply: (C88_float_add _ _ _ _ _ _ _ _ _ _ _ t1_is line_is t1_bound line_bound). Qed.
Theorem C88_float_sub : forall (cfg : Cfg) (prec emax : Z) (hp : Prec_gt_0 prec)
    (he : Prec_lt_emax prec emax) (v u : seq (binary_float prec emax)) (P Q : {poly Z}) (B C : Z),
  poly_of (@is_int prec emax) v P ->
  poly_of (@is_int prec emax) u Q ->
  (forall i, Z.abs P`_i <= B)%Z ->
  (forall i, Z.abs Q`_i <= C)%Z ->
  (B + C < 2 ^ prec)%Z ->
  exists2 z, returns (Traits.sub (PolyEucl (ApproxFloats cfg hp he)) v u) z & poly_of (@is_int prec emax) z (P - Q).
Proof. exact float_sub. Qed.
Print Assumptions C88_float_sub.
Example C88_float_sub_case : exists2 z, returns (Traits.sub (PolyEucl (F64 debug64)) [:: f64_num 2 0; f64_num 1 0] line_floats) z &
  poly_of (@is_int 53 1024) z (t1 - line_poly).
Proof. by apply: (C88_float_sub _ _ _ _ _ _ _ _ _ _ _ t1_is line_is t1_bound line_bound). Qed.
Theorem C88_float_mul : forall (cfg : Cfg) (prec emax : Z) (hp : Prec_gt_0 prec)
    (he : Prec_lt_emax prec emax) (v u : seq (binary_float prec emax)) (P Q : {poly Z}) (B C : Z),
  poly_of (@is_int prec emax) v P ->
  poly_of (@is_int prec emax) u Q ->
  (forall i, Z.abs P`_i <= B)%Z ->
  (forall i, Z.abs Q`_i <= C)%Z ->
  (Z.of_nat (size P) * (B * C) < 2 ^ prec)%Z ->
  exists2 z, returns (mul (PolyEucl (ApproxFloats cfg hp he)) v u) z & poly_of (@is_int prec emax) z (P * Q).
Proof. exact float_mul. Qed.
Print Assumptions C88_float_mul.
Example C88_float_mul_case : exists2 z, returns (mul (PolyEucl (F64 debug64)) [:: f64_num 2 0; f64_num 1 0] line_floats) z &
  poly_of (@is_int 53 1024) z (t1 * line_poly).
Proof. by apply: (C88_float_mul _ _ _ _ _ _ _ _ _ _ _ t1_is line_is t1_bound line_bound); rewrite t1_seq. Qed.
Theorem C88_float_residue_mul : forall (cfg : Cfg) (prec emax : Z) (hp : Prec_gt_0 prec)
    (he : Prec_lt_emax prec emax) (v u m : seq (binary_float prec emax)) (P Q N : {poly Z}) (B C D : Z),
  poly_of (@is_int prec emax) v P ->
  poly_of (@is_int prec emax) u Q ->
  poly_of (@is_int prec emax) m N ->
  (forall i, Z.abs P`_i <= B)%Z ->
  (forall i, Z.abs Q`_i <= C)%Z ->
  (forall i, Z.abs N`_i <= D)%Z ->
  Z.abs (lead_coef N) = 1%Z ->
  let d := Z.of_nat (size (P * Q) - size N + 1) in
  (Z.of_nat (size P) * (B * C) * (1 + D) ^ d < 2 ^ prec)%Z ->
  exists2 z, returns (mul (QuotientRing cfg (PolyEucl (ApproxFloats cfg hp he)) m) v u) z /\
      returns (mul (QuotientField cfg (PolyEucl (ApproxFloats cfg hp he)) m) v u) z &
    exists T : {poly Z}, [/\ poly_of (@is_int prec emax) z T, exists U, P * Q = U * N + T & (size T < size N)%nat].
Proof. exact float_residue_mul. Qed.
Print Assumptions C88_float_residue_mul.
Example C88_float_residue_mul_case :
  let m := [:: f64_num 1 0; f64_num 0 0; f64_num 1 0] in
  let v := [:: f64_num 2 0; f64_num 1 0] in
  exists2 z, returns (mul (QuotientRing debug64 (PolyEucl (F64 debug64)) m) v line_floats) z /\
      returns (mul (QuotientField debug64 (PolyEucl (F64 debug64)) m) v line_floats) z &
    exists T : {poly Z}, [/\ poly_of (@is_int 53 1024) z T, exists U, t1 * line_poly = U * gm + T & (size T < size gm)%nat].
Proof.
apply: (C88_float_residue_mul _ _ _ _ _ _ _ _ _ _ _ _ _ _ t1_is line_is gm_is t1_bound line_bound gm_bound gm_lead).
by have := size_t11; rewrite ?t1_seq gm_seq; move: (size _) => [|[|[|[|n]]]].
Qed.
Theorem C88_float_residue_add : forall (cfg : Cfg) (prec emax : Z) (hp : Prec_gt_0 prec)
    (he : Prec_lt_emax prec emax) (v u m : seq (binary_float prec emax)) (P Q N : {poly Z}) (B C D : Z),
  poly_of (@is_int prec emax) v P ->
  poly_of (@is_int prec emax) u Q ->
  poly_of (@is_int prec emax) m N ->
  (forall i, Z.abs P`_i <= B)%Z ->
  (forall i, Z.abs Q`_i <= C)%Z ->
  (forall i, Z.abs N`_i <= D)%Z ->
  Z.abs (lead_coef N) = 1%Z ->
  let d := Z.of_nat (size (P + Q) - size N + 1) in
  ((B + C) * (1 + D) ^ d < 2 ^ prec)%Z ->
  exists2 z, returns (add (QuotientRing cfg (PolyEucl (ApproxFloats cfg hp he)) m) v u) z /\
      returns (add (QuotientField cfg (PolyEucl (ApproxFloats cfg hp he)) m) v u) z &
    exists T : {poly Z}, [/\ poly_of (@is_int prec emax) z T, exists U, P + Q = U * N + T & (size T < size N)%nat].
Proof. exact float_residue_add. Qed.
Print Assumptions C88_float_residue_add.
Example C88_float_residue_add_case :
  let m := [:: f64_num 1 0; f64_num 0 0; f64_num 1 0] in
  let v := [:: f64_num 2 0; f64_num 1 0] in
  exists2 z, returns (add (QuotientRing debug64 (PolyEucl (F64 debug64)) m) v line_floats) z /\
      returns (add (QuotientField debug64 (PolyEucl (F64 debug64)) m) v line_floats) z &
    exists T : {poly Z}, [/\ poly_of (@is_int 53 1024) z T, exists U, t1 + line_poly = U * gm + T & (size T < size gm)%nat].
Proof.
apply: (C88_float_residue_add _ _ _ _ _ _ _ _ _ _ _ _ _ _ t1_is line_is gm_is t1_bound line_bound gm_bound gm_lead).
by have := size_t1p1; rewrite ?t1_seq gm_seq; move: (size _) => [|[|[|[|n]]]].
Qed.
