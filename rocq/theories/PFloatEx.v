(** * PFloatEx.v -- examples for the errors of floats. *)

From Coq Require Import ZArith Reals Lra Lia SpecFloat.
From mathcomp Require Import all_ssreflect.
From Flocq Require Import Core BinarySingleNaN.
From Verif Require Import Rust Traits Wp MConstr MFloats Spec FloatSpec FloatLaw FloatErrSpec SumSpec.
From Verif Require Import ProfSpec FloatAlgSpec PFloat PFloat3 PFloatAlg.

Set Implicit Arguments.
Unset Strict Implicit.
Unset Printing Implicit Defensive.
Local Open Scope R_scope.

(** 0.1, ..., 0.8 and 1.1 *)
Definition tenths : seq f64 := [:: f64_num 7205759403792794 (-56); f64_num 7205759403792794 (-55);
  f64_num 5404319552844595 (-54); f64_num 7205759403792794 (-54); f64_num 4503599627370496 (-53);
  f64_num 5404319552844595 (-53); f64_num 6305039478318694 (-53); f64_num 7205759403792794 (-53)].
Definition tenth : f64 := f64_num 7205759403792794 (-56).
Definition eleven : f64 := f64_num 4953959590107546 (-52).
Definition eleven_r : R := 4953959590107546 * bpow radix2 (-52).

Lemma tenths_finite k : (k < 8)%N -> finite (nth (B754_zero false) tenths k).
Proof. by do 8 case: k => [|k] //. Qed.
Lemma float_num s m e (x : f64) : B2SF x = S754_finite s m e ->
  float_is x (F2R (Float radix2 (cond_Zopp s (Zpos m)) e)).
Proof. by case: x => //= s' m' e' h [<- <- <-]. Qed.
Lemma eleven_is : float_is eleven eleven_r.
Proof. by apply: (@float_num false 4953959590107546); vm_compute. Qed.

Lemma small_u : 0 < unit_error 53 <= bpow radix2 (-10).
Proof. by split; [exact: bpow_gt_0|apply: bpow_le; lia]. Qed.
Lemma eleven_val : 11/10 <= eleven_r <= 12/10.
Proof. by rewrite /eleven_r /= /Z.pow_pos /=; lra. Qed.

Lemma eleven_normal : bpow radix2 (2 - 1024) <= (Rabs eleven_r * (1 - unit_error 53)) ^ Z.to_nat 5.
Proof.
have v := eleven_val; have [u0 u1] := small_u.
have u2 : bpow radix2 (-10) <= /1000 by rewrite /= /Z.pow_pos /=; lra.
apply: (Rle_trans _ 1); first by change 1 with (bpow radix2 0); apply: bpow_le.
by rewrite Rabs_pos_eq; [apply: pow_R1_Rle; nra|lra].
Qed.
Lemma eleven_normal_inv :
  bpow radix2 (2 - 1024) <= (Rabs (/ eleven_r) * (1 - unit_error 53) ^ 2) ^ Z.to_nat (- -5).
Proof.
have v := eleven_val; have [u0 u1] := small_u.
have u2 : bpow radix2 (-10) <= /1000 by rewrite /= /Z.pow_pos /=; lra.
have i1 : /2 <= / eleven_r by apply: Rinv_le; lra.
apply: (Rle_trans _ ((/4) ^ Z.to_nat (- -5))).
  apply: (Rle_trans _ (bpow radix2 (-10))); first by apply: bpow_le.
  by rewrite /= /Z.pow_pos /=; lra.
apply: pow_incr; rewrite Rabs_pos_eq; last lra.
split; first lra.
have h : /2 <= (1 - unit_error 53) * (1 - unit_error 53) by nra.
by rewrite /= Rmult_1_r; nra.
Qed.
Lemma eleven_nz : eleven_r <> 0.
Proof. by have := eleven_val; lra. Qed.

(** Integers *)
Definition ints : seq f64 := [:: f64_num 3 0; f64_num (-5) 0; f64_num 7 0; f64_num 11 0].
Lemma float_zero s (x : f64) : B2SF x = S754_zero s -> float_is x 0.
Proof. by case: x. Qed.
Lemma ints_is k : (k < 4)%N ->
  float_is (nth (B754_zero false) ints k) (IZR (nth Z0 [:: 3; -5; 7; 11]%Z k)).
Proof.
have h s m e (x : f64) r : B2SF x = S754_finite s m e -> F2R (Float radix2 (cond_Zopp s (Zpos m)) e) = r ->
  float_is x r by move=> /float_num [h1 h2] <-.
do 4 (case: k => [_|k]; first by
  (apply: h; [by vm_compute|by rewrite /F2R /= /Z.pow_pos /=; lra])).
by [].
Qed.
Lemma ints_scaled k : (k < 4)%N -> scaled 0 (nth (B754_zero false) ints k).
Proof. by move=> /ints_is h; exists (nth Z0 [:: 3; -5; 7; 11]%Z k); rewrite Rmult_1_r. Qed.

Lemma ints_magnitude (l : seq (nat * nat)) : (size l <= 2)%N -> all (fun p => (p.1 < 4)%N && (p.2 < 4)%N) l ->
  exact_sum (prec := 53) (emax := 1024) (0 + 0)
    [seq (nth (B754_zero false) ints p.1, nth (B754_zero false) ints p.2) | p <- l].
Proof.
move=> sl al.
have H : magnitude [seq (nth (B754_zero false : f64) ints p.1, nth (B754_zero false : f64) ints p.2) | p <- l] <= 121 * INR (size l).
  elim: l al {sl} => [|p l IH] al; first by rewrite /magnitude /=; lra.
  case/andP: al => /andP [p1 p2] /IH; rewrite /magnitude; change (size (p :: l)) with (size l).+1; rewrite S_INR; cbn [map terms sum_of foldr fst snd].
  rewrite /terms /sum_of; set s := foldr _ _ _ => hs.
  have v k : (k < 4)%N -> Rabs (B2R (nth (B754_zero false) ints k)) <= 11.
    move=> hk; rewrite (ints_is hk).2; apply: Rabs_le.
    by do 4 (case: k hk => [_|k hk]; first by (rewrite /=; lra)).
  rewrite Rabs_mult.
  have := Rmult_le_compat _ _ _ _ (Rabs_pos _) (Rabs_pos _) (v _ p1) (v _ p2).
  set P := Rabs _ * Rabs _ => hP; apply: (Rle_trans _ (11 * 11 + 121 * INR (size l))); first exact: Rplus_le_compat.
  lra.
have h2 : INR (size l) <= 2 by change 2 with (INR 2); apply: le_INR; apply/leP.
have b8 : 256 = bpow radix2 8 by rewrite /= /Z.pow_pos /=; lra.
have h3 : 121 * INR (size l) <= 256 by lra.
have h4 := Rle_trans _ _ _ H h3.
split; [apply: (Rle_trans _ 256)|apply: (Rle_lt_trans _ 256)] => //.
  by rewrite b8; apply: bpow_le.
by rewrite b8; apply: bpow_lt.
Qed.
Lemma ints_rows i j : (i < 2)%N -> (j < 2)%N ->
  exact_sum (prec := 53) (emax := 1024) (0 + 0) (row_column (B754_zero false) 2 ints ints i j).
Proof.
move=> hi hj; rewrite /row_column.
have -> : [seq (nth (B754_zero false : f64) ints (i * 2 + k)%N, nth (B754_zero false : f64) ints (k * 2 + j)%N) | k <- iota 0 2]
  = [seq (nth (B754_zero false) ints p.1, nth (B754_zero false) ints p.2) | p <- [:: (i * 2 + 0, 0 * 2 + j); (i * 2 + 1, 1 * 2 + j)]%N] by [].
by apply: ints_magnitude => //; move: hi hj; case: i => [|[|i]] //; case: j => [|[|j]].
Qed.
Lemma ints_conv k : (k < (2 + 2).-1)%N ->
  exact_sum (prec := 53) (emax := 1024) (0 + 0) (convolution (B754_zero false) (take 2 ints) (drop 2 ints) k).
Proof.
case: k => [|[|[|k]]] // _.
- exact: (@ints_magnitude [:: (0, 2)%N]).
- exact: (@ints_magnitude [:: (0, 3); (1, 2)]%N).
- exact: (@ints_magnitude [:: (1, 3)]%N).
Qed.
