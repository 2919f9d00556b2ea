(** * Props_FloatRange.v -- C96: F32 and F64 have exactly the numbers of IEEE 754, and panic
    exactly beyond them. *)

From Coq Require Import ZArith Reals Lra Lia.
From mathcomp Require Import all_ssreflect.
From Flocq Require Import Core BinarySingleNaN.
From Verif Require Import Rust Traits MFloats FloatSpec FloatRange PFloatRange Refuted.

(** The numbers with 24 bits and exponents from -149, and with 53 bits and exponents from
    -1074; a result panics from the middle of the largest number and 2^128, 2^1024 on. *)
Theorem C96_F32 : forall c : Cfg,
  float_range (F32 c) 24 (-149) 104 (bpow radix2 128 - bpow radix2 103).
Proof. exact (fun c => floats_range c prec32 emax32). Qed.
Print Assumptions C96_F32.
Example C96_F32_case c : exists x : f32, float_is x (IZR 16777215 * bpow radix2 104) /\
  panics (add (F32 c) x x).
Proof.
have [x hx] : exists x : f32, float_is x (IZR 16777215 * bpow radix2 104).
  by apply/(fr_values (C96_F32 c)); exists 16777215%Z, 104%Z.
exists x; split=> //; apply: (fr_add (C96_F32 c) hx hx).2.
have b0 := bpow_gt_0 radix2 104; have b1 := bpow_gt_0 radix2 103.
rewrite Rabs_pos_eq; last by lra.
have -> : bpow radix2 128 = (IZR 16777216 * bpow radix2 104)%R.
  by rewrite -[IZR 16777216]/(bpow radix2 24) -bpow_plus.
by lra.
Qed.
Theorem C96_F64 : forall c : Cfg,
  float_range (F64 c) 53 (-1074) 971 (bpow radix2 1024 - bpow radix2 970).
Proof. exact (fun c => floats_range c prec64 emax64). Qed.
Print Assumptions C96_F64.
Example C96_F64_case c : exists x : f64, float_is x (IZR 9007199254740991 * bpow radix2 971) /\
  panics (add (F64 c) x x).
Proof.
have [x hx] : exists x : f64, float_is x (IZR 9007199254740991 * bpow radix2 971).
  by apply/(fr_values (C96_F64 c)); exists 9007199254740991%Z, 971%Z.
exists x; split=> //; apply: (fr_add (C96_F64 c) hx hx).2.
have b0 := bpow_gt_0 radix2 971; have b1 := bpow_gt_0 radix2 970.
rewrite Rabs_pos_eq; last by lra.
have -> : bpow radix2 1024 = (IZR 9007199254740992 * bpow radix2 971)%R.
  by rewrite -[IZR 9007199254740992]/(bpow radix2 53) -bpow_plus.
by lra.
Qed.
