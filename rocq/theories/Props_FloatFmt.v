(** * Props_FloatFmt.v -- which numbers the floats are (C38). *)

From Coq Require Import ZArith Reals SpecFloat.
From mathcomp Require Import all_ssreflect.
From Flocq Require Import Core BinarySingleNaN.
From Verif Require Import Rust Traits MFloats PFloatFmt.

(** F32 and F64 contain exactly the numbers of the formats binary32 and binary64 of
    IEEE 754: 24 or 53 bits, and exponents down to -149 or -1074 and up to 104 or 971. *)
Theorem C38_formats_partial : forall (cfg : Cfg) (r : R),
  ((exists x : f32, returns (contains (F32 cfg) x) true /\ B2R x = r) <->
   (exists m e : Z, [/\ r = (IZR m * bpow radix2 e)%R, (Z.abs m < 2 ^ 24)%Z
      & (-149 <= e <= 104)%Z])) /\
  ((exists x : f64, returns (contains (F64 cfg) x) true /\ B2R x = r) <->
   (exists m e : Z, [/\ r = (IZR m * bpow radix2 e)%R, (Z.abs m < 2 ^ 53)%Z
      & (-1074 <= e <= 971)%Z])).
Proof. exact f32_f64_format. Qed.
Print Assumptions C38_formats_partial.
(** 2^24 + 1 is in F64 but not in F32. *)
Example C38_formats_case : forall (cfg : Cfg) (r := IZR (2 ^ 24 + 1)),
  (~ exists x : f32, returns (contains (F32 cfg) x) true /\ B2R x = r) /\
  (exists x : f64, returns (contains (F64 cfg) x) true /\ B2R x = r).
Proof. exact f32_f64_differ. Qed.
