(** * MFloats.v -- model of approx_floats.rs.

    The primitive types f32 and f64 are the binary floats of Flocq with [prec] bits of
    precision and exponents below [emax]. All NaN values are one value: no method looks
    at the payload of a NaN.

    Rust's [+ - * /], unary minus, [==], [<=], [as] conversions from isize and
    [is_finite] are trusted to be the IEEE 754 operations, rounding to nearest, ties to
    even, which is the default of Rust. Only the variants of the feature float_fallback
    are modelled (approx_floats.rs:171-401): the other ones need [From<isize>], which no
    primitive float type implements; their text is the same up to the conversion. *)

From Coq Require Import ZArith.
From mathcomp Require Import all_ssreflect.
From Flocq Require Import Core BinarySingleNaN.
From Verif Require Import Rust Traits.

Set Implicit Arguments.
Unset Strict Implicit.
Unset Printing Implicit Defensive.

Section ApproxFloats.
Variables (cfg : Cfg) (prec emax : Z).
Context (prec_gt_0 : Prec_gt_0 prec) (prec_lt_emax : Prec_lt_emax prec emax).
Local Notation F := (binary_float prec emax).

(** [x.min(y)] and [x.max(y)] ignore a NaN. For equal arguments (0.0 and -0.0) the
    documentation allows either result: [tie] chooses. *)
Variable tie : F -> F -> bool.
Definition float_min (x y : F) : F :=
  if is_nan x then y else if is_nan y then x
  else if Bltb x y then x else if Bltb y x then y else if tie x y then x else y.
Definition float_max (x y : F) : F :=
  if is_nan x then y else if is_nan y then x
  else if Bltb x y then y else if Bltb y x then x else if tie x y then x else y.

(** [num as f64] and [num as f32] *)
Definition float_of_isize (num : Z) : F :=
  binary_normalize prec emax prec_gt_0 prec_lt_emax mode_NE num 0 false.

(* the line assert!(elem.is_finite()) and the result elem that follows it *)
Definition finite_result (x : F) : M F := do! assert (is_finite x) in ret x.

(* approx_floats.rs:171-182, 287-298 *)
Definition floats_domain : Domain F :=
  mkDomain (fun x => ret (is_finite x)) (fun x y => ret (Beqb x y)).

(* approx_floats.rs:186-190, 302-306 *)
Definition floats_mul (x y : F) : M F := finite_result (Bmult mode_NE x y).
(* approx_floats.rs:184-191, 300-307 *)
Definition floats_semigroup : Semigroup F :=
  mkSemigroup floats_mul (default_mul_assign floats_mul) (default_square floats_mul).

(* approx_floats.rs:195-197, 311-313 *)
Definition floats_one : M F := ret Bone.
(* approx_floats.rs:199-206, 315-322 *)
Definition floats_try_inv (x : F) : M (option F) :=
  let! o := floats_one in
  let elem := Bdiv mode_NE o x in
  ret (if is_finite elem then Some elem else None).
(* approx_floats.rs:193-207, 309-323 *)
Definition floats_monoid : Monoid F :=
  mkMonoid floats_one (default_is_one (equals floats_domain) floats_one)
    floats_try_inv (default_invertible floats_try_inv).

(* approx_floats.rs:211-213, 327-329 *)
Definition floats_zero : M F := ret (B754_zero false).
(* approx_floats.rs:215-217, 331-333; is_zero of num compares with 0.0 *)
Definition floats_is_zero (x : F) : M bool := ret (Beqb x (B754_zero false)).
(* approx_floats.rs:219-223, 335-339 *)
Definition floats_add (x y : F) : M F := finite_result (Bplus mode_NE x y).
(* approx_floats.rs:209-224, 325-340; double and times are the default ones *)
Definition floats_cmonoid : CommMonoid F :=
  let add_assign := default_add_assign floats_add in
  let double := default_double floats_add in
  mkCommMonoid floats_zero floats_is_zero floats_add add_assign double
    (default_ntimes floats_zero add_assign double).

(* approx_floats.rs:228-232, 344-348 *)
Definition floats_neg (x : F) : M F := finite_result (Bopp x).
(* approx_floats.rs:234-238, 350-354 *)
Definition floats_sub (x y : F) : M F := finite_result (Bminus mode_NE x y).
(* approx_floats.rs:240-243, 356-359; there is no assertion *)
Definition floats_times (num : Z) (x : F) : M F :=
  ret (Bmult mode_NE (float_of_isize num) x).
(* approx_floats.rs:226-244, 342-360 *)
Definition floats_abelian : AbelianGroup F :=
  mkAbelianGroup floats_neg (default_neg_assign floats_neg) floats_sub
    (default_sub_assign floats_neg (add_assign floats_cmonoid)) floats_times.

(* approx_floats.rs:246-250, 362-366 *)
Definition floats_unitary : UnitaryRing F :=
  mkUnitaryRing (default_int floats_times floats_one).
Definition floats_ring : RingAlg F :=
  mkRingAlg (mkMonoidAlg floats_domain floats_semigroup floats_monoid) floats_cmonoid
    floats_abelian floats_unitary.

(* approx_floats.rs:258-263, 374-379 *)
Definition floats_div (x y : F) : M F :=
  let! b := floats_is_zero y in
  do! assert (~~ b) in
  finite_result (Bdiv mode_NE x y).
(* approx_floats.rs:254-256, 370-372 *)
Definition floats_inv (x : F) : M F :=
  let! o := floats_one in floats_div o x.
(* approx_floats.rs:252-264, 368-380; power is the default one *)
Definition floats_field : Field F :=
  mkField floats_inv floats_div
    (default_fpower cfg floats_ring floats_is_zero floats_zero).
(** ApproxFloats<E> as a field *)
Definition ApproxFloats : FieldAlg F := field_alg floats_ring floats_field.

(* approx_floats.rs:266-271, 382-387 *)
Definition floats_leq (x y : F) : M bool := ret (Bleb x y).
Definition floats_order : PartialOrder F :=
  mkPartialOrder floats_leq (default_less_than (equals floats_domain) floats_leq)
    (default_comparable floats_leq).
(* approx_floats.rs:273-285, 389-401 *)
Definition floats_lattice : Lattice F :=
  mkLattice (fun x y => ret (float_min x y)) (fun x y => ret (float_max x y)).
(** ApproxFloats<E> as a lattice *)
Definition ApproxFloats_lattice : LatticeAlg F :=
  mkLatticeAlg (mkOrderAlg floats_domain floats_order) floats_lattice.
End ApproxFloats.

(** F32 and F64 *)
(* approx_floats.rs:12-20 *)
Definition f32 := binary_float 24 128.
Definition f64 := binary_float 53 1024.
Definition prec32 : Prec_gt_0 24 := erefl.
Definition prec64 : Prec_gt_0 53 := erefl.
Definition emax32 : Prec_lt_emax 24 128 := erefl.
Definition emax64 : Prec_lt_emax 53 1024 := erefl.
Definition F32 cfg : FieldAlg f32 := ApproxFloats cfg prec32 emax32.
Definition F64 cfg : FieldAlg f64 := ApproxFloats cfg prec64 emax64.
Definition F32_lattice tie : LatticeAlg f32 := ApproxFloats_lattice (prec := 24) tie.
Definition F64_lattice tie : LatticeAlg f64 := ApproxFloats_lattice (prec := 53) tie.
