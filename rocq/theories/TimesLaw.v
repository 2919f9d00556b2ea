(** * TimesLaw.v -- the laws of neg, sub, times, int, inv and power as statements about
    calls.

    As in Laws.v: only methods of the traits and the set [mem] of members occur.
    [fits n]: the multiplier n is an isize other than isize::MIN. *)

From Coq Require Import ZArith.
From mathcomp Require Import all_ssreflect.
From Verif Require Import Rust Traits Laws.

Set Implicit Arguments.
Unset Strict Implicit.
Unset Printing Implicit Defensive.

Definition fits (cfg : Cfg) (n : Z) : Prop := is_isize cfg n /\ n <> imin (ptr_bits cfg).

Section Laws.
Variables (cfg : Cfg) (p : Prop) (E : Type) (mem : E -> Prop).
Local Notation holds := (holds p).
Local Notation fits := (fits cfg).

Record additive_laws (A : AbelianAlg E) : Prop := {
  al_negneg : forall x, mem x -> holds (same A (let! y := neg A x in neg A y) (ret x));
  al_neg0 : holds (same A (let! o := zero A in neg A o) (zero A));
  al_neg_add : forall x y, mem x -> mem y -> holds (same A
    (let! a := add A x y in neg A a)
    (let! a := neg A x in let! b := neg A y in add A a b));
  al_subxx : forall x, mem x -> holds (same A (sub A x x) (zero A));
  al_sub0 : forall x, mem x -> holds (same A (let! o := zero A in sub A x o) (ret x));
  al_0sub : forall x, mem x -> holds (same A (let! o := zero A in sub A o x) (neg A x));
  al_sub_swap : forall x y, mem x -> mem y -> holds (same A
    (let! a := sub A x y in neg A a) (sub A y x));
  al_add_sub : forall x y, mem x -> mem y ->
    holds (same A (let! a := add A x y in sub A a y) (ret x)) /\
    holds (same A (let! a := sub A x y in add A a y) (ret x));
  al_sub_zero : forall x y, mem x -> mem y ->
    holds (agree (let! a := sub A x y in is_zero A a) (equals A x y));
  al_cancel : forall x y z, mem x -> mem y -> mem z ->
    holds (agree (same A (add A x z) (add A y z)) (equals A x y));
  al_times2 : forall x, mem x -> fits 2 -> holds (same A (ztimes A 2 x) (double A x));
  al_times_nat : forall n x, mem x -> fits n -> (0 <= n)%Z ->
    holds (same A (ztimes A n x) (ntimes A n x));
  al_times_neg : forall n x, mem x -> fits n -> fits (- n) ->
    holds (same A (ztimes A (- n) x) (let! y := ztimes A n x in neg A y)) /\
    holds (same A (ztimes A (- n) x) (let! y := neg A x in ztimes A n y));
  al_times_add : forall n x y, mem x -> mem y -> fits n -> holds (same A
    (let! a := add A x y in ztimes A n a)
    (let! a := ztimes A n x in let! b := ztimes A n y in add A a b));
  al_times_sub : forall n x y, mem x -> mem y -> fits n -> holds (same A
    (let! a := sub A x y in ztimes A n a)
    (let! a := ztimes A n x in let! b := ztimes A n y in sub A a b));
  al_times_zero : forall n, fits n -> holds (same A
    (let! o := zero A in ztimes A n o) (zero A));
  al_times_mul : forall m n x, mem x -> fits m -> fits n -> fits (m * n) -> holds (same A
    (ztimes A (m * n) x) (let! y := ztimes A n x in ztimes A m y))
}.

Record int_laws (A : RingAlg E) : Prop := {
  il_member : forall n, fits n -> holds (member A (int A n));
  il_0 : fits 0 -> holds (same A (int A 0) (zero A));
  il_1 : fits 1 -> holds (same A (int A 1) (one A));
  il_add : forall m n, fits m -> fits n -> fits (m + n) -> holds (same A
    (int A (m + n)) (let! a := int A m in let! b := int A n in add A a b));
  il_sub : forall m n, fits m -> fits n -> fits (m - n) -> holds (same A
    (int A (m - n)) (let! a := int A m in let! b := int A n in sub A a b));
  il_neg : forall n, fits n -> fits (- n) -> holds (same A
    (int A (- n)) (let! a := int A n in neg A a));
  il_mul : forall m n, fits m -> fits n -> fits (m * n) -> holds (same A
    (int A (m * n)) (let! a := int A m in let! b := int A n in mul A a b));
  il_times : forall n x, mem x -> fits n ->
    holds (same A (ztimes A n x) (let! a := int A n in mul A a x)) /\
    holds (same A (ztimes A n x) (let! a := int A n in mul A x a));
  il_times_mul : forall n x y, mem x -> mem y -> fits n ->
    holds (same A (let! a := mul A x y in ztimes A n a) (let! a := ztimes A n x in mul A a y)) /\
    holds (same A (let! a := mul A x y in ztimes A n a) (let! a := ztimes A n y in mul A x a));
  il_mul_neg : forall x y, mem x -> mem y ->
    [/\ holds (same A (let! a := neg A x in mul A a y) (let! a := mul A x y in neg A a)),
        holds (same A (let! a := neg A y in mul A x a) (let! a := mul A x y in neg A a)) &
        holds (same A (let! a := neg A x in let! b := neg A y in mul A a b) (mul A x y))];
  il_square_neg : forall x, mem x ->
    holds (same A (let! a := neg A x in square A a) (square A x));
  il_mul_sub : forall x y z, mem x -> mem y -> mem z ->
    holds (same A (let! a := sub A y z in mul A x a)
      (let! a := mul A x y in let! b := mul A x z in sub A a b)) /\
    holds (same A (let! a := sub A x y in mul A a z)
      (let! a := mul A x z in let! b := mul A y z in sub A a b))
}.

Record power_laws (A : GroupAlg E) : Prop := {
  pl_invinv : forall x, mem x -> holds (same A (let! y := ginv A x in ginv A y) (ret x));
  pl_inv1 : holds (same A (let! o := one A in ginv A o) (one A));
  pl_inv_mul : forall x y, mem x -> mem y -> holds (same A
    (let! a := mul A x y in ginv A a)
    (let! a := ginv A y in let! b := ginv A x in mul A a b));
  pl_cancel : forall x y z, mem x -> mem y -> mem z ->
    holds (agree (same A (mul A x z) (mul A y z)) (equals A x y)) /\
    holds (agree (same A (mul A z x) (mul A z y)) (equals A x y));
  pl_solve : forall x y, mem x -> mem y ->
    holds (same A (let! a := ginv A x in let! b := mul A a y in mul A x b) (ret y)) /\
    holds (same A (let! a := ginv A x in let! b := mul A y a in mul A b x) (ret y));
  pl_try_inv : forall x, mem x -> holds (let! o := try_inv A x in
    if o is Some y then same A (ret y) (ginv A x) else ret false);
  pl_invertible : forall x, mem x -> holds (invertible A x);
  pl_power2 : forall x, mem x -> fits 2 -> holds (same A (gpower A 2 x) (square A x));
  pl_power_neg : forall n x, mem x -> fits n -> fits (- n) ->
    holds (same A (gpower A (- n) x) (let! y := gpower A n x in ginv A y)) /\
    holds (same A (gpower A (- n) x) (let! y := ginv A x in gpower A n y));
  pl_power_one : forall n, fits n -> holds (same A
    (let! o := one A in gpower A n o) (one A));
  pl_power_power : forall m n x, mem x -> fits m -> fits n -> fits (m * n) ->
    holds (same A (gpower A (m * n) x) (let! y := gpower A n x in gpower A m y));
  pl_power_comm : forall n x y, mem x -> mem y -> fits n ->
    holds (entails (same A (mul A x y) (mul A y x))
      (same A (let! a := mul A x y in gpower A n a)
         (let! a := gpower A n x in let! b := gpower A n y in mul A a b)));
  pl_power_conj : forall n x y, mem x -> mem y -> fits n -> holds (same A
    (let! a := ginv A y in let! b := mul A y x in let! c := mul A b a in gpower A n c)
    (let! z := gpower A n x in let! a := ginv A y in let! b := mul A y z in mul A b a))
}.

Record field_power_laws (A : FieldAlg E) : Prop := {
  fl_invinv : forall x, mem x -> returns (is_zero A x) false ->
    holds (same A (let! y := finv A x in finv A y) (ret x));
  fl_inv_mul : forall x y, mem x -> mem y ->
    returns (is_zero A x) false -> returns (is_zero A y) false ->
    holds (same A (let! a := mul A x y in finv A a)
      (let! a := finv A x in let! b := finv A y in mul A a b));
  fl_inv_neg : forall x, mem x -> returns (is_zero A x) false ->
    holds (same A (let! a := neg A x in finv A a) (let! a := finv A x in neg A a));
  fl_div : forall x y, mem x -> mem y -> returns (is_zero A y) false ->
    holds (same A (fdiv A x y) (let! a := finv A y in mul A x a));
  fl_divxx : forall x, mem x -> returns (is_zero A x) false ->
    holds (same A (fdiv A x x) (one A));
  fl_div_mul : forall x y z, mem x -> mem y -> mem z -> returns (is_zero A y) false ->
    returns (is_zero A z) false -> holds (same A
    (let! a := mul A x z in let! b := mul A y z in fdiv A a b) (fdiv A x y));
  fl_div_add : forall x y u v, mem x -> mem y -> mem u -> mem v ->
    returns (is_zero A y) false -> returns (is_zero A v) false -> holds (same A
    (let! a := fdiv A x y in let! b := fdiv A u v in add A a b)
    (let! a := mul A x v in let! b := mul A u y in let! c := add A a b in
     let! d := mul A y v in fdiv A c d));
  fl_power0 : forall x, mem x -> returns (is_zero A x) false -> fits 0 ->
    holds (same A (fpower A 0 x) (one A));
  fl_power1 : forall x, mem x -> fits 1 -> holds (same A (fpower A 1 x) (ret x));
  fl_power2 : forall x, mem x -> fits 2 -> holds (same A (fpower A 2 x) (square A x));
  fl_powerN1 : forall x, mem x -> returns (is_zero A x) false -> fits (-1) ->
    holds (same A (fpower A (-1) x) (finv A x));
  fl_power_add : forall m n x, mem x -> returns (is_zero A x) false ->
    fits m -> fits n -> fits (m + n) -> holds (same A
    (fpower A (m + n) x) (let! a := fpower A m x in let! b := fpower A n x in mul A a b));
  fl_power_power : forall m n x, mem x -> fits m -> fits n -> fits (m * n) ->
    holds (same A (fpower A (m * n) x) (let! y := fpower A n x in fpower A m y));
  fl_power_mul : forall n x y, mem x -> mem y -> fits n ->
    holds (same A (let! a := mul A x y in fpower A n a)
      (let! a := fpower A n x in let! b := fpower A n y in mul A a b))
}.
End Laws.
