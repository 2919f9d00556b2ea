(** * Props_Types.v -- the ranges of the named structures of machine integers (C08, C10). *)

From mathcomp Require Import all_ssreflect.
From Coq Require Import ZArith.
From Verif Require Import Rust Traits MInts NumSpec Refuted PTypes.

Local Open Scope Z_scope.

(** I8, I16, I32 and I64 return a result exactly if it is in the range of the Rust type. *)
Theorem C08_types : forall (cfg : Cfg) (x y : Z),
  let range lo hi (A : EuclAlg Z) :=
    [/\ checked (lo <= x + y <= hi) (add A x y) (x + y),
        checked (lo <= x - y <= hi) (sub A x y) (x - y),
        checked (lo <= - x <= hi) (neg A x) (- x) &
        checked (lo <= x * y <= hi) (mul A x y) (x * y)] in
  [/\ range (-128) 127 (I8 cfg), range (-32768) 32767 (I16 cfg),
      range (-2147483648) 2147483647 (I32 cfg) &
      range (-9223372036854775808) 9223372036854775807 (I64 cfg)].
Proof. exact signed_types. Qed.
Print Assumptions C08_types.
Example C08_types_case cfg :
  [/\ returns (mul (I16 cfg) 181 181) 32761, panics (mul (I16 cfg) 182 182),
      returns (mul (I32 cfg) 46340 46340) 2147395600, panics (mul (I32 cfg) 46341 46341) &
      panics (neg (I64 cfg) (-9223372036854775808))].
Proof. by split; run 1%nat. Qed.
(** The same for U8, U16, U32 and U64. *)
Theorem C10_types : forall x y : Z,
  let range hi (A : SemiRingAlg Z) :=
    checked (0 <= x + y <= hi) (add A x y) (x + y) /\
    checked (0 <= x * y <= hi) (mul A x y) (x * y) in
  [/\ range 255 U8, range 65535 U16, range 4294967295 U32 & range 18446744073709551615 U64].
Proof. exact unsigned_types. Qed.
Print Assumptions C10_types.
Example C10_types_case :
  [/\ returns (mul U8 15 17) 255, panics (mul U8 16 16), returns (mul U16 255 257) 65535 &
      panics (add U64 18446744073709551615 1)].
Proof. by split; run 1%nat. Qed.
