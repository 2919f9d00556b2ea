(** * PTypes.v -- the ranges of the named structures of machine integers. *)

From mathcomp Require Import all_ssreflect.
From Coq Require Import ZArith Lia.
From Verif Require Import Rust Traits MInts NumSpec PInts PNum.

Set Implicit Arguments.
Unset Strict Implicit.
Unset Printing Implicit Defensive.
Local Open Scope Z_scope.

Lemma checked_iff A (P Q : Prop) (m : M A) v : (P <-> Q) -> checked P m v -> checked Q m v.
Proof. by move=> e [h1 h2]; split=> h; [apply: h1; apply/e|apply: h2 => p; apply: h; apply/e]. Qed.

Lemma signed_types cfg (x y : Z) :
  let range lo hi (A : EuclAlg Z) :=
    [/\ checked (lo <= x + y <= hi) (add A x y) (x + y),
        checked (lo <= x - y <= hi) (sub A x y) (x - y),
        checked (lo <= - x <= hi) (neg A x) (- x) &
        checked (lo <= x * y <= hi) (mul A x y) (x * y)] in
  [/\ range (-128) 127 (I8 cfg), range (-32768) 32767 (I16 cfg),
      range (-2147483648) 2147483647 (I32 cfg) &
      range (-9223372036854775808) 9223372036854775807 (I64 cfg)].
Proof.
by split; split;
  (apply: checked_iff;
   [|first [exact: (let: And4 h _ _ _ := ci_arith cfg _ x y in h)
           |exact: (let: And4 _ h _ _ := ci_arith cfg _ x y in h)
           |exact: (let: And4 _ _ h _ := ci_arith cfg _ x y in h)
           |exact: (let: And4 _ _ _ h := ci_arith cfg _ x y in h)]];
   rewrite /fits; cbn; lia).
Qed.

Lemma unsigned_types (x y : Z) :
  let range hi (A : SemiRingAlg Z) :=
    checked (0 <= x + y <= hi) (add A x y) (x + y) /\
    checked (0 <= x * y <= hi) (mul A x y) (x * y) in
  [/\ range 255 U8, range 65535 U16, range 4294967295 U32 & range 18446744073709551615 U64].
Proof.
by split; split;
  (apply: checked_iff;
   [|first [exact: (let: conj (And4 h _ _ _) _ := cu_ring _ x y in h)
           |exact: (let: conj (And4 _ h _ _) _ := cu_ring _ x y in h)]];
   rewrite /ufits; cbn; lia).
Qed.
