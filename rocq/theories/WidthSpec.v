(** * WidthSpec.v -- targets with isize and usize of different widths. *)

From Coq Require Import ZArith.
From Verif Require Import Rust ProfSpec.

(** An isize on both targets, and the least one on neither. *)
Definition on_both (c1 c2 : Cfg) (n : Z) : Prop := not_min c1 n /\ not_min c2 n.

(** An isize of the target. *)
Definition isize (c : Cfg) (n : Z) : Prop :=
  (- 2 ^ (ptr_bits c - 1) <= n < 2 ^ (ptr_bits c - 1))%Z.

(** The first target is at most as wide as the second one, it is compiled with overflow
    checks, and with debug assertions if the second one is. *)
Definition narrower (c1 c2 : Cfg) : Prop :=
  (ptr_bits c1 <= ptr_bits c2)%Z /\ overflow_checks c1 = true /\
  (debug_assertions c2 = true -> debug_assertions c1 = true).
