(** * Props_Res.v -- C68: when residues and divisors of machine integers panic.

    [is_residue], [inverse_of] and [finds_inverse] are defined in ResSpec.v, [fits] and
    [checked] in NumSpec.v. The modulus may be negative. *)

From mathcomp Require Import all_ssreflect all_algebra zify ssrZ.
From Coq Require Import ZArith.
From Verif Require Import Rust Traits MInts MConstr NumSpec ResSpec Refuted PRes.

Local Open Scope Z_scope.

(** Sums, differences and products of residues. *)
Theorem C68_ring : forall (cfg : Cfg) (w m : Z), 4 <= w -> fits w m -> 2 <= Z.abs m ->
  forall x y : Z, is_residue m x -> is_residue m y ->
  let R := QuotientRing cfg (CheckedInts cfg w) m in
  [/\ checked (fits w (x + y)) (add R x y) ((x + y) mod Z.abs m),
      checked (fits w (x + y)) (add_assign R x y) ((x + y) mod Z.abs m),
      checked (fits w (x + x)) (double R x) ((x + x) mod Z.abs m),
      returns (neg R x) ((- x) mod Z.abs m) &
      returns (neg_assign R x) ((- x) mod Z.abs m)] /\
  [/\ checked (fits w (x + (- y) mod Z.abs m)) (sub R x y) ((x - y) mod Z.abs m),
      checked (fits w (x + (- y) mod Z.abs m)) (sub_assign R x y) ((x - y) mod Z.abs m),
      checked (fits w (x * y)) (mul R x y) ((x * y) mod Z.abs m),
      checked (fits w (x * y)) (mul_assign R x y) ((x * y) mod Z.abs m) &
      checked (fits w (x * x)) (square R x) ((x * x) mod Z.abs m)].
Proof. exact res_ring. Qed.
Print Assumptions C68_ring.
Theorem C68_field_ring : forall (cfg : Cfg) (w m : Z), 4 <= w -> fits w m -> 2 <= Z.abs m ->
  forall x y : Z, is_residue m x -> is_residue m y ->
  let K := QuotientField cfg (CheckedInts cfg w) m in
  [/\ checked (fits w (x + y)) (add K x y) ((x + y) mod Z.abs m),
      checked (fits w (x + y)) (add_assign K x y) ((x + y) mod Z.abs m),
      checked (fits w (x + x)) (double K x) ((x + x) mod Z.abs m),
      returns (neg K x) ((- x) mod Z.abs m) &
      returns (neg_assign K x) ((- x) mod Z.abs m)] /\
  [/\ checked (fits w (x + (- y) mod Z.abs m)) (sub K x y) ((x - y) mod Z.abs m),
      checked (fits w (x + (- y) mod Z.abs m)) (sub_assign K x y) ((x - y) mod Z.abs m),
      checked (fits w (x * y)) (mul K x y) ((x * y) mod Z.abs m),
      checked (fits w (x * y)) (mul_assign K x y) ((x * y) mod Z.abs m) &
      checked (fits w (x * x)) (square K x) ((x * x) mod Z.abs m)].
Proof. exact res_ring. Qed.
Print Assumptions C68_field_ring.
Example C68_ring_case cfg :
  [/\ fits 8 (-128) /\ is_residue (-128) 100, fits 8 (100 + 27) /\ ~ fits 8 (100 + 28),
      returns (add (QuotientRing cfg (I8 cfg) (-128)) 100 27) 127,
      panics (add (QuotientRing cfg (I8 cfg) (-128)) 100 28) &
      returns (mul (QuotientRing cfg (I8 cfg) (-100)) 9 14) 26].
Proof. by do !split=> //; try run 10%nat; case. Qed.

(** Half of the range suffices for sums. *)
Theorem C68_sums : forall (cfg : Cfg) (w m : Z), 4 <= w -> fits w m -> 2 <= Z.abs m ->
  forall x y : Z, 2 * (Z.abs m - 1) < 2 ^ (w - 1) -> is_residue m x -> is_residue m y ->
  let R := QuotientRing cfg (CheckedInts cfg w) m in
  [/\ returns (add R x y) ((x + y) mod Z.abs m), returns (double R x) ((x + x) mod Z.abs m) &
      returns (sub R x y) ((x - y) mod Z.abs m)].
Proof. exact res_sum_small. Qed.
Print Assumptions C68_sums.
Example C68_sums_case cfg : 2 * (64 - 1) < 2 ^ 7 /\
  returns (add (QuotientRing cfg (I8 cfg) 64) 63 63) 62 /\
  returns (sub (QuotientRing cfg (I8 cfg) 64) 63 1) 62.
Proof. by do !split=> //; run 10%nat. Qed.
(** A difference panics although neither it nor the sum is too large: the class of [-y] is
    added. *)
Theorem C68_sub_refuted : forall cfg : Cfg,
  [/\ returns (add (QuotientRing cfg (I8 cfg) 127) 5 1) 6,
      panics (sub (QuotientRing cfg (I8 cfg) 127) 5 1) &
      returns (sub (QuotientRing cfg (I8 cfg) 127) 1 5) 123].
Proof. by split; run 10%nat. Qed.
Print Assumptions C68_sub_refuted.

(** Inverses never overflow. *)
Theorem C68_try_inv : forall (cfg : Cfg) (w m : Z), 4 <= w -> fits w m -> 2 <= Z.abs m ->
  forall x : Z, is_residue m x -> exists2 o, finds_inverse m x o &
  returns (try_inv (QuotientRing cfg (CheckedInts cfg w) m) x) o /\
  returns (invertible (QuotientRing cfg (CheckedInts cfg w) m) x)
    (if o is Some _ then true else false).
Proof. exact res_try_inv. Qed.
Print Assumptions C68_try_inv.
Example C68_try_inv_case :
  [/\ fits 8 (-100), is_residue (-100) 7,
      returns (try_inv (QuotientRing debug64 (I8 debug64) (-100)) 7) (Some 43) &
      returns (try_inv (QuotientRing debug64 (I8 debug64) (-100)) 6) None].
Proof. by split; [| |run 10%nat..]. Qed.
Theorem C68_inv : forall (cfg : Cfg) (w m : Z), 4 <= w -> fits w m -> 2 <= Z.abs m ->
  forall x : Z, is_residue m x ->
  (forall z, inverse_of m x z -> returns (finv (QuotientField cfg (CheckedInts cfg w) m) x) z) /\
  ((forall z, ~ inverse_of m x z) -> panics (finv (QuotientField cfg (CheckedInts cfg w) m) x)).
Proof. exact fres_inv. Qed.
Print Assumptions C68_inv.
Theorem C68_div : forall (cfg : Cfg) (w m : Z), 4 <= w -> fits w m -> 2 <= Z.abs m ->
  forall x y : Z, is_residue m x -> is_residue m y ->
  (forall z, inverse_of m y z ->
    checked (fits w (x * z)) (fdiv (QuotientField cfg (CheckedInts cfg w) m) x y)
      ((x * z) mod Z.abs m)) /\
  ((forall z, ~ inverse_of m y z) -> panics (fdiv (QuotientField cfg (CheckedInts cfg w) m) x y)).
Proof. exact fres_div. Qed.
Print Assumptions C68_div.
Example C68_inv_case cfg :
  [/\ inverse_of 127 2 64, returns (finv (QuotientField cfg (I8 cfg) 127) 2) 64,
      returns (fdiv (QuotientField cfg (I8 cfg) 127) 1 2) 64,
      panics (fdiv (QuotientField cfg (I8 cfg) 127) 2 2) &
      returns (try_inv (QuotientRing cfg (I8 cfg) (-128)) 127) (Some 127)] /\
  returns (try_inv (QuotientRing cfg (I8 cfg) (-128)) 64) None.
Proof. by do !split=> //; run 10%nat. Qed.

(** ** The divisibility order: only the least common multiple can be too large. *)
Theorem C68_contains : forall (cfg : Cfg) (w x : Z),
  returns (contains (DivisibilityOrder (CheckedInts cfg w)) x) (0 <=? x).
Proof. exact div_contains. Qed.
Print Assumptions C68_contains.
Theorem C68_order : forall (cfg : Cfg) (w : Z), 2 <= w ->
  forall x y : Z, 0 <= x -> 0 <= y -> fits w x -> fits w y ->
  let D := DivisibilityOrder (CheckedInts cfg w) in
  exists b c : bool, [/\ b <-> Z.divide x y, c <-> Z.divide y x &
   [/\ returns (leq D x y) b, returns (less_than D x y) (~~ (x =? y) && b) &
       returns (comparable D x y) (b || c)]].
Proof. exact div_order. Qed.
Print Assumptions C68_order.
Theorem C68_meet : forall (cfg : Cfg) (w : Z), 2 <= w ->
  forall x y : Z, 0 <= x -> 0 <= y -> fits w x -> fits w y ->
  returns (meet (DivisibilityLattice (CheckedInts cfg w)) x y) (Z.gcd x y).
Proof. exact div_meet. Qed.
Print Assumptions C68_meet.
Example C68_meet_case : fits 8 127 /\ returns (meet (DivisibilityLattice (I8 debug64)) 84 126) 42.
Proof. by split; [|run 10%nat]. Qed.
Theorem C68_join : forall (cfg : Cfg) (w : Z), 2 <= w ->
  forall x y : Z, 0 <= x -> 0 <= y -> fits w x -> fits w y ->
  checked (fits w (Z.lcm x y)) (join (DivisibilityLattice (CheckedInts cfg w)) x y) (Z.lcm x y).
Proof. exact div_join. Qed.
Print Assumptions C68_join.
Example C68_order_case cfg :
  [/\ returns (leq (DivisibilityOrder (I8 cfg)) 6 126) true,
      returns (meet (DivisibilityLattice (I8 cfg)) 84 126) 42,
      returns (join (DivisibilityLattice (I8 cfg)) 18 42) 126 &
      panics (join (DivisibilityLattice (I8 cfg)) 16 9)].
Proof. by split; run 10%nat. Qed.
