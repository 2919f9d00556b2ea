(** * Tests.v -- the crate's own unit tests, run in the model.

    Each [test_...] transcribes one #[test] function of /repo/src; a failed
    assertion is a panic.  That they all return is evidence (by computation, no
    theorem depends on it) that the model agrees with the code where the authors
    have looked at it. *)

From mathcomp Require Import all_ssreflect.
From Coq Require Import ZArith.
From Flocq Require Import IEEE754.BinarySingleNaN.
From Verif Require Import Rust Traits MInts MConstr MFloats Refuted RatSpec.

Set Implicit Arguments.
Unset Strict Implicit.
Unset Printing Implicit Defensive.

Local Open Scope Z_scope.

(** [for x in l { f(x) }] *)
Definition each {A} (l : seq A) (f : A -> M unit) : M unit :=
  foldr (fun x m => do! f x in m) (ret tt) l.
(** [for x in l { count += f(x) }] *)
Definition count_in {A} (l : seq A) (f : A -> M bool) : M nat :=
  foldr (fun x m => let! b := f x in let! c := m in ret (b + c)%nat) (ret 0%nat) l.
Definition assertM (m : M bool) : M unit := let! b := m in assert b.
Definition assert_eq (x y : Z) : M unit := assert (x =? y).
(** [catch_unwind(m).is_err()] *)
Definition catches {A} (m : M A) : M bool := fun k =>
  match m k with
  | Done _ => Done false
  | Panicked => Done true
  | Unfinished => Unfinished
  end.
(** [lo..hi] *)
Definition range (lo hi : Z) : seq Z :=
  [seq lo + Z.of_nat i | i <- iota 0 (Z.to_nat (hi - lo))].

Section Tests.
Variable cfg : Cfg.

(** ** integers.rs:178-208 *)
Definition test_integers_quo_rem : M unit :=
  do! each (range (-40) 40) (fun n =>
    each (range (-40) 40) (fun m =>
      if m =? 0 then ret tt else
      let! qr := quo_rem ZZ n m in
      let: (q, r) := qr in
      do! assert_eq n (m * q + r) in
      let! z := zero ZZ in
      do! assert ((z <=? r) && (r <? Z.abs m)) in
      let! q' := quo ZZ n m in
      do! assert_eq q q' in
      let! r' := rem ZZ n m in
      do! assert_eq r r' in
      let! a := is_zero ZZ r in
      let! b := divisible ZZ n m in
      do! assert (a == b) in
      let! a := is_zero ZZ q in
      let! b := reduced ZZ n m in
      assert (a == b))) in
  each [:: (0, 2, 0); (1, 2, 1); (0, 3, 0); (1, 3, 1); (2, 3, 2); (0, -2, 0); (1, -2, 1)]
    (fun t => let: (a, b, c) := t in let! r := rem ZZ a b in assert_eq r c).

(** ** checked_ints.rs:230-277 *)
Definition test_checked_elems : seq Z :=
  flatten [seq [:: i] ++ (if 0 <? i then [:: - i] else [::]) ++
               [:: imin 32 + i; imax 32 - i] | i <- range 0 10].
Definition test_checked_quo_rem : M unit :=
  let ring1 := I32 cfg in
  let fits z := (imin 32 <=? z) && (z <=? imax 32) in
  each test_checked_elems (fun n =>
    each test_checked_elems (fun m =>
      if m =? 0 then ret tt else
      let! qr := quo_rem ZZ n m in
      let: (q2, r2) := qr in
      if fits q2 && fits r2 then
        let! qr := quo_rem ring1 n m in
        let: (q1, r1) := qr in
        do! assert_eq q2 q1 in
        do! assert_eq r2 r1 in
        let! a := divisible ring1 n m in
        let! b := divisible ZZ n m in
        do! assert (a == b) in
        let! a := reduced ring1 n m in
        let! b := reduced ZZ n m in
        assert (a == b)
      else assertM (catches (quo_rem ring1 n m)))).

(** ** checked_ints.rs:279-292; the products in assert_eq!(g, a * x + b * y) are
    plain i32 operations *)
Definition test_extended_gcd : M unit :=
  let ring := I32 cfg in
  each (range (-10) 10) (fun a =>
    each (range (-10) 10) (fun b =>
      let! gxy := extended_gcd ring a b in
      let: (g, x, y) := gxy in
      let! ax := prim_i cfg 32 (a * x) in
      let! by_ := prim_i cfg 32 (b * y) in
      let! s := prim_i cfg 32 (ax + by_) in
      do! assert_eq g s in
      let! g' := gcd ring a b in
      do! assert_eq g g' in
      do! assertM (divisible ring a g) in
      assertM (divisible ring b g))).

(** ** divisibility_order.rs:77-103 *)
Definition test_order : M unit :=
  let lat := DivisibilityLattice (I32 cfg) in
  each (range (-50) 50) (fun a =>
    if a <? 0 then assertM (notM (contains lat a))
    else
      each (range 0 50) (fun b =>
        let! c := meet lat a b in
        do! assertM (contains lat c) in
        do! assertM (leq lat c a) in
        do! assertM (leq lat c b) in
        let! d := join lat a b in
        do! assertM (contains lat d) in
        do! assertM (leq lat a d) in
        do! assertM (leq lat a d) in
        let! l := leq lat a b in
        if l then do! assert_eq c a in assert_eq d b else ret tt)).

(** ** matrix_ring.rs:288-299 *)
Definition eq_fracs (u v : seq (Z * Z)) : bool :=
  (size u == size v) &&
  all (fun p => (p.1.1 =? p.2.1) && (p.1.2 =? p.2.2)) (zip u v).
Definition test_matrix_mul : M unit :=
  let qq := QQ cfg in
  do! matrix_new cfg 2 in
  let ring := MatrixRing cfg qq 2 in
  let! elem1 := mapM (int qq) [:: 1; 2; 3; 4] in
  let! elem2 := mapM (int qq) [:: 5; 6; 7; 8] in
  let! elem3 := mul ring elem1 elem2 in
  let! expected := mapM (int qq) [:: 19; 22; 43; 50] in
  do! assert (eq_fracs elem3 expected) in
  let! o := one ring in
  let! p := mul ring elem1 o in
  do! assert (eq_fracs p elem1) in
  let! o := one ring in
  let! p := mul ring o elem1 in
  assert (eq_fracs p elem1).

(** ** matrix_ring.rs:301-344; [next] runs through all vectors of residues *)
Definition all_elems : seq (seq Z) :=
  let digits := range 0 3 in
  [seq ab ++ cd | cd <- [seq [:: c; d] | d <- digits, c <- digits],
                  ab <- [seq [:: a; b] | b <- digits, a <- digits]].
Definition test_matrix_inv_gl23 : M unit :=
  do! quotient_field_new (I32 cfg) 3 in
  let field := QuotientField cfg (I32 cfg) 3 in
  do! matrix_new cfg 2 in
  let ring := MatrixRing cfg field 2 in
  let step (elem : seq Z) : M (bool * bool) :=
    let! det := determinant field 2 elem in
    let! b := invertible ring elem in
    if b then
      let! o := try_inv ring elem in
      let! invs := unwrap o in
      let! prod := mul ring elem invs in
      do! assertM (is_one ring prod) in
      do! assertM (notM (is_zero field det)) in
      let! s := is_one field det in
      ret (true, s)
    else
      do! assertM (is_zero field det) in
      ret (false, false) in
  let! gl := count_in all_elems (fun e => let! r := step e in ret r.1) in
  let! sl := count_in all_elems (fun e => let! r := step e in ret r.2) in
  do! assert (gl == 48%nat) in
  assert (sl == 24%nat).

(** ** permutations.rs:105-130 *)
Definition test_s4 : M unit :=
  let perm := Permutations cfg 4 in
  let! count := count_in (iota 0 256)
    (fun i => contains perm
       [:: i %% 4; i %/ 4 %% 4; i %/ 16 %% 4; i %/ 64 %% 4]%nat) in
  do! assert (count == 24%nat) in
  let! p := mul perm [:: 1; 2; 3; 0]%nat [:: 1; 0; 3; 2]%nat in
  do! assert (p == [:: 0; 3; 2; 1]%nat) in
  let! i := ginv perm [:: 1; 2; 3; 0]%nat in
  assert (i == [:: 3; 0; 1; 2]%nat).

(** ** polynomial_algebra.rs:292-321; the loop over the powers of the generator *)
Definition eq_poly (u v : seq Z) : bool :=
  (size u == size v) && all (fun p => p.1 =? p.2) (zip u v).
Definition test_field_256 : M unit :=
  do! quotient_field_new (I32 cfg) 2 in
  let field1 := QuotientField cfg (I32 cfg) 2 in
  let ring := PolyEucl field1 in
  let poly := [:: 1; 1; 0; 1; 1; 0; 0; 0; 1] in
  do! assertM (contains ring poly) in
  do! assert (poly_degree poly == Some 8%nat) in
  do! quotient_field_new ring poly in
  let field2 := QuotientField cfg ring poly in
  let gen := [:: 1; 1] in
  let! z := zero field2 in
  let! o := one field2 in
  let! s := while_loop (fun s => notM (is_one field2 s.1))
    (fun s =>
       let: (elem, elems) := s in
       let! e := mul field2 elem gen in
       ret (e, rcons elems elem))
    (gen, [:: z; o]) in
  let elems := s.2 in
  do! assert (size elems == 256%nat) in
  each elems (fun a =>
    let! b := is_zero field2 a in
    if b then ret tt
    else
      let! b := finv field2 a in
      let! p := mul field2 a b in
      let! o := one field2 in
      assert (eq_poly p o)).

(** ** quotient_field.rs:147-160 *)
Definition test_field_1721 : M unit :=
  do! quotient_field_new (I32 cfg) 1721 in
  let field := QuotientField cfg (I32 cfg) 1721 in
  each (range 0 1720) (fun a =>
    do! assertM (contains field a) in
    if a =? 0 then ret tt
    else
      let! b := finv field a in
      do! assertM (contains field b) in
      let! p := mul field a b in
      assertM (is_one field p)).

(** ** quotient_ring.rs:110-126 *)
Definition test_zstar_1584 : M unit :=
  do! quotient_ring_new (I32 cfg) 1584 in
  let ring := QuotientRing cfg (I32 cfg) 1584 in
  let! count := count_in (range 0 1584) (fun a =>
    do! assertM (contains ring a) in
    if a =? 0 then ret false
    else
      let! o := try_inv ring a in
      if o is Some b then
        do! assertM (contains ring b) in
        let! p := mul ring a b in
        do! assertM (is_one ring p) in
        ret true
      else ret false) in
  assert (count == (8 * 6 * 10)%nat).

(** ** reduced_fractions.rs:180-213; num's Ratio arithmetic is taken to be that of
    the rational numbers in lowest terms *)
Definition ratio (n d : Z) : Z * Z := if d <? 0 then lowest (- n) (- d) else lowest n d.
Definition eq_frac (x y : Z * Z) : bool := (x.1 =? y.1) && (x.2 =? y.2).
Definition test_ops : M unit :=
  let field := ReducedFractions cfg (I32 cfg) in
  do! fractions_new (I32 cfg) in
  let with_ (x y : Z * Z) (numer : Z) : M unit :=
    let! r := add field x y in
    do! assert (eq_frac r (ratio (x.1 * y.2 + y.1 * x.2) (x.2 * y.2))) in
    let! r := mul field x y in
    do! assert (eq_frac r (ratio (x.1 * y.1) (x.2 * y.2))) in
    let! r := fdiv field x y in
    do! assert (eq_frac r (ratio (x.1 * y.2) (x.2 * y.1))) in
    if numer =? 0 then ret tt
    else
      let! r := fdiv field y x in
      assert (eq_frac r (ratio (y.1 * x.2) (y.2 * x.1))) in
  each (range (-20) 20) (fun numer =>
    each (range (-20) 20) (fun denom =>
      if denom =? 0 then ret tt else
      let! elem1 := fractions_reduce (I32 cfg) (numer, denom) in
      do! assert (eq_frac elem1 (ratio numer denom)) in
      do! with_ elem1 (ratio (-2) 3) numer in
      with_ elem1 (ratio 7 5) numer)).

(** ** approx_floats.rs:408-414 *)
Definition float_of (n : Z) : f64 := binary_normalize 53 1024 prec64 emax64 mode_NE n 0 false.
Definition test_floats : M unit :=
  let! z := zero (F64 cfg) in
  do! assert (Beqb (B754_zero false) z) in
  let! o := one (F64 cfg) in
  do! assert (Beqb (float_of 1) o) in
  let! t := int (F64 cfg) 2 in
  assert (Beqb (float_of 2) t).
End Tests.

(** ** The tests pass, in a debug and in a release build. *)
Example integers_quo_rem : returns test_integers_quo_rem tt.
Proof. run 30%N. Qed.
Example checked_quo_rem_debug : returns (test_checked_quo_rem debug64) tt.
Proof. run 30%N. Qed.
Example checked_quo_rem_release : returns (test_checked_quo_rem release64) tt.
Proof. run 30%N. Qed.
Example extended_gcd_debug : returns (test_extended_gcd debug64) tt.
Proof. run 30%N. Qed.
Example extended_gcd_release : returns (test_extended_gcd release64) tt.
Proof. run 30%N. Qed.
Example order_debug : returns (test_order debug64) tt.
Proof. run 30%N. Qed.
Example order_release : returns (test_order release64) tt.
Proof. run 30%N. Qed.
Example matrix_mul_debug : returns (test_matrix_mul debug64) tt.
Proof. run 30%N. Qed.
Example matrix_mul_release : returns (test_matrix_mul release64) tt.
Proof. run 30%N. Qed.
Example matrix_inv_gl23_debug : returns (test_matrix_inv_gl23 debug64) tt.
Proof. run 30%N. Qed.
Example matrix_inv_gl23_release : returns (test_matrix_inv_gl23 release64) tt.
Proof. run 30%N. Qed.
Example s4_debug : returns (test_s4 debug64) tt.
Proof. run 30%N. Qed.
Example s4_release : returns (test_s4 release64) tt.
Proof. run 30%N. Qed.
Example field_256_debug : returns (test_field_256 debug64) tt.
Proof. run 300%N. Qed.
Example field_256_release : returns (test_field_256 release64) tt.
Proof. run 300%N. Qed.
Example field_1721_debug : returns (test_field_1721 debug64) tt.
Proof. run 30%N. Qed.
Example field_1721_release : returns (test_field_1721 release64) tt.
Proof. run 30%N. Qed.
Example zstar_1584_debug : returns (test_zstar_1584 debug64) tt.
Proof. run 30%N. Qed.
Example zstar_1584_release : returns (test_zstar_1584 release64) tt.
Proof. run 30%N. Qed.
Example ops_debug : returns (test_ops debug64) tt.
Proof. run 30%N. Qed.
Example ops_release : returns (test_ops release64) tt.
Proof. run 30%N. Qed.
Example floats_debug : returns (test_floats debug64) tt.
Proof. run 30%N. Qed.
