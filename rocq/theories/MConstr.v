(** * MConstr.v -- model of the constructions that build a structure from a base:
    quotient_ring.rs, quotient_field.rs, reduced_fractions.rs,
    divisibility_order.rs, vector_algebra.rs, polynomial_algebra.rs,
    matrix_ring.rs; and of permutations.rs. *)

From Coq Require Import ZArith.
From mathcomp Require Import all_ssreflect.
From Verif Require Import Rust Traits MInts.

Set Implicit Arguments.
Unset Strict Implicit.
Unset Printing Implicit Defensive.

(** ** QuotientRing (quotient_ring.rs) *)
Section QuotientRing.
Variables (cfg : Cfg) (E : Type) (A : EuclAlg E) (modulo : E).

(* quotient_ring.rs:22-25: the constructor's check *)
Definition quotient_ring_new : M unit :=
  let! b := contains A modulo in assert b.

(* quotient_ring.rs:38-51 *)
Definition quotient_domain : Domain E :=
  mkDomain (fun x => reduced A x modulo) (equals A).
(* quotient_ring.rs:57-59 *)
Definition quotient_mul (x y : E) : M E :=
  let! z := mul A x y in rem A z modulo.
(* quotient_ring.rs:53-60 *)
Definition quotient_semigroup : Semigroup E :=
  mkSemigroup quotient_mul (default_mul_assign quotient_mul)
    (default_square quotient_mul).
(* quotient_ring.rs:74-77 *)
Definition quotient_ring_try_inv (x : E) : M (option E) :=
  let! gsr := extended_gcd A modulo x in
  let '(g, _, r) := gsr in
  let! o := try_inv A g in
  if o is Some a then let! z := quotient_mul a r in ret (Some z) else ret None.
(* quotient_ring.rs:62-78 *)
Definition quotient_ring_monoid : Monoid E :=
  mkMonoid (one A) (is_one A) quotient_ring_try_inv
    (default_invertible quotient_ring_try_inv).
(* quotient_ring.rs:88-90 *)
Definition quotient_add (x y : E) : M E :=
  let! z := add A x y in rem A z modulo.
(* quotient_ring.rs:80-91; is_zero, add_assign, double, times are the default
   ones *)
Definition quotient_cmonoid : CommMonoid E :=
  let add_assign := default_add_assign quotient_add in
  let double := default_double quotient_add in
  mkCommMonoid (zero A) (default_is_zero (equals quotient_domain) (zero A))
    quotient_add add_assign double
    (default_ntimes (zero A) add_assign double).
(* quotient_ring.rs:97-99 *)
Definition quotient_neg (x : E) : M E :=
  let! z := neg A x in rem A z modulo.
(* quotient_ring.rs:93-100 *)
Definition quotient_abelian : AbelianGroup E :=
  mkAbelianGroup quotient_neg (default_neg_assign quotient_neg)
    (default_sub quotient_neg (add_assign quotient_cmonoid))
    (default_sub_assign quotient_neg (add_assign quotient_cmonoid))
    (default_ztimes cfg quotient_domain quotient_cmonoid quotient_neg).
(* quotient_ring.rs:104 *)
Definition quotient_ring_unitary : UnitaryRing E :=
  mkUnitaryRing
    (default_int (ztimes quotient_abelian) (one quotient_ring_monoid)).
(** QuotientRing { base, modulo } *)
Definition QuotientRing : RingAlg E :=
  mkRingAlg
    (mkMonoidAlg quotient_domain quotient_semigroup quotient_ring_monoid)
    quotient_cmonoid quotient_abelian quotient_ring_unitary.

(** ** QuotientField (quotient_field.rs)

    The impls of Domain (56-69), Semigroup (71-78), CommuntativeMonoid
    (105-116) and AbelianGroup (118-125) are the same code as for
    QuotientRing, so the definitions above are reused. *)

(* quotient_field.rs:38-43: the constructor's checks *)
Definition quotient_field_new : M unit :=
  let! b := contains A modulo in
  do! assert b in
  let! o := one A in
  let! r := rem A o o in
  let! z := is_zero A r in
  assert z.

(* quotient_field.rs:135-140 *)
Definition quotient_field_inv (x : E) : M E :=
  let! b := is_zero quotient_cmonoid x in
  do! assert (~~ b) in
  let! gsr := extended_gcd A modulo x in
  let '(g, _, r) := gsr in
  let! o := try_inv A g in
  let! a := unwrap o in
  quotient_mul a r.
(* quotient_field.rs:92-98 *)
Definition quotient_field_try_inv (x : E) : M (option E) :=
  let! b := is_zero quotient_cmonoid x in
  if b then ret None
  else let! i := quotient_field_inv x in ret (Some i).
(* quotient_field.rs:80-103 *)
Definition quotient_field_monoid : Monoid E :=
  mkMonoid (one A) (is_one A) quotient_field_try_inv
    (fun x => notM (is_zero quotient_cmonoid x)).
(* quotient_field.rs:129 *)
Definition quotient_field_unitary : UnitaryRing E :=
  mkUnitaryRing
    (default_int (ztimes quotient_abelian) (one quotient_field_monoid)).
Definition quotient_field_ring : RingAlg E :=
  mkRingAlg
    (mkMonoidAlg quotient_domain quotient_semigroup quotient_field_monoid)
    quotient_cmonoid quotient_abelian quotient_field_unitary.
(* quotient_field.rs:131-141; div and power are the default ones *)
Definition quotient_field : Field E :=
  mkField quotient_field_inv
    (default_fdiv quotient_mul quotient_field_inv)
    (default_fpower cfg quotient_field_ring (is_zero quotient_cmonoid)
       (zero quotient_cmonoid)).
(** QuotientField { base, modulo } *)
Definition QuotientField : FieldAlg E :=
  field_alg quotient_field_ring quotient_field.
End QuotientRing.

(* quotient_field.rs:7-16 *)
Definition GF2 cfg : FieldAlg Z := QuotientField cfg (I8 cfg) 2%Z.
Definition GF3 cfg : FieldAlg Z := QuotientField cfg (I8 cfg) 3%Z.

(** ** ReducedFractions (reduced_fractions.rs): [Ratio::new_raw(n, d)] is the
    pair [(n, d)] *)
Section ReducedFractions.
Variables (cfg : Cfg) (E : Type) (A : EuclAlg E).
Let R : Type := (E * E)%type.

(* reduced_fractions.rs:28-31: the constructor's check *)
Definition fractions_new : M unit :=
  let! o := one A in
  let! b := is_zero A o in
  assert (~~ b).

(* reduced_fractions.rs:39-51 *)
Definition fractions_reduce (x : R) : M R :=
  let! b := is_zero A x.2 in
  do! assert (~~ b) in
  let! g := gcd A x.1 x.2 in
  let! numer := quo A x.1 g in
  let! denom := quo A x.2 g in
  let! coef := associate_coef A denom in
  let! c := is_one A coef in
  if ~~ c then
    let! numer := mul A numer coef in
    let! denom := mul A denom coef in
    ret (numer, denom)
  else ret (numer, denom).

(* reduced_fractions.rs:60-63 *)
Definition fractions_contains (x : R) : M bool :=
  andM (relative_primes A x.1 x.2)
    (let! c := associate_coef A x.2 in is_one A c).
(* reduced_fractions.rs:65-68 *)
Definition fractions_equals (x y : R) : M bool :=
  andM (equals A x.1 y.1) (equals A x.2 y.2).
(* reduced_fractions.rs:54-69 *)
Definition fractions_domain : Domain R :=
  mkDomain fractions_contains fractions_equals.

(* reduced_fractions.rs:75-81 *)
Definition fractions_mul (x y : R) : M R :=
  let! n := mul A x.1 y.1 in
  let! d := mul A x.2 y.2 in
  fractions_reduce (n, d).
(* reduced_fractions.rs:71-82 *)
Definition fractions_semigroup : Semigroup R :=
  mkSemigroup fractions_mul (default_mul_assign fractions_mul)
    (default_square fractions_mul).

(* reduced_fractions.rs:88-90 *)
Definition fractions_one : M R :=
  let! n := one A in let! d := one A in ret (n, d).
(* reduced_fractions.rs:92-94 *)
Definition fractions_is_one (x : R) : M bool :=
  andM (is_one A x.1) (is_one A x.2).
(* reduced_fractions.rs:105-107 *)
Definition fractions_invertible (x : R) : M bool := notM (is_zero A x.1).
(* reduced_fractions.rs:96-103 *)
Definition fractions_try_inv (x : R) : M (option R) :=
  let! b := fractions_invertible x in
  if b then let! y := fractions_reduce (x.2, x.1) in ret (Some y)
  else ret None.
(* reduced_fractions.rs:84-108 *)
Definition fractions_monoid : Monoid R :=
  mkMonoid fractions_one fractions_is_one fractions_try_inv fractions_invertible.

(* reduced_fractions.rs:114-116 *)
Definition fractions_zero : M R :=
  let! n := zero A in let! d := one A in ret (n, d).
(* reduced_fractions.rs:118-134 *)
Definition fractions_add (x y : R) : M R :=
  let! b := equals A x.2 y.2 in
  let! e :=
    (if b then let! n := add A x.1 y.1 in ret (n, x.2)
     else
       let! n1 := mul A x.1 y.2 in
       let! n2 := mul A x.2 y.1 in
       let! n := add A n1 n2 in
       let! d := mul A x.2 y.2 in
       ret (n, d)) in
  fractions_reduce e.
(* reduced_fractions.rs:110-135 *)
Definition fractions_cmonoid : CommMonoid R :=
  let add_assign := default_add_assign fractions_add in
  let double := default_double fractions_add in
  mkCommMonoid fractions_zero (default_is_zero fractions_equals fractions_zero)
    fractions_add add_assign double
    (default_ntimes fractions_zero add_assign double).

(* reduced_fractions.rs:141-143 *)
Definition fractions_neg (x : R) : M R :=
  let! n := neg A x.1 in ret (n, x.2).
(* reduced_fractions.rs:145-151 *)
Definition fractions_ztimes (num : Z) (x : R) : M R :=
  let! n := ztimes A num x.1 in fractions_reduce (n, x.2).
(* reduced_fractions.rs:137-152 *)
Definition fractions_abelian : AbelianGroup R :=
  mkAbelianGroup fractions_neg (default_neg_assign fractions_neg)
    (default_sub fractions_neg (add_assign fractions_cmonoid))
    (default_sub_assign fractions_neg (add_assign fractions_cmonoid))
    fractions_ztimes.
(* reduced_fractions.rs:156 *)
Definition fractions_unitary : UnitaryRing R :=
  mkUnitaryRing (default_int fractions_ztimes fractions_one).
Definition fractions_ring : RingAlg R :=
  mkRingAlg (mkMonoidAlg fractions_domain fractions_semigroup fractions_monoid)
    fractions_cmonoid fractions_abelian fractions_unitary.

(* reduced_fractions.rs:162-173 *)
Definition fractions_inv (x : R) : M R :=
  let! b := is_zero A x.1 in
  do! assert (~~ b) in
  let numer := x.2 in
  let denom := x.1 in
  let! coef := associate_coef A denom in
  let! c := is_one A coef in
  if ~~ c then
    let! numer := mul A numer coef in
    let! denom := mul A denom coef in
    ret (numer, denom)
  else ret (numer, denom).
(* reduced_fractions.rs:158-174; div and power are the default ones *)
Definition fractions_field : Field R :=
  mkField fractions_inv
    (default_fdiv fractions_mul fractions_inv)
    (default_fpower cfg fractions_ring (is_zero fractions_cmonoid)
       fractions_zero).
(** ReducedFractions { base } *)
Definition ReducedFractions : FieldAlg R := field_alg fractions_ring fractions_field.
End ReducedFractions.

(* reduced_fractions.rs:8 *)
Definition QQ cfg : FieldAlg (Z * Z) := ReducedFractions cfg ZZ.

(** ** DivisibilityOrder (divisibility_order.rs) *)
Section DivisibilityOrder.
Variables (E : Type).

(* divisibility_order.rs:31-41 *)
Definition divorder_domain (A : IDomAlg E) : Domain E :=
  mkDomain
    (fun x => orM (is_zero A x)
       (let! c := associate_coef A x in is_one A c))
    (equals A).
(* divisibility_order.rs:43-47 *)
Definition divorder_leq (A : IDomAlg E) (x y : E) : M bool := divisible A y x.
Definition divorder_order (A : IDomAlg E) : PartialOrder E :=
  mkPartialOrder (divorder_leq A)
    (default_less_than (equals (divorder_domain A)) (divorder_leq A))
    (default_comparable (divorder_leq A)).
(* divisibility_order.rs:49-57 *)
Definition divorder_bounded (A : IDomAlg E) : BoundedOrder E :=
  mkBoundedOrder (zero A) (one A).
(* divisibility_order.rs:60-63 *)
Definition divorder_meet (A : EuclAlg E) (x y : E) : M E :=
  let! g := gcd A x y in associate_repr A g.
(* divisibility_order.rs:65-68 *)
Definition divorder_join (A : EuclAlg E) (x y : E) : M E :=
  let! l := lcm A x y in associate_repr A l.
(* divisibility_order.rs:59-69 *)
Definition divorder_lattice (A : EuclAlg E) : Lattice E :=
  mkLattice (divorder_meet A) (divorder_join A).
(** DivisibilityOrder { base } over an integral domain, as a bounded order *)
Definition DivisibilityOrder (A : IDomAlg E) : BoundedAlg E :=
  mkBoundedAlg (mkOrderAlg (divorder_domain A) (divorder_order A))
    (divorder_bounded A).
(** DivisibilityOrder { base } over an Euclidean domain, as a lattice *)
Definition DivisibilityLattice (A : EuclAlg E) : LatticeAlg E :=
  mkLatticeAlg (mkOrderAlg (divorder_domain A) (divorder_order A))
    (divorder_lattice A).
End DivisibilityOrder.

(** ** VectorAlgebra (vector_algebra.rs) *)
Section VectorAlgebra.
Variables (cfg : Cfg) (E : Type) (len : nat).
Let V : Type := seq E.

(* vector_algebra.rs:39-41 *)
Definition vector_diagonal (x : E) : V := nseq len x.

(* vector_algebra.rs:59 and elsewhere: the length checks *)
Definition assert_len1 (v : V) : M unit := assert (size v == len).
Definition assert_len2 (v u : V) : M unit :=
  assert ((size v == len) && (size u == len)).

(* vector_algebra.rs:44-65 *)
Definition vector_domain (A : Domain E) : Domain V :=
  mkDomain
    (fun v => if size v != len then ret false else allM (contains A) v)
    (fun v u => do! assert_len2 v u in all2M (equals A) v u).

(* vector_algebra.rs:67-92 *)
Definition vector_semigroup (A : Semigroup E) : Semigroup V :=
  mkSemigroup
    (fun v u => do! assert_len2 v u in map2M (mul A) v u)
    (fun v u => do! assert_len2 v u in map2M (mul_assign A) v u)
    (fun v => do! assert_len1 v in mapM (square A) v).

(* vector_algebra.rs:107-118: the loop *)
Fixpoint vector_try_inv_loop (A : Monoid E) (xs v : V) : M (option V) :=
  if xs is x :: xs' then
    let! o := try_inv A x in
    if o is Some y then vector_try_inv_loop A xs' (rcons v y) else ret None
  else ret (Some v).
(* vector_algebra.rs:94-124 *)
Definition vector_monoid (A : Monoid E) : Monoid V :=
  mkMonoid
    (let! o := one A in ret (vector_diagonal o))
    (fun v => do! assert_len1 v in allM (is_one A) v)
    (fun v => do! assert_len1 v in vector_try_inv_loop A v [::])
    (fun v => do! assert_len1 v in allM (invertible A) v).
Definition vector_monoid_alg (A : MonoidAlg E) : MonoidAlg V :=
  mkMonoidAlg (vector_domain A) (vector_semigroup A) (vector_monoid A).

(* vector_algebra.rs:126-134; power is the default one *)
Definition vector_group (A : GroupAlg E) : GroupAlg V :=
  let inv v := do! assert_len1 v in mapM (ginv A) v in
  mkGroupAlg (vector_monoid_alg A)
    (mkGroup inv
       (default_gpower cfg (one (vector_monoid A))
          (mul_assign (vector_semigroup A)) (square (vector_semigroup A)) inv)).

(* vector_algebra.rs:136-170; times is the default one *)
Definition vector_cmonoid (A : CommMonoid E) : CommMonoid V :=
  let zero := let! z := zero A in ret (vector_diagonal z) in
  let add_assign v u := do! assert_len2 v u in map2M (add_assign A) v u in
  let double v := do! assert_len1 v in mapM (double A) v in
  mkCommMonoid zero
    (fun v => do! assert_len1 v in allM (is_zero A) v)
    (fun v u => do! assert_len2 v u in map2M (add A) v u)
    add_assign double
    (default_ntimes zero add_assign double).

(* vector_algebra.rs:172-202; times is the default one *)
Definition vector_abelian (A : AbelianAlg E) : AbelianGroup V :=
  let neg v := do! assert_len1 v in mapM (neg A) v in
  mkAbelianGroup neg
    (fun v => do! assert_len1 v in mapM (neg_assign A) v)
    (fun v u => do! assert_len2 v u in map2M (sub A) v u)
    (fun v u => do! assert_len2 v u in map2M (sub_assign A) v u)
    (default_ztimes cfg (vector_domain A) (vector_cmonoid A) neg).
Definition vector_abelian_alg (A : AbelianAlg E) : AbelianAlg V :=
  mkAbelianAlg (vector_domain A) (vector_cmonoid A) (vector_abelian A).

(* vector_algebra.rs:206-213 *)
Definition vector_unitary (A : UnitaryRing E) : UnitaryRing V :=
  mkUnitaryRing (fun num => let! x := int A num in ret (vector_diagonal x)).
(** VectorAlgebra { base, len } over a unitary ring *)
Definition VectorRing (A : RingAlg E) : RingAlg V :=
  mkRingAlg (vector_monoid_alg A) (vector_cmonoid A) (vector_abelian A)
    (vector_unitary A).

(* vector_algebra.rs:215-226; less_than and comparable are the default ones *)
Definition vector_order (A : OrderAlg E) : OrderAlg V :=
  let leq v u := do! assert_len2 v u in all2M (leq A) v u in
  mkOrderAlg (vector_domain A)
    (mkPartialOrder leq (default_less_than (equals (vector_domain A)) leq)
       (default_comparable leq)).
(* vector_algebra.rs:228-239 *)
Definition vector_bounded (A : BoundedOrder E) : BoundedOrder V :=
  mkBoundedOrder
    (let! x := omax A in ret (vector_diagonal x))
    (let! x := omin A in ret (vector_diagonal x)).
(* vector_algebra.rs:241-262 *)
Definition vector_lattice (A : Lattice E) : Lattice V :=
  mkLattice
    (fun v u => do! assert_len2 v u in map2M (meet A) v u)
    (fun v u => do! assert_len2 v u in map2M (join A) v u).
(* vector_algebra.rs:266-274 *)
Definition vector_boolean (A : BooleanAlgebra E) : BooleanAlgebra V :=
  mkBooleanAlgebra (fun v => do! assert_len1 v in mapM (bnot A) v).
(** VectorAlgebra { base, len } over a lattice, a Boolean algebra *)
Definition VectorLattice (A : LatticeAlg E) : LatticeAlg V :=
  mkLatticeAlg (vector_order A) (vector_lattice A).
Definition VectorBoolean (A : BooleanAlg E) : BooleanAlg V :=
  mkBooleanAlg (VectorLattice A) (vector_bounded A) (vector_boolean A).
End VectorAlgebra.

(** ** PolynomialAlgebra (polynomial_algebra.rs) *)
Section PolynomialAlgebra.
Variables (cfg : Cfg) (E : Type).
Let P : Type := seq E.

(* polynomial_algebra.rs:37-43 *)
Definition poly_degree (v : P) : option nat :=
  if size v == 0 then None else Some (size v - 1).
(* polynomial_algebra.rs:48-54 *)
Definition poly_leading_coef (v : P) : M (option E) :=
  if size v == 0 then ret None
  else let! x := vget v (size v - 1) in ret (Some x).

(* polynomial_algebra.rs:63-74 *)
Definition poly_contains (A : AbelianAlg E) (v : P) : M bool :=
  if size v == 0 then ret true
  else
    let! b := allM (contains A) v in
    if ~~ b then ret false
    else
      let! x := vget v (size v - 1) in
      notM (is_zero A x).
(* polynomial_algebra.rs:76-85 *)
Definition poly_equals (A : AbelianAlg E) (v u : P) : M bool :=
  if size v != size u then ret false else all2M (equals A) v u.
(* polynomial_algebra.rs:57-86 *)
Definition poly_domain (A : AbelianAlg E) : Domain P :=
  mkDomain (poly_contains A) (poly_equals A).

(* polynomial_algebra.rs:92-106 *)
Definition poly_mul (A : AbelianAlg E) (S : Semigroup E) (v u : P) : M P :=
  if (size v == 0) || (size u == 0) then ret [::]
  else
    let! z := zero A in
    for_loop 0 (size v) (fun i acc =>
      for_loop 0 (size u) (fun j acc =>
        let! x := vget v i in
        let! y := vget u j in
        let! a := mul S x y in
        let! c := vget acc (i + j) in
        let! d := add A c a in
        vset acc (i + j) d) acc)
      (vresize [::] (size v + size u - 1) z).
(* polynomial_algebra.rs:88-107 *)
Definition poly_semigroup (A : AbelianAlg E) (S : Semigroup E) : Semigroup P :=
  mkSemigroup (poly_mul A S) (default_mul_assign (poly_mul A S))
    (default_square (poly_mul A S)).

(* polynomial_algebra.rs:113-116 *)
Definition poly_one (A : AbelianAlg E) (O : Monoid E) : M P :=
  let! o := one O in
  let! b := is_zero A o in
  do! assert (~~ b) in
  let! o := one O in
  ret [:: o].
(* polynomial_algebra.rs:118-120 *)
Definition poly_is_one (O : Monoid E) (v : P) : M bool :=
  if size v == 1 then let! x := vget v 0 in is_one O x else ret false.
(* polynomial_algebra.rs:122-129 *)
Definition poly_try_inv (O : Monoid E) (v : P) : M (option P) :=
  if size v == 1 then
    let! x := vget v 0 in
    let! o := try_inv O x in
    if o is Some y then ret (Some [:: y]) else ret None
  else ret None.
(* polynomial_algebra.rs:109-130 *)
Definition poly_monoid (A : AbelianAlg E) (O : Monoid E) : Monoid P :=
  mkMonoid (poly_one A O) (poly_is_one O) (poly_try_inv O)
    (default_invertible (poly_try_inv O)).

(* polynomial_algebra.rs:144-167 *)
Definition poly_add (A : AbelianAlg E) (v u : P) : M P :=
  if size v != size u then
    let '(v, u) := if size v > size u then (v, u) else (u, v) in
    for_loop 0 (size u) (fun i acc =>
      let! x := vget acc i in
      let! y := vget u i in
      let! a := add A x y in
      vset acc i a) v
  else
    for_loop 0 (size v) (fun i acc =>
      let! x := vget v i in
      let! y := vget u i in
      let! a := add A x y in
      let! b := is_zero A a in
      if ~~ b then
        let! z := zero A in
        vset (vresize acc i.+1 z) i a
      else ret acc) [::].
(* polynomial_algebra.rs:132-168 *)
Definition poly_cmonoid (A : AbelianAlg E) : CommMonoid P :=
  let add_assign := default_add_assign (poly_add A) in
  let double := default_double (poly_add A) in
  mkCommMonoid (ret [::]) (fun v => ret (size v == 0)) (poly_add A) add_assign
    double (default_ntimes (ret [::]) add_assign double).

(* polynomial_algebra.rs:174-176 *)
Definition poly_neg (A : AbelianAlg E) (v : P) : M P := mapM (neg A) v.
(* polynomial_algebra.rs:178-190 *)
Definition poly_ztimes (A : AbelianAlg E) (num : Z) (v : P) : M P :=
  let! e := mapM (ztimes A num) v in
  let! r := for_rev_ret (size e) (fun i (_ : unit) =>
    let! x := vget e i in
    let! b := is_zero A x in
    if ~~ b then
      let! z := zero A in
      ret (inr (vresize e i.+1 z))
    else ret (inl tt)) tt in
  match r with
  | inr e => ret e
  | inl _ => ret [::]
  end.
(* polynomial_algebra.rs:170-191 *)
Definition poly_abelian (A : AbelianAlg E) : AbelianGroup P :=
  let add_assign := default_add_assign (poly_add A) in
  mkAbelianGroup (poly_neg A) (default_neg_assign (poly_neg A))
    (default_sub (poly_neg A) add_assign)
    (default_sub_assign (poly_neg A) add_assign)
    (poly_ztimes A).
(** PolynomialAlgebra { base } over an abelian group *)
Definition PolyAbelian (A : AbelianAlg E) : AbelianAlg P :=
  mkAbelianAlg (poly_domain A) (poly_cmonoid A) (poly_abelian A).

(* polynomial_algebra.rs:195 *)
Definition poly_unitary (A : RingAlg E) : UnitaryRing P :=
  mkUnitaryRing (default_int (poly_ztimes A) (poly_one A A)).
(** PolynomialAlgebra { base } over a unitary ring *)
Definition PolyRing (A : RingAlg E) : RingAlg P :=
  mkRingAlg (mkMonoidAlg (poly_domain A) (poly_semigroup A A) (poly_monoid A A))
    (poly_cmonoid A) (poly_abelian A) (poly_unitary A).

(* polynomial_algebra.rs:201-233; the state of the division loop is
   (quo, rem), [?] leaves the function with None *)
Definition poly_try_div (A : IDomAlg E) (v u : P) : M (option P) :=
  do! assert (~~ (size u == 0)) in
  if size v < size u then
    if size v == 0 then ret (Some [::]) else ret None
  else
    let! z := zero A in
    let quo := vresize [::] (size v - size u + 1) z in
    let! a := vget u (size u - 1) in
    let! az := is_zero A a in
    do! assert (~~ az) in
    let! r := for_rev_ret (size quo) (fun i qr =>
      let '(quo, rem) := qr in
      let! x := vget rem (i + size u - 1) in
      let! o := try_div A x a in
      if o is Some q then
        let! quo := vset quo i q in
        let! b := neg A q in
        let! rem := for_loop 0 (size u - 1) (fun j rem =>
          let! y := vget u j in
          let! c := mul A y b in
          let! d := vget rem (i + j) in
          let! d := add_assign A d c in
          vset rem (i + j) d) rem in
        ret (inl (quo, rem))
      else ret (inr None)) (quo, v) in
    match r with
    | inr res => ret res
    | inl (quo, rem) =>
        let! ok := allM (is_zero A) (take (size u - 1) rem) in
        if ok then ret (Some quo) else ret None
    end.
(* polynomial_algebra.rs:235-242 *)
Definition poly_associate_repr (A : IDomAlg E) (v : P) : M P :=
  if size v == 0 then ret [::]
  else
    let! x := vget v (size v - 1) in
    let! coef := associate_coef A x in
    mapM (fun x => mul A x coef) v.
(* polynomial_algebra.rs:244-249 *)
Definition poly_associate_coef (A : IDomAlg E) (v : P) : M P :=
  do! assert (~~ (size v == 0)) in
  let! x := vget v (size v - 1) in
  let! c := associate_coef A x in
  ret [:: c].
(* polynomial_algebra.rs:197-250; divisible and associates are the default
   ones *)
Definition poly_idom (A : IDomAlg E) : IntegralDomain P :=
  let divisible := default_divisible (is_zero (poly_cmonoid A)) (poly_try_div A) in
  mkIntegralDomain (poly_try_div A) divisible (default_associates divisible)
    (poly_associate_repr A) (poly_associate_coef A).
(** PolynomialAlgebra { base } over an integral domain *)
Definition PolyIDom (A : IDomAlg E) : IDomAlg P := mkIDomAlg (PolyRing A) (poly_idom A).

(* polynomial_algebra.rs:278-281: while i > 0 && is_zero(rem[i - 1]) { i -= 1 } *)
Definition poly_trim_index (A : AbelianAlg E) (rem : P) (i : nat) : M nat :=
  while_loop
    (fun i => if i > 0 then let! x := vget rem (i - 1) in is_zero A x
              else ret false)
    (fun i => ret (i - 1)) i.
(* polynomial_algebra.rs:256-285 *)
Definition poly_quo_rem (A : FieldAlg E) (v u : P) : M (P * P) :=
  do! assert (~~ (size u == 0)) in
  if size v < size u then ret ([::], v)
  else
    let! z := zero A in
    let quo := vresize [::] (size v - size u + 1) z in
    let! a := vget u (size u - 1) in
    let! az := is_zero A a in
    do! assert (~~ az) in
    let! qr := for_rev (size quo) (fun i qr =>
      let '(quo, rem) := qr in
      let! x := vget rem (i + size u - 1) in
      let! q := fdiv A x a in
      let! quo := vset quo i q in
      let! b := neg A q in
      let! rem := for_loop 0 (size u - 1) (fun j rem =>
        let! y := vget u j in
        let! c := mul A y b in
        let! d := vget rem (i + j) in
        let! d := add A d c in
        vset rem (i + j) d) rem in
      ret (quo, rem)) (quo, v) in
    let '(quo, rem) := qr in
    let! i := poly_trim_index A rem (size u - 1) in
    ret (quo, take i rem).
(* polynomial_algebra.rs:252-286; everything but quo_rem is the default one *)
Definition poly_eucl (A : FieldAlg E) : EuclideanDomain P :=
  let is_zero := is_zero (poly_cmonoid A) in
  let quo := default_quo (poly_quo_rem A) in
  let rem := default_rem (poly_quo_rem A) in
  let gcd := default_gcd is_zero rem in
  mkEuclideanDomain (poly_quo_rem A) quo rem (default_reduced is_zero quo) gcd
    (default_lcm is_zero (poly_mul A A) quo gcd)
    (default_extended_gcd is_zero (poly_one A A) (zero (poly_cmonoid A))
       (poly_mul A A) (sub (poly_abelian A)) (poly_quo_rem A))
    (default_relative_primes (invertible (poly_monoid A A)) gcd).
(** PolynomialAlgebra { base } over a field *)
Definition PolyEucl (A : FieldAlg E) : EuclAlg P := mkEuclAlg (PolyIDom A) (poly_eucl A).
End PolynomialAlgebra.

(** ** MatrixRing (matrix_ring.rs) *)
Section MatrixRing.
Variables (cfg : Cfg) (E : Type) (A : FieldAlg E) (n : nat).
Let T : Type := seq E.

(* matrix_ring.rs:23-26: MatrixRing::new checks that size * size fits *)
Definition matrix_new : M unit := assert (is_usize cfg (Z.of_nat n * Z.of_nat n)%Z).

(* matrix_ring.rs:41-43 *)
Definition matrix_len : nat := n * n.

(* matrix_ring.rs:46-55 *)
Definition matrix_transpose (v : T) : M T :=
  do! assert (size v == matrix_len) in
  for_loop 0 n (fun row res =>
    for_loop 0 n (fun col res =>
      let! x := vget v (col * n + row) in
      ret (rcons res x)) res) [::].

(* matrix_ring.rs:58-63; the slice elem[row..row + size] must exist *)
Definition mul_row (v : T) (row : nat) (coef : E) : M T :=
  let row := row * n in
  do! assert (row + n <= size v) in
  let! s := mapM (fun x => mul_assign A x coef) (take n (drop row v)) in
  ret (take row v ++ s ++ drop (row + n) v).

(* matrix_ring.rs:67-80 *)
Definition add_rows (v : T) (row1 row2 : nat) (coef : E) : M T :=
  let row1 := row1 * n in
  let row2 := row2 * n in
  for_loop 0 n (fun col v =>
    let! x := vget v (row1 + col) in
    let! y := mul A x coef in
    let! z := vget v (row2 + col) in
    let! z := add_assign A z y in
    vset v (row2 + col) z) v.

(* matrix_ring.rs:83-89 *)
Definition swap_rows (v : T) (row1 row2 : nat) : M T :=
  let row1 := row1 * n in
  let row2 := row2 * n in
  for_loop 0 n (fun col v => vswap v (row1 + col) (row2 + col)) v.

(* matrix_ring.rs:92-94 *)
Definition find_row (v : T) (col : nat) : M (option nat) :=
  findM col (n - col) (fun row =>
    let! x := vget v (row * n + col) in notM (is_zero A x)).

(* matrix_ring.rs:111-118: the inner loop of determinant *)
Definition det_clear_below (v : T) (col : nat) : M T :=
  for_loop col.+1 (n - col.+1) (fun row v =>
    let! c := vget v (row * n + col) in
    let! b := is_zero A c in
    if b then ret v
    else
      let! c := neg A c in
      add_rows v col row c) v.
(* matrix_ring.rs:98-125; the state of the loop is (elem, det) *)
Definition determinant (v : T) : M E :=
  let! det := one A in
  let! r := for_loop_ret 0 n (fun col s =>
    let '(v, det) := s in
    let! o := find_row v col in
    if o is Some row then
      let! v := (if row != col then swap_rows v col row else ret v) in
      let! coef := vget v (col * n + col) in
      let! det := mul_assign A det coef in
      let! coef := finv A coef in
      let! v := mul_row v col coef in
      let! v := det_clear_below v col in
      ret (inl (v, det))
    else
      let! z := zero A in ret (inr z)) (v, det) in
  match r with
  | inr z => ret z
  | inl (_, det) => ret det
  end.

(* matrix_ring.rs:128-149 *)
Definition matrix_domain : Domain T :=
  mkDomain
    (fun v => if size v != matrix_len then ret false else allM (contains A) v)
    (fun v u =>
       do! assert ((size v == matrix_len) && (size u == matrix_len)) in
       all2M (equals A) v u).

(* matrix_ring.rs:155-172 *)
Definition matrix_mul (v u : T) : M T :=
  do! assert ((size v == matrix_len) && (size u == matrix_len)) in
  let! u := matrix_transpose u in
  for_loop 0 n (fun row res =>
    for_loop 0 n (fun col res =>
      let! sum := zero A in
      let! sum := for_loop 0 n (fun idx sum =>
        let! x := vget v (row * n + idx) in
        let! y := vget u (col * n + idx) in
        let! z := mul A x y in
        add_assign A sum z) sum in
      ret (rcons res sum)) res) [::].
(* matrix_ring.rs:151-173 *)
Definition matrix_semigroup : Semigroup T :=
  mkSemigroup matrix_mul (default_mul_assign matrix_mul)
    (default_square matrix_mul).

(* matrix_ring.rs:222-245, 247-266: the additive structure is that of
   VectorAlgebra { base, len: size * size }; CommuntativeMonoid::times and
   AbelianGroup::times are the default ones *)
Let valg := vector_cmonoid matrix_len A.
Definition matrix_cmonoid : CommMonoid T :=
  mkCommMonoid (zero valg) (is_zero valg) (add valg) (add_assign valg)
    (double valg)
    (default_ntimes (zero valg) (add_assign valg) (double valg)).
Let vabl := vector_abelian cfg matrix_len A.
Definition matrix_abelian : AbelianGroup T :=
  mkAbelianGroup (neg vabl) (neg_assign vabl) (sub vabl) (sub_assign vabl)
    (default_ztimes cfg matrix_domain matrix_cmonoid (neg vabl)).

(* matrix_ring.rs:274-281 *)
Definition matrix_int (num : Z) : M T :=
  let! x := int A num in
  let! mat := zero matrix_cmonoid in
  for_loop 0 n (fun i mat => vset mat (i * (n + 1)) x) mat.
(* matrix_ring.rs:270-282 *)
Definition matrix_unitary : UnitaryRing T := mkUnitaryRing matrix_int.

(* matrix_ring.rs:179-181 *)
Definition matrix_one : M T := matrix_int 1%Z.
(* traits.rs:50-52, not overridden *)
Definition matrix_is_one : T -> M bool :=
  default_is_one (equals matrix_domain) matrix_one.

(* matrix_ring.rs:196-207: the inner loop of try_inv on (elem, invs) *)
Definition inv_clear_others (vi : T * T) (col : nat) : M (T * T) :=
  for_loop 0 n (fun row vi =>
    let '(v, invs) := vi in
    if row == col then ret (v, invs)
    else
      let! c := vget v (row * n + col) in
      let! b := is_zero A c in
      if b then ret (v, invs)
      else
        let! c := neg A c in
        let! v := add_rows v col row c in
        let! invs := add_rows invs col row c in
        ret (v, invs)) vi.
(* matrix_ring.rs:183-215; the state of the loop is (elem, invs) *)
Definition matrix_try_inv (v : T) : M (option T) :=
  let! invs := matrix_one in
  let! r := for_loop_ret 0 n (fun col vi =>
    let '(v, invs) := vi in
    let! o := find_row v col in
    if o is Some row then
      let! vi :=
        (if row != col then
           let! v := swap_rows v col row in
           let! invs := swap_rows invs col row in
           ret (v, invs)
         else ret (v, invs)) in
      let '(v, invs) := vi in
      let! x := vget v (col * n + col) in
      let! coef := finv A x in
      let! v := mul_row v col coef in
      let! invs := mul_row invs col coef in
      let! vi := inv_clear_others (v, invs) col in
      ret (inl vi)
    else ret (inr tt)) (v, invs) in
  match r with
  | inr _ => ret None
  | inl (v, invs) =>
      do! debug_assert cfg (matrix_is_one v) in
      ret (Some invs)
  end.
(* matrix_ring.rs:217-219 *)
Definition matrix_invertible (v : T) : M bool :=
  let! d := determinant v in notM (is_zero A d).
(* matrix_ring.rs:175-220 *)
Definition matrix_monoid : Monoid T :=
  mkMonoid matrix_one matrix_is_one matrix_try_inv matrix_invertible.
(** MatrixRing { valg, size } *)
Definition MatrixRing : RingAlg T :=
  mkRingAlg (mkMonoidAlg matrix_domain matrix_semigroup matrix_monoid)
    matrix_cmonoid matrix_abelian matrix_unitary.
End MatrixRing.

(** ** Permutations (permutations.rs): [u32] values are [nat] (they are only
    compared, copied and used as indices). *)
Section Permutations.
Variables (cfg : Cfg) (n : nat).
Let P : Type := seq nat.

(* permutations.rs:31-36: the loop *)
Fixpoint perm_contains_loop (v : P) (used : seq bool) : M bool :=
  if v is a :: v' then
    let! b := vget used a in
    if b then ret false
    else
      let! used := vset used a true in
      perm_contains_loop v' used
  else ret true.
(* permutations.rs:26-39 *)
Definition perm_contains (v : P) : M bool :=
  if size v != n then ret false else perm_contains_loop v (nseq n false).
(* permutations.rs:23-44 *)
Definition perm_domain : Domain P :=
  mkDomain perm_contains (fun v u => ret (v == u)).

(* permutations.rs:48-49, 58-59, 76, 86 *)
Definition debug_len (v : P) : M unit := debug_assert cfg (ret (size v == n)).

(* permutations.rs:51-53: the loop, i counts up *)
Fixpoint perm_mul_loop (i : nat) (v u prod : P) : M P :=
  if v is a :: v' then
    let! x := vget u a in
    let! prod := vset prod i x in
    perm_mul_loop i.+1 v' u prod
  else ret prod.
(* permutations.rs:47-55 *)
Definition perm_mul (v u : P) : M P :=
  do! debug_len v in
  do! debug_len u in
  perm_mul_loop 0 v u (nseq n 0).
(* permutations.rs:57-63 *)
Definition perm_mul_assign (v u : P) : M P :=
  do! debug_len v in
  do! debug_len u in
  mapM (vget u) v.
(* permutations.rs:46-64; square is the default one *)
Definition perm_semigroup : Semigroup P :=
  mkSemigroup perm_mul perm_mul_assign (default_square perm_mul).

(* permutations.rs:67-73 *)
Definition perm_one : M P :=
  for_loop 0 n (fun i v => vset v i i) (nseq n 0).
(* permutations.rs:77-82: the loop *)
Fixpoint perm_is_one_loop (i : nat) (v : P) : M bool :=
  if v is a :: v' then
    if i != a then ret false else perm_is_one_loop i.+1 v'
  else ret true.
(* permutations.rs:75-83 *)
Definition perm_is_one (v : P) : M bool :=
  do! debug_len v in perm_is_one_loop 0 v.
(* permutations.rs:88-90: the loop *)
Fixpoint perm_inv_loop (i : nat) (v inv : P) : M P :=
  if v is a :: v' then
    let! inv := vset inv a i in
    perm_inv_loop i.+1 v' inv
  else ret inv.
(* permutations.rs:85-92 *)
Definition perm_try_inv (v : P) : M (option P) :=
  do! debug_len v in
  let! r := perm_inv_loop 0 v (nseq n 0) in
  ret (Some r).
(* permutations.rs:66-97 *)
Definition perm_monoid : Monoid P :=
  mkMonoid perm_one perm_is_one perm_try_inv (fun _ => ret true).
(* permutations.rs:99; inv and power are the default ones *)
Definition Permutations : GroupAlg P :=
  mkGroupAlg (mkMonoidAlg perm_domain perm_semigroup perm_monoid)
    (mkGroup (default_ginv perm_try_inv)
       (default_gpower cfg perm_one perm_mul_assign (square perm_semigroup)
          (default_ginv perm_try_inv))).
End Permutations.
