(** * MInts.v -- model of the number structures: integers.rs, naturals.rs,
    checked_ints.rs, checked_uints.rs and two_element_algebra.rs. *)

From Coq Require Import ZArith.
From mathcomp Require Import all_ssreflect.
From Verif Require Import Rust Traits.

Set Implicit Arguments.
Unset Strict Implicit.
Unset Printing Implicit Defensive.

Local Open Scope Z_scope.

(** ** Integers (integers.rs): BigInt is Z.

    The crate [num] is trusted: [+ - *], unary minus, comparisons and
    [div_rem] (truncated division) on BigInt are the mathematical ones. *)
Section Integers.

(* integers.rs:16-22 *)
Definition integers_domain : Domain Z :=
  mkDomain (@default_contains Z) (fun x y => ret (x =? y)).

(* integers.rs:24-28 *)
Definition integers_mul (x y : Z) : M Z := ret (x * y).
Definition integers_semigroup : Semigroup Z :=
  mkSemigroup integers_mul (default_mul_assign integers_mul)
    (default_square integers_mul).

(* integers.rs:47-49 *)
Definition integers_invertible (x : Z) : M bool := ret ((x =? 1) || (- x =? 1)).
(* integers.rs:39-45 *)
Definition integers_try_inv (x : Z) : M (option Z) :=
  let! b := integers_invertible x in
  if b then ret (Some x) else ret None.
(* integers.rs:30-50 *)
Definition integers_monoid : Monoid Z :=
  mkMonoid (ret 1) (fun x => ret (x =? 1)) integers_try_inv integers_invertible.

(* integers.rs:52-72; double and times are overridden *)
Definition integers_add (x y : Z) : M Z := ret (x + y).
Definition integers_cmonoid : CommMonoid Z :=
  mkCommMonoid (ret 0) (fun x => ret (x =? 0)) integers_add
    (default_add_assign integers_add)
    (fun x => ret (x * 2))
    (fun num x => ret (num * x)).

(* integers.rs:74-86 *)
Definition integers_neg (x : Z) : M Z := ret (- x).
Definition integers_abelian : AbelianGroup Z :=
  mkAbelianGroup integers_neg (default_neg_assign integers_neg)
    (fun x y => ret (x - y))
    (default_sub_assign integers_neg (add_assign integers_cmonoid))
    (fun num x => ret (num * x)).

(* integers.rs:90 *)
Definition integers_unitary : UnitaryRing Z :=
  mkUnitaryRing (default_int (ztimes integers_abelian) (one integers_monoid)).

Definition integers_ring : RingAlg Z :=
  mkRingAlg (mkMonoidAlg integers_domain integers_semigroup integers_monoid)
    integers_cmonoid integers_abelian integers_unitary.

(* integers.rs:93-102 *)
Definition integers_try_div (x y : Z) : M (option Z) :=
  do! assert (~~ (y =? 0)) in
  let q := Z.quot x y in
  let r := Z.rem x y in
  if r =? 0 then ret (Some q) else ret None.
(* integers.rs:104-110; is_multiple_of is "remainder is zero" *)
Definition integers_divisible (x y : Z) : M bool :=
  if y =? 0 then ret (x =? 0) else ret (Z.rem x y =? 0).
(* integers.rs:112-118 *)
Definition integers_associate_repr (x : Z) : M Z :=
  if x <? 0 then integers_neg x else ret x.
(* integers.rs:120-127 *)
Definition integers_associate_coef (x : Z) : M Z :=
  do! assert (~~ (x =? 0)) in
  if x <? 0 then integers_neg 1 else ret 1.
(* integers.rs:92-128 *)
Definition integers_idom : IntegralDomain Z :=
  mkIntegralDomain integers_try_div integers_divisible
    (default_associates integers_divisible)
    integers_associate_repr integers_associate_coef.

(* integers.rs:131-144 *)
Definition integers_quo_rem (x y : Z) : M (Z * Z) :=
  do! assert (~~ (y =? 0)) in
  let q := Z.quot x y in
  let r := Z.rem x y in
  if r <? 0 then
    if y <? 0 then ret (q + 1, r - y) else ret (q - 1, r + y)
  else ret (q, r).
(* integers.rs:146-152 *)
Definition integers_reduced (x y : Z) : M bool :=
  if y =? 0 then ret true else ret (~~ (x <? 0) && (x <? Z.abs y)).
(* integers.rs:130-153; quo, rem, gcd, lcm, extended_gcd and relative_primes
   are the default ones *)
Definition integers_eucl : EuclideanDomain Z :=
  let is_zero := is_zero integers_cmonoid in
  let quo := default_quo integers_quo_rem in
  let rem := default_rem integers_quo_rem in
  let gcd := default_gcd is_zero rem in
  mkEuclideanDomain integers_quo_rem quo rem integers_reduced gcd
    (default_lcm is_zero integers_mul quo gcd)
    (default_extended_gcd is_zero (one integers_monoid) (zero integers_cmonoid)
       integers_mul (sub integers_abelian) integers_quo_rem)
    (default_relative_primes integers_invertible gcd).

(** ZZ, the Euclidean domain of integers *)
(* integers.rs:8 *)
Definition ZZ : EuclAlg Z :=
  mkEuclAlg (mkIDomAlg integers_ring integers_idom) integers_eucl.

(* integers.rs:155-159 *)
Definition integers_leq (x y : Z) : M bool := ret (x <=? y).
Definition integers_order : PartialOrder Z :=
  mkPartialOrder integers_leq
    (default_less_than (equals integers_domain) integers_leq)
    (default_comparable integers_leq).
(* integers.rs:161-169 *)
Definition integers_lattice : Lattice Z :=
  mkLattice (fun x y => ret (Z.min x y)) (fun x y => ret (Z.max x y)).
Definition ZZ_lattice : LatticeAlg Z :=
  mkLatticeAlg (mkOrderAlg integers_domain integers_order) integers_lattice.
End Integers.

(** ** Naturals (naturals.rs): BigUint is N (num is trusted as above) *)
Section Naturals.

(* naturals.rs:18-24 *)
Definition naturals_domain : Domain N :=
  mkDomain (@default_contains N) (fun x y => ret (N.eqb x y)).
(* naturals.rs:26-30 *)
Definition naturals_mul (x y : N) : M N := ret (N.mul x y).
Definition naturals_semigroup : Semigroup N :=
  mkSemigroup naturals_mul (default_mul_assign naturals_mul)
    (default_square naturals_mul).
(* naturals.rs:32-52 *)
Definition naturals_monoid : Monoid N :=
  mkMonoid (ret N.one) (fun x => ret (N.eqb x N.one))
    (fun x => if N.eqb x N.one then ret (Some N.one) else ret None)
    (fun x => ret (N.eqb x N.one)).
(* naturals.rs:54-74; num: usize is given as a Z *)
Definition naturals_add (x y : N) : M N := ret (N.add x y).
Definition naturals_cmonoid : CommMonoid N :=
  mkCommMonoid (ret N.zero) (fun x => ret (N.eqb x N.zero)) naturals_add
    (default_add_assign naturals_add)
    (fun x => ret (N.mul x N.two))
    (fun num x => ret (N.mul (Z.to_N num) x)).
(** NN *)
(* naturals.rs:9 *)
Definition NN : SemiRingAlg N :=
  mkSemiRingAlg (mkMonoidAlg naturals_domain naturals_semigroup naturals_monoid)
    naturals_cmonoid.
(* naturals.rs:78-82 *)
Definition naturals_leq (x y : N) : M bool := ret (N.leb x y).
Definition naturals_order : PartialOrder N :=
  mkPartialOrder naturals_leq
    (default_less_than (equals naturals_domain) naturals_leq)
    (default_comparable naturals_leq).
(* naturals.rs:84-92 *)
Definition naturals_lattice : Lattice N :=
  mkLattice (fun x y => ret (N.min x y)) (fun x y => ret (N.max x y)).
Definition NN_lattice : LatticeAlg N :=
  mkLatticeAlg (mkOrderAlg naturals_domain naturals_order) naturals_lattice.
End Naturals.

(** ** CheckedInts<E> (checked_ints.rs), E the signed type of [w] bits.

    An element of E is an integer [x] with [in_i w x = true].  Expressions such
    as [quo * *elem2] that are not written with a checked_ method go through
    [prim_i]: they panic or wrap on overflow, depending on the build. *)
Section CheckedInts.
Variables (cfg : Cfg) (w : Z).

(* checked_ints.rs:47-56 *)
Definition checked_ints_domain : Domain Z :=
  mkDomain (@default_contains Z) (fun x y => ret (x =? y)).
(* checked_ints.rs:58-65 *)
Definition checked_ints_mul (x y : Z) : M Z := unwrap (checked_i w (x * y)).
Definition checked_ints_semigroup : Semigroup Z :=
  mkSemigroup checked_ints_mul (default_mul_assign checked_ints_mul)
    (default_square checked_ints_mul).
(* checked_ints.rs:87-89 *)
Definition checked_ints_invertible (x : Z) : M bool :=
  ret ((x =? 1) || (x =? -1)).
(* checked_ints.rs:79-85 *)
Definition checked_ints_try_inv (x : Z) : M (option Z) :=
  let! b := checked_ints_invertible x in
  if b then ret (Some x) else ret None.
(* checked_ints.rs:67-90 *)
Definition checked_ints_monoid : Monoid Z :=
  mkMonoid (ret 1) (fun x => ret (x =? 1)) checked_ints_try_inv
    checked_ints_invertible.
(* checked_ints.rs:92-107; add_assign, double and times are the default ones *)
Definition checked_ints_add (x y : Z) : M Z := unwrap (checked_i w (x + y)).
Definition checked_ints_cmonoid : CommMonoid Z :=
  let add_assign := default_add_assign checked_ints_add in
  let double := default_double checked_ints_add in
  mkCommMonoid (ret 0) (fun x => ret (x =? 0)) checked_ints_add add_assign double
    (default_ntimes (ret 0) add_assign double).
(* checked_ints.rs:113-115 *)
Definition checked_ints_neg (x : Z) : M Z := unwrap (checked_i w (0 - x)).
(* checked_ints.rs:121-124; num.try_into() fails if num does not fit into E *)
Definition checked_ints_ztimes (num x : Z) : M Z :=
  let! num := unwrap (checked_i w num) in
  unwrap (checked_i w (x * num)).
(* checked_ints.rs:109-125 *)
Definition checked_ints_abelian : AbelianGroup Z :=
  mkAbelianGroup checked_ints_neg (default_neg_assign checked_ints_neg)
    (fun x y => unwrap (checked_i w (x - y)))
    (default_sub_assign checked_ints_neg (add_assign checked_ints_cmonoid))
    checked_ints_ztimes.
(* checked_ints.rs:129 *)
Definition checked_ints_unitary : UnitaryRing Z :=
  mkUnitaryRing
    (default_int (ztimes checked_ints_abelian) (one checked_ints_monoid)).
Definition checked_ints_ring : RingAlg Z :=
  mkRingAlg
    (mkMonoidAlg checked_ints_domain checked_ints_semigroup checked_ints_monoid)
    checked_ints_cmonoid checked_ints_abelian checked_ints_unitary.

(* checked_ints.rs:135-144 *)
Definition checked_ints_try_div (x y : Z) : M (option Z) :=
  do! assert (~~ (y =? 0)) in
  let! q := unwrap (checked_div_i w x y) in
  let! p := prim_i cfg w (q * y) in
  if x =? p then ret (Some q) else ret None.
(* checked_ints.rs:146-152 *)
Definition checked_ints_associate_repr (x : Z) : M Z :=
  if x <? 0 then checked_ints_neg x else ret x.
(* checked_ints.rs:154-161 *)
Definition checked_ints_associate_coef (x : Z) : M Z :=
  do! assert (~~ (x =? 0)) in
  if x <? 0 then ret (-1) else ret 1.
(* checked_ints.rs:131-162; divisible and associates are the default ones *)
Definition checked_ints_idom : IntegralDomain Z :=
  let divisible :=
    default_divisible (is_zero checked_ints_cmonoid) checked_ints_try_div in
  mkIntegralDomain checked_ints_try_div divisible (default_associates divisible)
    checked_ints_associate_repr checked_ints_associate_coef.

(* checked_ints.rs:168-183 *)
Definition checked_ints_quo_rem (x y : Z) : M (Z * Z) :=
  do! assert (~~ (y =? 0)) in
  let! q := unwrap (checked_div_i w x y) in
  let! p := prim_i cfg w (q * y) in
  let! r := prim_i cfg w (x - p) in
  if r <? 0 then
    if y <? 0 then
      let! q1 := prim_i cfg w (q + 1) in
      let! r1 := prim_i cfg w (r - y) in
      ret (q1, r1)
    else
      let! q1 := prim_i cfg w (q - 1) in
      let! r1 := prim_i cfg w (r + y) in
      ret (q1, r1)
  else ret (q, r).
(* checked_ints.rs:185-195 *)
Definition checked_ints_reduced (x y : Z) : M bool :=
  if y =? 0 then ret true
  else if x <? 0 then ret false
  else if y >=? 0 then ret (x <? y)
  else let! n := prim_i cfg w (- x) in ret (n >? y).
(* checked_ints.rs:164-196 *)
Definition checked_ints_eucl : EuclideanDomain Z :=
  let is_zero := is_zero checked_ints_cmonoid in
  let quo := default_quo checked_ints_quo_rem in
  let rem := default_rem checked_ints_quo_rem in
  let gcd := default_gcd is_zero rem in
  mkEuclideanDomain checked_ints_quo_rem quo rem checked_ints_reduced gcd
    (default_lcm is_zero checked_ints_mul quo gcd)
    (default_extended_gcd is_zero (one checked_ints_monoid)
       (zero checked_ints_cmonoid) checked_ints_mul (sub checked_ints_abelian)
       checked_ints_quo_rem)
    (default_relative_primes checked_ints_invertible gcd).

(** CheckedInts<E> *)
Definition CheckedInts : EuclAlg Z :=
  mkEuclAlg (mkIDomAlg checked_ints_ring checked_ints_idom) checked_ints_eucl.

(* checked_ints.rs:198-205 *)
Definition checked_ints_leq (x y : Z) : M bool := ret (x <=? y).
Definition checked_ints_order : PartialOrder Z :=
  mkPartialOrder checked_ints_leq
    (default_less_than (equals checked_ints_domain) checked_ints_leq)
    (default_comparable checked_ints_leq).
(* checked_ints.rs:207-218 *)
Definition checked_ints_lattice : Lattice Z :=
  mkLattice (fun x y => ret (Z.min x y)) (fun x y => ret (Z.max x y)).
Definition CheckedInts_lattice : LatticeAlg Z :=
  mkLatticeAlg (mkOrderAlg checked_ints_domain checked_ints_order)
    checked_ints_lattice.
End CheckedInts.

(* checked_ints.rs:12-32 *)
Definition I8 cfg := CheckedInts cfg 8.
Definition I16 cfg := CheckedInts cfg 16.
Definition I32 cfg := CheckedInts cfg 32.
Definition I64 cfg := CheckedInts cfg 64.

(** ** CheckedUints<E> (checked_uints.rs), E the unsigned type of [w] bits: an
    element of E is an integer [x] with [in_u w x = true]. *)
Section CheckedUints.
Variable w : Z.

(* checked_uints.rs:47-56 *)
Definition checked_uints_domain : Domain Z :=
  mkDomain (@default_contains Z) (fun x y => ret (x =? y)).
(* checked_uints.rs:58-65 *)
Definition checked_uints_mul (x y : Z) : M Z := unwrap (checked_u w (x * y)).
Definition checked_uints_semigroup : Semigroup Z :=
  mkSemigroup checked_uints_mul (default_mul_assign checked_uints_mul)
    (default_square checked_uints_mul).
(* checked_uints.rs:67-90 *)
Definition checked_uints_monoid : Monoid Z :=
  mkMonoid (ret 1) (fun x => ret (x =? 1))
    (fun x => if x =? 1 then ret (Some 1) else ret None)
    (fun x => ret (x =? 1)).
(* checked_uints.rs:92-107; add_assign, double and times are the default ones *)
Definition checked_uints_add (x y : Z) : M Z := unwrap (checked_u w (x + y)).
Definition checked_uints_cmonoid : CommMonoid Z :=
  let add_assign := default_add_assign checked_uints_add in
  let double := default_double checked_uints_add in
  mkCommMonoid (ret 0) (fun x => ret (x =? 0)) checked_uints_add add_assign
    double (default_ntimes (ret 0) add_assign double).
(** CheckedUints<E> *)
Definition CheckedUints : SemiRingAlg Z :=
  mkSemiRingAlg
    (mkMonoidAlg checked_uints_domain checked_uints_semigroup
       checked_uints_monoid)
    checked_uints_cmonoid.
(* checked_uints.rs:111-118 *)
Definition checked_uints_leq (x y : Z) : M bool := ret (x <=? y).
Definition checked_uints_order : PartialOrder Z :=
  mkPartialOrder checked_uints_leq
    (default_less_than (equals checked_uints_domain) checked_uints_leq)
    (default_comparable checked_uints_leq).
(* checked_uints.rs:120-131 *)
Definition checked_uints_lattice : Lattice Z :=
  mkLattice (fun x y => ret (Z.min x y)) (fun x y => ret (Z.max x y)).
Definition CheckedUints_lattice : LatticeAlg Z :=
  mkLatticeAlg (mkOrderAlg checked_uints_domain checked_uints_order)
    checked_uints_lattice.
End CheckedUints.

(* checked_uints.rs:12-32 *)
Definition U8 := CheckedUints 8.
Definition U16 := CheckedUints 16.
Definition U32 := CheckedUints 32.
Definition U64 := CheckedUints 64.

(** ** TwoElementAlgebra (two_element_algebra.rs) *)
Section TwoElementAlgebra.

(* two_element_algebra.rs:12-18 *)
Definition two_domain : Domain bool :=
  mkDomain (@default_contains bool) (fun x y => ret (Bool.eqb x y)).
(* two_element_algebra.rs:20-30 *)
Definition two_semigroup : Semigroup bool :=
  mkSemigroup (fun x y => ret (x && y)) (fun x y => ret (x && y)) (fun x => ret x).
(* two_element_algebra.rs:32-52 *)
Definition two_monoid : Monoid bool :=
  mkMonoid (ret true) (fun x => ret x)
    (fun x => if x then ret (Some true) else ret None)
    (fun x => ret x).
(* two_element_algebra.rs:54-74; times is the default one *)
Definition two_cmonoid : CommMonoid bool :=
  let add_assign := fun x y => ret (xorb x y) in
  let double := fun _ : bool => ret false in
  mkCommMonoid (ret false) (fun x => ret (~~ x)) (fun x y => ret (xorb x y))
    add_assign double (default_ntimes (ret false) add_assign double).
(* two_element_algebra.rs:76-94 *)
Definition two_abelian : AbelianGroup bool :=
  mkAbelianGroup (fun x => ret x) (fun x => ret x)
    (fun x y => ret (xorb x y)) (fun x y => ret (xorb x y))
    (fun num x => ret (x && ~~ (Z.rem num 2 =? 0))).
(* two_element_algebra.rs:98 *)
Definition two_unitary : UnitaryRing bool :=
  mkUnitaryRing (default_int (ztimes two_abelian) (one two_monoid)).
Definition two_ring : RingAlg bool :=
  mkRingAlg (mkMonoidAlg two_domain two_semigroup two_monoid) two_cmonoid
    two_abelian two_unitary.
(* two_element_algebra.rs:100-114 *)
Definition two_field : Field bool :=
  mkField (fun x => do! assert x in ret true)
    (fun x y => do! assert y in ret x)
    (fun _ x => ret x).
(** BB as a field *)
(* two_element_algebra.rs:7 *)
Definition BB : FieldAlg bool := field_alg two_ring two_field.
(* two_element_algebra.rs:116-128; [<=] on bool is implication *)
Definition two_order : PartialOrder bool :=
  mkPartialOrder (fun x y => ret (implb x y)) (fun x y => ret (~~ x && y))
    (fun _ _ => ret true).
(* two_element_algebra.rs:130-138 *)
Definition two_bounded : BoundedOrder bool := mkBoundedOrder (ret true) (ret false).
(* two_element_algebra.rs:140-148 *)
Definition two_lattice : Lattice bool :=
  mkLattice (fun x y => ret (x && y)) (fun x y => ret (x || y)).
(* two_element_algebra.rs:152-156 *)
Definition two_boolean : BooleanAlgebra bool :=
  mkBooleanAlgebra (fun x => ret (~~ x)).
(** BB as a Boolean algebra *)
Definition BB_boolean : BooleanAlg bool :=
  mkBooleanAlg (mkLatticeAlg (mkOrderAlg two_domain two_order) two_lattice)
    two_bounded two_boolean.
End TwoElementAlgebra.
