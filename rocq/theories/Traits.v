(** * Traits.v -- model of /repo/src/traits.rs, additive_group.rs and
    multiplicative_group.rs.

    A Rust trait is a record of its methods, an [impl] is a value of that
    record.  Methods that a trait implements by default are the [default_*]
    functions; an [impl] that does not override the method uses them.  The
    default methods call other methods through [self], so they take these as
    arguments: each [impl] passes the (possibly overridden) ones.

    A method taking [&mut elem] and changing it in place returns the new value.
    (Simplification: the contents of the place after a panic are not modelled.) *)

From Coq Require Import ZArith.
From mathcomp Require Import all_ssreflect.
From Verif Require Import Rust.

Set Implicit Arguments.
Unset Strict Implicit.
Unset Printing Implicit Defensive.

(** ** The traits *)

(* traits.rs:13-24, trait Domain *)
Record Domain (E : Type) := mkDomain {
  contains : E -> M bool;
  equals : E -> E -> M bool
}.

(* traits.rs:28-41, trait Semigroup *)
Record Semigroup (E : Type) := mkSemigroup {
  mul : E -> E -> M E;
  mul_assign : E -> E -> M E;
  square : E -> M E
}.

(* traits.rs:45-62, trait Monoid *)
Record Monoid (E : Type) := mkMonoid {
  one : M E;
  is_one : E -> M bool;
  try_inv : E -> M (option E);
  invertible : E -> M bool
}.

(* traits.rs:66-101, trait CommuntativeMonoid (sic) *)
Record CommMonoid (E : Type) := mkCommMonoid {
  zero : M E;
  is_zero : E -> M bool;
  add : E -> E -> M E;
  add_assign : E -> E -> M E;
  double : E -> M E;
  ntimes : Z -> E -> M E           (* CommuntativeMonoid::times(num: usize, ..) *)
}.

(* traits.rs:106-132, trait Group *)
Record Group (E : Type) := mkGroup {
  ginv : E -> M E;                 (* Group::inv *)
  gpower : Z -> E -> M E           (* Group::power(num: isize, ..) *)
}.

(* traits.rs:136-162, trait AbelianGroup *)
Record AbelianGroup (E : Type) := mkAbelianGroup {
  neg : E -> M E;
  neg_assign : E -> M E;
  sub : E -> E -> M E;
  sub_assign : E -> E -> M E;
  ztimes : Z -> E -> M E           (* AbelianGroup::times(num: isize, ..) *)
}.

(* traits.rs:166, trait SemiRing, adds no methods *)

(* traits.rs:170-175, trait UnitaryRing *)
Record UnitaryRing (E : Type) := mkUnitaryRing {
  int : Z -> M E                   (* int(elem: isize) *)
}.

(* traits.rs:182-212, trait IntegralDomain *)
Record IntegralDomain (E : Type) := mkIntegralDomain {
  try_div : E -> E -> M (option E);
  divisible : E -> E -> M bool;
  associates : E -> E -> M bool;
  associate_repr : E -> M E;
  associate_coef : E -> M E
}.

(* traits.rs:217-292, trait EuclideanDomain *)
Record EuclideanDomain (E : Type) := mkEuclideanDomain {
  quo_rem : E -> E -> M (E * E);
  quo : E -> E -> M E;
  rem : E -> E -> M E;
  reduced : E -> E -> M bool;
  gcd : E -> E -> M E;
  lcm : E -> E -> M E;
  extended_gcd : E -> E -> M (E * E * E);
  relative_primes : E -> E -> M bool
}.

(* traits.rs:299-319, trait Field *)
Record Field (E : Type) := mkField {
  finv : E -> M E;                 (* Field::inv *)
  fdiv : E -> E -> M E;            (* Field::div *)
  fpower : Z -> E -> M E           (* Field::power(num: isize, ..) *)
}.

(* traits.rs:379-395, trait PartialOrder *)
Record PartialOrder (E : Type) := mkPartialOrder {
  leq : E -> E -> M bool;
  less_than : E -> E -> M bool;
  comparable : E -> E -> M bool
}.

(* traits.rs:399-405, trait BoundedOrder *)
Record BoundedOrder (E : Type) := mkBoundedOrder {
  omax : M E;                      (* BoundedOrder::max *)
  omin : M E                       (* BoundedOrder::min *)
}.

(* traits.rs:410-418, trait Lattice *)
Record Lattice (E : Type) := mkLattice {
  meet : E -> E -> M E;
  join : E -> E -> M E
}.

(* traits.rs:421, trait DistributiveLattice, adds no methods *)

(* traits.rs:425-428, trait BooleanAlgebra *)
Record BooleanAlgebra (E : Type) := mkBooleanAlgebra {
  bnot : E -> M E                  (* BooleanAlgebra::not *)
}.

(** ** Bundles: what a type parameter [A: Trait] gives access to

    ([A: Field] also implements Domain, Semigroup, Monoid, ...; the coercions
    below are the supertrait relations of traits.rs.) *)

(* A: AbelianGroup (traits.rs:136) *)
Record AbelianAlg (E : Type) := mkAbelianAlg {
  ab_dom :> Domain E;
  ab_cm :> CommMonoid E;
  ab_ab :> AbelianGroup E
}.

(* A: Monoid (traits.rs:45) *)
Record MonoidAlg (E : Type) := mkMonoidAlg {
  mo_dom :> Domain E;
  mo_sg :> Semigroup E;
  mo_mo :> Monoid E
}.

(* A: Group (traits.rs:106) *)
Record GroupAlg (E : Type) := mkGroupAlg {
  gr_mon :> MonoidAlg E;
  gr_gr :> Group E
}.

(* A: SemiRing (traits.rs:166) *)
Record SemiRingAlg (E : Type) := mkSemiRingAlg {
  sr_mon :> MonoidAlg E;
  sr_cm :> CommMonoid E
}.

(* A: UnitaryRing (traits.rs:170) *)
Record RingAlg (E : Type) := mkRingAlg {
  ri_mon :> MonoidAlg E;
  ri_cm :> CommMonoid E;
  ri_ab :> AbelianGroup E;
  ri_ur :> UnitaryRing E
}.
Coercion ring_abelian (E : Type) (A : RingAlg E) : AbelianAlg E :=
  mkAbelianAlg (ri_mon A) (ri_cm A) (ri_ab A).

(* A: IntegralDomain (traits.rs:182) *)
Record IDomAlg (E : Type) := mkIDomAlg {
  id_ring :> RingAlg E;
  id_id :> IntegralDomain E
}.

(* A: EuclideanDomain (traits.rs:217) *)
Record EuclAlg (E : Type) := mkEuclAlg {
  eu_idom :> IDomAlg E;
  eu_eu :> EuclideanDomain E
}.

(* A: Field (traits.rs:299) *)
Record FieldAlg (E : Type) := mkFieldAlg {
  fi_eucl :> EuclAlg E;
  fi_fi :> Field E
}.

(* A: PartialOrder (traits.rs:379) *)
Record OrderAlg (E : Type) := mkOrderAlg {
  or_dom :> Domain E;
  or_or :> PartialOrder E
}.

(* A: Lattice (traits.rs:410) *)
Record LatticeAlg (E : Type) := mkLatticeAlg {
  la_or :> OrderAlg E;
  la_la :> Lattice E
}.

(* A: BoundedOrder (traits.rs:399) *)
Record BoundedAlg (E : Type) := mkBoundedAlg {
  bo_or :> OrderAlg E;
  bo_bo :> BoundedOrder E
}.

(* A: BooleanAlgebra (traits.rs:425) *)
Record BooleanAlg (E : Type) := mkBooleanAlg {
  ba_la :> LatticeAlg E;
  ba_bo :> BoundedOrder E;
  ba_ba :> BooleanAlgebra E
}.

Section Defaults.
Variable E : Type.
Implicit Types x y : E.

(** ** Domain (traits.rs:13-24) *)

(* traits.rs:18-20 *)
Definition default_contains x : M bool := ret true.

(** ** Semigroup (traits.rs:28-41) *)

(* traits.rs:33-35 *)
Definition default_mul_assign (mul : E -> E -> M E) x y : M E := mul x y.
(* traits.rs:38-40 *)
Definition default_square (mul : E -> E -> M E) x : M E := mul x x.

(** ** Monoid (traits.rs:45-62) *)

(* traits.rs:50-52 *)
Definition default_is_one (equals : E -> E -> M bool) (one : M E) x : M bool :=
  let! o := one in equals x o.
(* traits.rs:59-61 *)
Definition default_invertible (try_inv : E -> M (option E)) x : M bool :=
  let! r := try_inv x in ret (if r is Some _ then true else false).

(** ** CommuntativeMonoid (traits.rs:66-101) *)

(* traits.rs:71-73 *)
Definition default_is_zero (equals : E -> E -> M bool) (zero : M E) x : M bool :=
  let! z := zero in equals x z.
(* traits.rs:79-81 *)
Definition default_add_assign (add : E -> E -> M E) x y : M E := add x y.
(* traits.rs:84-86 *)
Definition default_double (add : E -> E -> M E) x : M E := add x x.

(* traits.rs:92-98 and traits.rs:123-129: the double-and-add (square-and-
   multiply) loop; the state is (num, elem, res). *)
Definition power_loop (op_assign : E -> E -> M E) (dbl : E -> M E)
    (num : Z) (elem res : E) : M (Z * E * E) :=
  while_loop
    (fun s => let '(num, elem, res) := s in ret (num >? 0)%Z)
    (fun s => let '(num, elem, res) := s in
       let! res := (if (Z.rem num 2 =? 0)%Z then ret res
                    else op_assign res elem) in
       let num := Z.quot num 2 in
       let! elem := dbl elem in
       ret (num, elem, res))
    (num, elem, res).

(* traits.rs:89-100 *)
Definition default_ntimes (zero : M E) (add_assign : E -> E -> M E)
    (double : E -> M E) (num : Z) x : M E :=
  let! res := zero in
  let! s := power_loop add_assign double num x res in
  ret s.2.

(** ** Group (traits.rs:106-132) *)

(* traits.rs:108-110 *)
Definition default_ginv (try_inv : E -> M (option E)) x : M E :=
  let! r := try_inv x in unwrap r.
(* traits.rs:114-131; [num = -num] is unchecked isize arithmetic *)
Definition default_gpower (cfg : Cfg) (one : M E) (mul_assign : E -> E -> M E)
    (square : E -> M E) (inv : E -> M E) (num : Z) x : M E :=
  let! ne := (if (num <? 0)%Z then
                let! num := prim_i cfg (ptr_bits cfg) (- num)%Z in
                let! elem := inv x in
                ret (num, elem)
              else ret (num, x)) in
  let! res := one in
  let! s := power_loop mul_assign square ne.1 ne.2 res in
  ret s.2.

(** ** AdditiveGroup (additive_group.rs)

    The parameter [neg] is [self.base.neg]: the only method of the trait
    AbelianGroup that AdditiveGroup calls. *)
Section AdditiveGroup.
Variables (cfg : Cfg) (dom : Domain E) (cm : CommMonoid E) (neg : E -> M E).

(* additive_group.rs:30-43 *)
Definition additive_domain : Domain E :=
  mkDomain (contains dom) (equals dom).
(* additive_group.rs:45-60 *)
Definition additive_semigroup : Semigroup E :=
  mkSemigroup (add cm) (add_assign cm) (double cm).
(* additive_group.rs:62-81 *)
Definition additive_monoid : Monoid E :=
  mkMonoid (zero cm) (is_zero cm)
    (fun x => let! y := neg x in ret (Some y))
    (fun _ => ret true).
(* additive_group.rs:83-90, power is the default one *)
Definition additive_group : GroupAlg E :=
  mkGroupAlg (mkMonoidAlg additive_domain additive_semigroup additive_monoid)
    (mkGroup neg
       (default_gpower cfg (one additive_monoid) (mul_assign additive_semigroup)
          (square additive_semigroup) neg)).
End AdditiveGroup.

(** AdditiveGroup::new(base), additive_group.rs:20-22 *)
Definition AdditiveGroup (cfg : Cfg) (A : AbelianAlg E) : GroupAlg E :=
  additive_group cfg A A (neg A).

(** ** MultiplicativeGroup (multiplicative_group.rs) *)
Section MultiplicativeGroup.
Variables (cfg : Cfg) (A : MonoidAlg E).

(* multiplicative_group.rs:31-44 *)
Definition multiplicative_domain : Domain E :=
  mkDomain (invertible A) (equals A).
(* multiplicative_group.rs:46-61 *)
Definition multiplicative_semigroup : Semigroup E :=
  mkSemigroup (mul A) (mul_assign A) (square A).
(* multiplicative_group.rs:63-82 *)
Definition multiplicative_monoid : Monoid E :=
  mkMonoid (one A) (is_one A) (try_inv A) (fun _ => ret true).
(* multiplicative_group.rs:88-90 *)
Definition multiplicative_inv x : M E := let! r := try_inv A x in unwrap r.
(* multiplicative_group.rs:84-91, power is the default one;
   MultiplicativeGroup::new(base), multiplicative_group.rs:21-23 *)
Definition MultiplicativeGroup : GroupAlg E :=
  mkGroupAlg
    (mkMonoidAlg multiplicative_domain multiplicative_semigroup
       multiplicative_monoid)
    (mkGroup multiplicative_inv
       (default_gpower cfg (one multiplicative_monoid)
          (mul_assign multiplicative_semigroup)
          (square multiplicative_semigroup) multiplicative_inv)).
End MultiplicativeGroup.

(** ** AbelianGroup (traits.rs:136-162) *)

(* traits.rs:141-143 *)
Definition default_neg_assign (neg : E -> M E) x : M E := neg x.
(* traits.rs:146-150 *)
Definition default_sub (neg : E -> M E) (add_assign : E -> E -> M E) x y : M E :=
  let! elem := neg y in add_assign elem x.
(* traits.rs:153-155 *)
Definition default_sub_assign (neg : E -> M E) (add_assign : E -> E -> M E) x y
  : M E :=
  let! elem := neg y in add_assign x elem.
(* traits.rs:158-161 *)
Definition default_ztimes (cfg : Cfg) (dom : Domain E) (cm : CommMonoid E)
    (neg : E -> M E) (num : Z) x : M E :=
  gpower (additive_group cfg dom cm neg) num x.

(** ** UnitaryRing (traits.rs:170-175) *)

(* traits.rs:172-174 *)
Definition default_int (ztimes : Z -> E -> M E) (one : M E) (num : Z) : M E :=
  let! o := one in ztimes num o.

(** ** IntegralDomain (traits.rs:182-212) *)

(* traits.rs:190-196 *)
Definition default_divisible (is_zero : E -> M bool)
    (try_div : E -> E -> M (option E)) x y : M bool :=
  let! b := is_zero y in
  if b then is_zero x
  else let! r := try_div x y in ret (if r is Some _ then true else false).
(* traits.rs:199-201 *)
Definition default_associates (divisible : E -> E -> M bool) x y : M bool :=
  andM (divisible x y) (divisible y x).

(** ** EuclideanDomain (traits.rs:217-292) *)

(* traits.rs:227-229 *)
Definition default_quo (quo_rem : E -> E -> M (E * E)) x y : M E :=
  let! r := quo_rem x y in ret r.1.
(* traits.rs:234-236 *)
Definition default_rem (quo_rem : E -> E -> M (E * E)) x y : M E :=
  let! r := quo_rem x y in ret r.2.
(* traits.rs:242-244 *)
Definition default_reduced (is_zero : E -> M bool) (quo : E -> E -> M E) x y
  : M bool :=
  orM (is_zero y) (let! q := quo x y in is_zero q).
(* traits.rs:248-257; the state is (elem1, elem2) *)
Definition default_gcd (is_zero : E -> M bool) (rem : E -> E -> M E) x y : M E :=
  let! s := while_loop
    (fun s => notM (is_zero s.2))
    (fun s => let! r := rem s.1 s.2 in ret (s.2, r))
    (x, y) in
  ret s.1.
(* traits.rs:260-267 *)
Definition default_lcm (is_zero : E -> M bool) (mul : E -> E -> M E)
    (quo gcd : E -> E -> M E) x y : M E :=
  let! g := gcd x y in
  let! b := is_zero g in
  if b then ret g
  else let! q := quo x g in mul q y.
(* traits.rs:272-285, one unfolding of the recursion per unit of fuel *)
Fixpoint extended_gcd_fuel (fuel : nat) (is_zero : E -> M bool) (one zero : M E)
    (mul sub : E -> E -> M E) (quo_rem : E -> E -> M (E * E)) x y
  : M (E * E * E) :=
  if fuel is n.+1 then
    let! b := is_zero y in
    if b then
      let! o := one in
      let! z := zero in
      ret (x, o, z)
    else
      let! qr := quo_rem x y in
      let! gxy := extended_gcd_fuel n is_zero one zero mul sub quo_rem y qr.2 in
      let '(g, u, v) := gxy in
      let! vq := mul v qr.1 in
      let! z := sub u vq in
      ret (g, v, z)
  else fun _ => Unfinished.
(* traits.rs:272-285 *)
Definition default_extended_gcd (is_zero : E -> M bool) (one zero : M E)
    (mul sub : E -> E -> M E) (quo_rem : E -> E -> M (E * E)) x y
  : M (E * E * E) :=
  fun k => extended_gcd_fuel k is_zero one zero mul sub quo_rem x y k.
(* traits.rs:288-291 *)
Definition default_relative_primes (invertible : E -> M bool)
    (gcd : E -> E -> M E) x y : M bool :=
  let! g := gcd x y in invertible g.

(** ** Field (traits.rs:299-319) *)

(* traits.rs:306-308; the argument [inv(elem2)] is evaluated before the call *)
Definition default_fdiv (mul : E -> E -> M E) (inv : E -> M E) x y : M E :=
  let! i := inv y in mul x i.
(* traits.rs:311-318 *)
Definition default_fpower (cfg : Cfg) (A : MonoidAlg E) (is_zero : E -> M bool)
    (zero : M E) (num : Z) x : M E :=
  let! b := is_zero x in
  if b then zero else gpower (MultiplicativeGroup cfg A) num x.

(** impl<A: Field> IntegralDomain for A (traits.rs:321-337); divisible and
    associates are the default ones. *)
(* traits.rs:322-324 *)
Definition field_try_div (fdiv : E -> E -> M E) x y : M (option E) :=
  let! r := fdiv x y in ret (Some r).
(* traits.rs:326-332 *)
Definition field_associate_repr (is_zero : E -> M bool) (zero one : M E) x
  : M E :=
  let! b := is_zero x in if b then zero else one.
(* traits.rs:321-337 *)
Definition field_idom (R : RingAlg E) (F : Field E) : IntegralDomain E :=
  let try_div := field_try_div (fdiv F) in
  let divisible := default_divisible (is_zero R) try_div in
  mkIntegralDomain try_div divisible (default_associates divisible)
    (field_associate_repr (is_zero R) (zero R) (one R))
    (finv F).

(** impl<A: Field> EuclideanDomain for A (traits.rs:339-374); extended_gcd and
    relative_primes are the default ones. *)
Section FieldEucl.
Variables (R : RingAlg E) (F : Field E).

(* traits.rs:341, 346, 351 *)
Definition assert_nonzero y : M unit :=
  let! b := is_zero R y in assert (~~ b).
(* traits.rs:340-343 *)
Definition field_quo_rem x y : M (E * E) :=
  do! assert_nonzero y in
  let! q := fdiv F x y in
  let! z := zero R in
  ret (q, z).
(* traits.rs:345-348 *)
Definition field_quo x y : M E :=
  do! assert_nonzero y in fdiv F x y.
(* traits.rs:350-353 *)
Definition field_rem x y : M E :=
  do! assert_nonzero y in zero R.
(* traits.rs:355-357 *)
Definition field_reduced x y : M bool := orM (is_zero R x) (is_zero R y).
(* traits.rs:359-365 *)
Definition field_gcd x y : M E :=
  let! b := andM (is_zero R x) (is_zero R y) in
  if b then zero R else one R.
(* traits.rs:367-373 *)
Definition field_lcm x y : M E :=
  let! b := orM (is_zero R x) (is_zero R y) in
  if b then zero R else one R.
(* traits.rs:339-374 *)
Definition field_eucl : EuclideanDomain E :=
  mkEuclideanDomain field_quo_rem field_quo field_rem field_reduced field_gcd
    field_lcm
    (default_extended_gcd (is_zero R) (one R) (zero R) (mul R) (sub R)
       field_quo_rem)
    (default_relative_primes (invertible R) field_gcd).
End FieldEucl.

(** What [impl Field for A] makes available through the two blanket impls. *)
(* traits.rs:321, 339 *)
Definition field_alg (R : RingAlg E) (F : Field E) : FieldAlg E :=
  mkFieldAlg (mkEuclAlg (mkIDomAlg R (field_idom R F)) (field_eucl R F)) F.

(** ** PartialOrder (traits.rs:379-395) *)

(* traits.rs:386-388 *)
Definition default_less_than (equals leq : E -> E -> M bool) x y : M bool :=
  andM (notM (equals x y)) (leq x y).
(* traits.rs:392-394 *)
Definition default_comparable (leq : E -> E -> M bool) x y : M bool :=
  orM (leq x y) (leq y x).

End Defaults.
