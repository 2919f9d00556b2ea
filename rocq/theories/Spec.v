(** * Spec.v -- the contracts of the traits, stated against mathcomp's algebra.

    [rep x v] reads "the Rust value [x] is a member of the algebra and denotes
    the mathematical value [v]".  Each contract says that every method of the
    trait, called on members, terminates and returns members denoting the
    mathematically prescribed result, or, if [p] holds, panics ([p := False]: no
    panic; [p := True]: a panic is allowed, a wrong result or an endless loop is
    not).  Documented panics (division by zero) are separate fields.

    This file does not mention any implementation: only the trait records of
    Traits.v, [ensures]/[panics] of Rust.v and mathcomp. *)

From Coq Require Import ZArith.
From mathcomp Require Import all_ssreflect all_algebra.
From Verif Require Import Rust Traits.

Set Implicit Arguments.
Unset Strict Implicit.
Unset Printing Implicit Defensive.

Import GRing.Theory.
Local Open Scope ring_scope.

(** ** Mathematical vocabulary *)

(** [npow op e v n]: [v op (v op (... e))], [n] times; [zpow] with the inverse
    for negative exponents. *)
Definition npow {V : Type} (op : V -> V -> V) (e v : V) (n : nat) : V :=
  iter n (op v) e.
Definition zpow {V : Type} (op : V -> V -> V) (e : V) (inv : V -> V) (v : V) (n : Z)
  : V :=
  match n with
  | Z0 => e
  | Zpos k => npow op e v (Pos.to_nat k)
  | Zneg k => npow op e (inv v) (Pos.to_nat k)
  end.
(** Integer multiple in an abelian group, integer power in a field. *)
Definition zmul {V : zmodType} (v : V) (n : Z) : V :=
  match n with
  | Z0 => 0
  | Zpos k => v *+ Pos.to_nat k
  | Zneg k => - (v *+ Pos.to_nat k)
  end.
Definition zexp {F : fieldType} (v : F) (n : Z) : F :=
  match n with
  | Z0 => 1
  | Zpos k => v ^+ Pos.to_nat k
  | Zneg k => (v ^+ Pos.to_nat k)^-1
  end.

Definition inverse_of {V : Type} (op : V -> V -> V) (e u v : V) : Prop :=
  op u v = e /\ op v u = e.

(** Divisibility, greatest common divisors, least common multiples. *)
Definition dvds {R : comRingType} (a b : R) : Prop := exists c, b = c * a.
Definition is_gcd {R : comRingType} (a b d : R) : Prop :=
  [/\ dvds d a, dvds d b & forall c, dvds c a -> dvds c b -> dvds c d].
Definition is_lcm {R : comRingType} (a b m : R) : Prop :=
  [/\ dvds a m, dvds b m & forall c, dvds a c -> dvds b c -> dvds m c].
Definition coprime_to {R : comRingType} (a b : R) : Prop :=
  exists s t : R, s * a + t * b = 1.

(** A choice of associate representatives: multiplying [a] by the unit [acoef a]
    gives the representative of [a]. *)
Record assoc_struct (R : idomainType) := AssocStruct {
  acoef : R -> R;
  acoef_unit : forall a, a != 0 -> acoef a \is a GRing.unit;
  acoef_mul : forall u a, u \is a GRing.unit -> a != 0 ->
    acoef (u * a) * u = acoef a;
  acoef1 : acoef 1 = 1
}.
Definition arep {R : idomainType} (S : assoc_struct R) (a : R) : R :=
  if a == 0 then 0 else acoef S a * a.

(** A Euclidean division with canonical remainders. *)
Record eucl_struct (R : idomainType) := EuclStruct {
  equo : R -> R -> R;
  erem : R -> R -> R;
  enorm : R -> nat;
  e_div : forall a b, b != 0 -> a = equo a b * b + erem a b;
  e_norm : forall a b, b != 0 -> erem a b != 0 -> (enorm (erem a b) < enorm b)%N;
  e_canon : forall a b c, b != 0 -> erem (a + c * b) b = erem a b;
  e_rem0 : forall b, b != 0 -> erem 0 b = 0;
  e_rem1 : forall b, b != 0 -> b \isn't a GRing.unit -> erem 1 b = 1
}.

(** Orders. *)
Definition is_glb {V : Type} (le : V -> V -> bool) (a b c : V) : Prop :=
  [/\ le c a, le c b & forall d, le d a -> le d b -> le d c].
Definition is_lub {V : Type} (le : V -> V -> bool) (a b c : V) : Prop :=
  [/\ le a c, le b c & forall d, le a d -> le b d -> le c d].

(** ** Contracts of the single traits *)

Section Contracts.
Variables (cfg : Cfg) (p : Prop) (E : Type).

(** The multipliers for which [times] and [power] are specified: all of [isize]
    but [isize::MIN]. *)
Definition good_isize (n : Z) : Prop :=
  is_isize cfg n /\ n <> imin (ptr_bits cfg).

Section Generic.
Variables (V : eqType) (rep : E -> V -> Prop).

(** [gives m v]: the call [m] returns a member denoting [v] (or panics, if
    acceptable). *)
Definition gives (m : M E) (v : V) : Prop := ensures p m (fun x => rep x v).
(** [answers m b]: the call [m] returns the truth value [b] (or panics). *)
Definition answers (m : M bool) (b : bool) : Prop := ensures p m (fun r => r = b).
(** [decides m P]: the call [m] returns true iff [P] (or panics). *)
Definition decides (m : M bool) (P : Prop) : Prop := ensures p m (fun r => r <-> P).

Record domain_spec (A : Domain E) : Prop := {
  dom_fun : forall x u v, rep x u -> rep x v -> u = v;
  contains_ok : forall x v, rep x v -> answers (contains A x) true;
  equals_ok : forall x u y v, rep x u -> rep y v -> answers (equals A x y) (u == v)
}.
(** [contains] also rejects everything else. *)
Definition contains_exact (A : Domain E) : Prop :=
  forall x, decides (contains A x) (exists v, rep x v).

Section Mult.
Variables (op : V -> V -> V) (e : V).

Record semigroup_spec (A : Semigroup E) : Prop := {
  mul_ok : forall x u y v, rep x u -> rep y v -> gives (mul A x y) (op u v);
  mul_assign_ok : forall x u y v, rep x u -> rep y v ->
    gives (mul_assign A x y) (op u v);
  square_ok : forall x u, rep x u -> gives (square A x) (op u u)
}.

Record monoid_spec (A : Monoid E) : Prop := {
  one_ok : gives (one A) e;
  is_one_ok : forall x u, rep x u -> answers (is_one A x) (u == e);
  try_inv_ok : forall x u, rep x u -> ensures p (try_inv A x) (fun o =>
    match o with
    | Some y => exists2 v, rep y v & inverse_of op e u v
    | None => forall v, ~ inverse_of op e u v
    end);
  invertible_ok : forall x u, rep x u ->
    decides (invertible A x) (exists v, inverse_of op e u v)
}.

Record group_spec (inv : V -> V) (A : Group E) : Prop := {
  ginv_ok : forall x u, rep x u -> gives (ginv A x) (inv u);
  gpower_ok : forall n x u, good_isize n -> rep x u ->
    gives (gpower A n x) (zpow op e inv u n)
}.

Record cmonoid_spec (A : CommMonoid E) : Prop := {
  zero_ok : gives (zero A) e;
  is_zero_ok : forall x u, rep x u -> answers (is_zero A x) (u == e);
  add_ok : forall x u y v, rep x u -> rep y v -> gives (add A x y) (op u v);
  add_assign_ok : forall x u y v, rep x u -> rep y v ->
    gives (add_assign A x y) (op u v);
  double_ok : forall x u, rep x u -> gives (double A x) (op u u);
  ntimes_ok : forall n x u, Z.le Z0 n -> rep x u ->
    gives (ntimes A n x) (npow op e u (Z.to_nat n))
}.
End Mult.

Section Order.
Variable le : rel V.
Record order_spec (A : PartialOrder E) : Prop := {
  leq_ok : forall x u y v, rep x u -> rep y v -> answers (leq A x y) (le u v);
  less_than_ok : forall x u y v, rep x u -> rep y v ->
    answers (less_than A x y) ((u != v) && le u v);
  comparable_ok : forall x u y v, rep x u -> rep y v ->
    answers (comparable A x y) (le u v || le v u)
}.
(** The order is a partial order on what is represented. *)
Record order_laws : Prop := {
  le_refl : forall u, le u u;
  le_trans : forall u v w, le u v -> le v w -> le u w;
  le_anti : forall x u y v, rep x u -> rep y v -> le u v -> le v u -> u = v
}.
Record bounded_spec (top bot : V) (A : BoundedOrder E) : Prop := {
  omax_ok : gives (omax A) top;
  omin_ok : gives (omin A) bot;
  top_ok : forall x u, rep x u -> le u top;
  bot_ok : forall x u, rep x u -> le bot u
}.
Record lattice_spec (A : Lattice E) : Prop := {
  meet_ok : forall x u y v, rep x u -> rep y v ->
    ensures p (meet A x y) (fun z => exists2 w, rep z w & is_glb le u v w);
  join_ok : forall x u y v, rep x u -> rep y v ->
    ensures p (join A x y) (fun z => exists2 w, rep z w & is_lub le u v w)
}.
Record boolean_spec (top bot : V) (A : BooleanAlgebra E) : Prop := {
  bnot_ok : forall x u, rep x u ->
    ensures p (bnot A x) (fun z => exists2 w, rep z w &
      is_glb le u w bot /\ is_lub le u w top)
}.
End Order.
End Generic.

Record abelian_spec (V : zmodType) (rep : E -> V -> Prop) (A : AbelianGroup E)
  : Prop := {
  neg_ok : forall x u, rep x u -> gives rep (neg A x) (- u);
  neg_assign_ok : forall x u, rep x u -> gives rep (neg_assign A x) (- u);
  sub_ok : forall x u y v, rep x u -> rep y v -> gives rep (sub A x y) (u - v);
  sub_assign_ok : forall x u y v, rep x u -> rep y v ->
    gives rep (sub_assign A x y) (u - v);
  ztimes_ok : forall n x u, good_isize n -> rep x u ->
    gives rep (ztimes A n x) (zmul u n)
}.

Record unitary_spec (V : zmodType) (rep : E -> V -> Prop) (e : V) (A : UnitaryRing E)
  : Prop := {
  int_ok : forall n, good_isize n -> gives rep (int A n) (zmul e n)
}.

Section Domains.
Variables (R : idomainType) (rep : E -> R -> Prop).

Record idom_spec (S : assoc_struct R) (A : IntegralDomain E) : Prop := {
  try_div_ok : forall x a y b, rep x a -> rep y b -> b != 0 ->
    ensures p (try_div A x y) (fun o =>
      match o with
      | Some z => exists2 c, rep z c & a = c * b
      | None => ~ dvds b a
      end);
  try_div_zero : forall x a y, rep x a -> rep y 0 -> panics (try_div A x y);
  divisible_ok : forall x a y b, rep x a -> rep y b ->
    decides (divisible A x y) (dvds b a);
  associates_ok : forall x a y b, rep x a -> rep y b ->
    decides (associates A x y) (dvds a b /\ dvds b a);
  associate_repr_ok : forall x a, rep x a -> gives rep (associate_repr A x) (arep S a);
  associate_coef_ok : forall x a, rep x a -> a != 0 ->
    gives rep (associate_coef A x) (acoef S a);
  associate_coef_zero : forall x, rep x 0 -> panics (associate_coef A x)
}.

Record eucl_spec (S : eucl_struct R) (A : EuclideanDomain E) : Prop := {
  quo_rem_ok : forall x a y b, rep x a -> rep y b -> b != 0 ->
    ensures p (quo_rem A x y)
      (fun z => rep z.1 (equo S a b) /\ rep z.2 (erem S a b));
  quo_ok : forall x a y b, rep x a -> rep y b -> b != 0 ->
    gives rep (quo A x y) (equo S a b);
  rem_ok : forall x a y b, rep x a -> rep y b -> b != 0 ->
    gives rep (rem A x y) (erem S a b);
  quo_rem_zero : forall x a y, rep x a -> rep y 0 -> panics (quo_rem A x y);
  quo_zero : forall x a y, rep x a -> rep y 0 -> panics (quo A x y);
  rem_zero : forall x a y, rep x a -> rep y 0 -> panics (rem A x y);
  reduced_ok : forall x a y b, rep x a -> rep y b ->
    answers (reduced A x y) ((b == 0) || (erem S a b == a));
  gcd_ok : forall x a y b, rep x a -> rep y b ->
    ensures p (gcd A x y) (fun z => exists2 d, rep z d & is_gcd a b d);
  lcm_ok : forall x a y b, rep x a -> rep y b ->
    ensures p (lcm A x y) (fun z => exists2 m, rep z m & is_lcm a b m);
  extended_gcd_ok : forall x a y b, rep x a -> rep y b ->
    ensures p (extended_gcd A x y) (fun z => exists d s t,
      [/\ rep z.1.1 d, rep z.1.2 s & rep z.2 t] /\
      d = s * a + t * b /\ is_gcd a b d);
  relative_primes_ok : forall x a y b, rep x a -> rep y b ->
    decides (relative_primes A x y) (coprime_to a b)
}.
End Domains.

Record field_spec (F : fieldType) (rep : E -> F -> Prop) (A : Field E) : Prop := {
  finv_ok : forall x a, rep x a -> a != 0 -> gives rep (finv A x) (a^-1);
  finv_zero : forall x, rep x 0 -> panics (finv A x);
  fdiv_ok : forall x a y b, rep x a -> rep y b -> b != 0 ->
    gives rep (fdiv A x y) (a / b);
  fdiv_zero : forall x a y, rep x a -> rep y 0 -> panics (fdiv A x y);
  fpower_ok : forall n x a, good_isize n -> rep x a -> a != 0 ->
    gives rep (fpower A n x) (zexp a n);
  (* the code returns zero here for every n, see C37 *)
  fpower_zero : forall n x, rep x 0 -> gives rep (fpower A n x) 0
}.

(** ** Contracts of trait bounds [A: Trait] *)

Record monoid_alg_spec (V : eqType) (rep : E -> V -> Prop) op e (A : MonoidAlg E)
  : Prop := {
  mo_dom_ok : domain_spec rep A;
  mo_sg_ok : semigroup_spec rep op A;
  mo_mo_ok : monoid_spec rep op e A
}.

Record group_alg_spec (V : eqType) (rep : E -> V -> Prop) op e inv (A : GroupAlg E)
  : Prop := {
  gr_mon_ok : monoid_alg_spec rep op e A;
  gr_gr_ok : group_spec rep op e inv A
}.

Record semiring_alg_spec (V : eqType) (rep : E -> V -> Prop) op e plus zero
    (A : SemiRingAlg E) : Prop := {
  sr_mon_ok : monoid_alg_spec rep op e A;
  sr_cm_ok : cmonoid_spec rep plus zero A
}.

Record abelian_alg_spec (V : zmodType) (rep : E -> V -> Prop) (A : AbelianAlg E)
  : Prop := {
  ab_dom_ok : domain_spec rep A;
  ab_cm_ok : cmonoid_spec rep +%R 0 A;
  ab_ab_ok : abelian_spec rep A
}.

(** A unitary ring whose additive group is [V], with product [op], unit [e]. *)
Record ring_alg_spec (V : zmodType) (rep : E -> V -> Prop) op e (A : RingAlg E)
  : Prop := {
  ri_mon_ok : monoid_alg_spec rep op e A;
  ri_cm_ok : cmonoid_spec rep +%R 0 A;
  ri_ab_ok : abelian_spec rep A;
  ri_ur_ok : unitary_spec rep e A
}.

Record idom_alg_spec (R : idomainType) (rep : E -> R -> Prop) (S : assoc_struct R)
    (A : IDomAlg E) : Prop := {
  id_ring_ok : ring_alg_spec rep *%R 1 A;
  id_id_ok : idom_spec rep S A
}.

Record eucl_alg_spec (R : idomainType) (rep : E -> R -> Prop) (S : assoc_struct R)
    (T : eucl_struct R) (A : EuclAlg E) : Prop := {
  eu_idom_ok : idom_alg_spec rep S A;
  eu_eu_ok : eucl_spec rep T A
}.

Section FieldStructs.
Variable F : fieldType.
Lemma field_acoef_unit (a : F) : a != 0 -> a^-1 \is a GRing.unit.
Proof. by move=> a0; rewrite unitfE invr_eq0. Qed.
Lemma field_acoef_mul (u a : F) : u \is a GRing.unit -> a != 0 ->
  (u * a)^-1 * u = a^-1.
Proof. by rewrite unitfE => u0 a0; rewrite invfM mulrAC mulVf // mul1r. Qed.
(** In a field the representatives are 0 and 1, and all remainders are 0. *)
Definition field_assoc : assoc_struct F :=
  @AssocStruct F (fun a => a^-1) field_acoef_unit field_acoef_mul (invr1 _).
Lemma field_e_div (a b : F) : b != 0 -> a = a / b * b + 0.
Proof. by move=> b0; rewrite addr0 divfK. Qed.
Lemma field_e_rem1 (b : F) : b != 0 -> b \isn't a GRing.unit -> 0 = 1 :> F.
Proof. by rewrite unitfE => ->. Qed.
Definition field_estruct : eucl_struct F :=
  @EuclStruct F (fun a b => a / b) (fun _ _ => 0) (fun _ => 0%N) field_e_div
    (fun a b _ h => False_ind _ (negP h (eqxx 0)))
    (fun _ _ _ _ => erefl) (fun _ _ => erefl) field_e_rem1.
End FieldStructs.

Record field_alg_spec (F : fieldType) (rep : E -> F -> Prop) (A : FieldAlg E)
  : Prop := {
  fi_eucl_ok : eucl_alg_spec rep (field_assoc F) (field_estruct F) A;
  fi_fi_ok : field_spec rep A
}.

Record order_alg_spec (V : eqType) (rep : E -> V -> Prop) (le : rel V)
    (A : OrderAlg E) : Prop := {
  or_dom_ok : domain_spec rep A;
  or_or_ok : order_spec rep le A;
  or_laws : order_laws rep le
}.

Record bounded_alg_spec (V : eqType) (rep : E -> V -> Prop) (le : rel V) top bot
    (A : BoundedAlg E) : Prop := {
  bo_or_ok : order_alg_spec rep le A;
  bo_bo_ok : bounded_spec rep le top bot A
}.

Record lattice_alg_spec (V : eqType) (rep : E -> V -> Prop) (le : rel V)
    (A : LatticeAlg E) : Prop := {
  la_or_ok : order_alg_spec rep le A;
  la_la_ok : lattice_spec rep le A
}.

Record boolean_alg_spec (V : eqType) (rep : E -> V -> Prop) (le : rel V) top bot
    (A : BooleanAlg E) : Prop := {
  ba_la_ok : lattice_alg_spec rep le A;
  ba_bo_ok : bounded_spec rep le top bot A;
  ba_ba_ok : boolean_spec rep le top bot A
}.
End Contracts.
