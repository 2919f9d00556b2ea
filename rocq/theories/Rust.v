(** * Rust.v -- the fragment of Rust that the model of abstalg-rs is written in.

    Nothing in this file models a particular function of /repo: it fixes what a
    Rust call can do (return, panic, or still be running), what the machine
    integer primitives do, and how [Vec] accesses and loops behave.  The files
    [Traits.v], [M*.v] use it to transcribe /repo/src function by function. *)

From Coq Require Import ZArith.
From mathcomp Require Import all_ssreflect.

Set Implicit Arguments.
Unset Strict Implicit.
Unset Printing Implicit Defensive.

(** ** Outcomes *)

(** The outcome of a Rust call observed after a bounded amount of looping. *)
Inductive outcome (A : Type) : Type :=
| Done (a : A)       (* the call returned [a] *)
| Panicked           (* the call panicked: assert!, unwrap, index out of bounds,
                        arithmetic overflow with overflow checks on, ... *)
| Unfinished.        (* still looping when the allowed number of loop/recursion
                        steps was used up *)
Arguments Panicked {A}.
Arguments Unfinished {A}.

(** A call, as a function of the number of iterations that every unbounded
    loop ([while]) or recursion inside it is allowed to make.  The number is
    an observation bound, not part of the program: all theorems speak about the
    behaviour for all sufficiently large bounds ([returns], [panics] below). *)
Definition M (A : Type) : Type := nat -> outcome A.

Definition ret {A} (a : A) : M A := fun _ => Done a.
Definition panic {A} : M A := fun _ => Panicked.
Definition bind {A B} (m : M A) (f : A -> M B) : M B :=
  fun k => match m k with
           | Done a => f a k
           | Panicked => Panicked
           | Unfinished => Unfinished
           end.

Declare Scope rust_scope.
Delimit Scope rust_scope with rust.
Notation "'let!' x := m 'in' k" := (bind m (fun x => k))
  (at level 200, x pattern, m at level 100, k at level 200,
   format "'[v' 'let!'  x  :=  m  'in' '/' k ']'") : rust_scope.
Notation "'do!' m 'in' k" := (bind m (fun _ => k))
  (at level 200, m at level 100, k at level 200,
   format "'[v' 'do!'  m  'in' '/' k ']'") : rust_scope.
Open Scope rust_scope.

(** [returns m v]: the call [m] terminates normally with result [v].
    [panics m]: the call [m] terminates by panicking.
    [diverges m]: the call [m] never terminates. *)
Definition returns {A} (m : M A) (v : A) : Prop :=
  exists n : nat, forall k, n <= k -> m k = Done v.
Definition panics {A} (m : M A) : Prop :=
  exists n : nat, forall k, n <= k -> m k = Panicked.
Definition diverges {A} (m : M A) : Prop := forall k, m k = Unfinished.

(** [ensures P m Q]: the call [m] terminates; it either returns a value
    satisfying [Q], or [P] holds and it panics.  [ensures False m Q] is total
    correctness without panics; [ensures True m Q] is "never a wrong answer,
    never an endless loop, but it may panic". *)
Definition ensures {A} (P : Prop) (m : M A) (Q : A -> Prop) : Prop :=
  (exists v, returns m v /\ Q v) \/ (P /\ panics m).

(** ** Assertions and Option *)

Definition assert (b : bool) : M unit := if b then ret tt else panic.
Definition unwrap {A} (o : option A) : M A :=
  if o is Some a then ret a else panic.

(** Short-circuiting [&&] and [||]. *)
Definition andM (m1 m2 : M bool) : M bool :=
  let! b := m1 in if b then m2 else ret false.
Definition orM (m1 m2 : M bool) : M bool :=
  let! b := m1 in if b then ret true else m2.
Definition notM (m : M bool) : M bool := let! b := m in ret (~~ b).

(** ** Compilation profile and machine integers *)

(** What a Rust build fixes: whether plain [+ - *] on integers panic on
    overflow (debug default) or wrap (release default), whether
    [debug_assert!] is compiled in, and the width of [isize]/[usize]. *)
Record Cfg := mkCfg {
  overflow_checks : bool;
  debug_assertions : bool;
  ptr_bits : Z
}.

Definition debug_assert (cfg : Cfg) (b : M bool) : M unit :=
  if debug_assertions cfg then let! v := b in assert v else ret tt.

(** Ranges of the signed and unsigned [w]-bit types. *)
Definition imin (w : Z) : Z := (- 2 ^ (w - 1))%Z.
Definition imax (w : Z) : Z := (2 ^ (w - 1) - 1)%Z.
Definition umax (w : Z) : Z := (2 ^ w - 1)%Z.
Definition in_i (w z : Z) : bool := ((imin w <=? z) && (z <=? imax w))%Z.
Definition in_u (w z : Z) : bool := ((0 <=? z) && (z <=? umax w))%Z.

(** Two's complement reduction to the signed [w]-bit range. *)
Definition wrap_i (w z : Z) : Z :=
  ((z + 2 ^ (w - 1)) mod 2 ^ w - 2 ^ (w - 1))%Z.

(** The value of an unchecked arithmetic expression ([+], [-], [*], unary [-])
    on a signed [w]-bit type whose mathematical value is [z]. *)
Definition prim_i (cfg : Cfg) (w z : Z) : M Z :=
  if in_i w z then ret z
  else if overflow_checks cfg then panic
  else ret (wrap_i w z).

(** [checked_add] and friends on signed and unsigned [w]-bit types. *)
Definition checked_i (w z : Z) : option Z := if in_i w z then Some z else None.
Definition checked_u (w z : Z) : option Z := if in_u w z then Some z else None.

(** [checked_div] on a signed [w]-bit type: truncated division, [None] for a
    zero divisor and for MIN / -1 (whose quotient does not fit). *)
Definition checked_div_i (w a b : Z) : option Z :=
  if (b =? 0)%Z then None else checked_i w (Z.quot a b).

(** Ranges of [isize] and [usize]. *)
Definition is_isize (cfg : Cfg) (n : Z) : bool := in_i (ptr_bits cfg) n.
Definition is_usize (cfg : Cfg) (n : Z) : bool := in_u (ptr_bits cfg) n.

(** ** Vec

    [Vec<E>] is a list, [usize] lengths and indices are [nat].  Simplification:
    lengths are not bounded by [usize::MAX] (a Vec holds at most [isize::MAX]
    bytes, so the sums of two lengths computed by the code do not wrap). *)

(** [v[i]] *)
Definition vget {E} (v : seq E) (i : nat) : M E :=
  if drop i v is x :: _ then ret x else panic.
(** [v[i] = x] *)
Definition vset {E} (v : seq E) (i : nat) (x : E) : M (seq E) :=
  if i < size v then ret (take i v ++ x :: drop i.+1 v) else panic.
(** [v.resize(n, x)] *)
Definition vresize {E} (v : seq E) (n : nat) (x : E) : seq E :=
  take n v ++ nseq (n - size v) x.
(** [v.swap(i, j)]: panics if an index is out of bounds. *)
Definition vswap {E} (v : seq E) (i j : nat) : M (seq E) :=
  let! x := vget v i in
  let! y := vget v j in
  let! v1 := vset v i y in
  vset v1 j x.

(** ** Iterators *)

(** [iter().map(f).collect()] *)
Fixpoint mapM {A B} (f : A -> M B) (s : seq A) : M (seq B) :=
  if s is x :: s' then
    let! y := f x in
    let! ys := mapM f s' in
    ret (y :: ys)
  else ret [::].
(** [a.iter().zip(b.iter()).map(f).collect()]: stops with the shorter one. *)
Fixpoint map2M {A B C} (f : A -> B -> M C) (s : seq A) (t : seq B) : M (seq C) :=
  match s, t with
  | x :: s', y :: t' =>
      let! z := f x y in
      let! zs := map2M f s' t' in
      ret (z :: zs)
  | _, _ => ret [::]
  end.
(** [iter().all(f)], short-circuiting. *)
Fixpoint allM {A} (f : A -> M bool) (s : seq A) : M bool :=
  if s is x :: s' then andM (f x) (allM f s') else ret true.
(** [a.iter().zip(b.iter()).all(f)], short-circuiting. *)
Fixpoint all2M {A B} (f : A -> B -> M bool) (s : seq A) (t : seq B) : M bool :=
  match s, t with
  | x :: s', y :: t' => andM (f x y) (all2M f s' t')
  | _, _ => ret true
  end.

(** ** Loops *)

(** [for i in lo..lo+cnt { body }] *)
Fixpoint for_loop {S} (lo cnt : nat) (body : nat -> S -> M S) (s : S) : M S :=
  if cnt is c.+1 then
    let! s' := body lo s in
    for_loop lo.+1 c body s'
  else ret s.
(** [for i in (0..cnt).rev() { body }] *)
Fixpoint for_rev {S} (cnt : nat) (body : nat -> S -> M S) (s : S) : M S :=
  if cnt is c.+1 then
    let! s' := body c s in
    for_rev c body s'
  else ret s.
(** Loops whose body may [return] (or propagate with [?]) early: [inr r] leaves
    the loop with the function result [r]. *)
Fixpoint for_loop_ret {S R} (lo cnt : nat) (body : nat -> S -> M (S + R)) (s : S)
  : M (S + R) :=
  if cnt is c.+1 then
    let! x := body lo s in
    match x with
    | inl s' => for_loop_ret lo.+1 c body s'
    | inr r => ret (inr r)
    end
  else ret (inl s).
Fixpoint for_rev_ret {S R} (cnt : nat) (body : nat -> S -> M (S + R)) (s : S)
  : M (S + R) :=
  if cnt is c.+1 then
    let! x := body c s in
    match x with
    | inl s' => for_rev_ret c body s'
    | inr r => ret (inr r)
    end
  else ret (inl s).
(** [(lo..lo+cnt).find(f)] *)
Fixpoint findM (lo cnt : nat) (f : nat -> M bool) : M (option nat) :=
  if cnt is c.+1 then
    let! b := f lo in
    if b then ret (Some lo) else findM lo.+1 c f
  else ret None.

(** [while cond { body }] *)
Fixpoint while_fuel {S} (fuel : nat) (cond : S -> M bool) (body : S -> M S)
    (s : S) : M S :=
  if fuel is n.+1 then
    let! b := cond s in
    if b then
      let! s' := body s in
      while_fuel n cond body s'
    else ret s
  else fun _ => Unfinished.
Definition while_loop {S} (cond : S -> M bool) (body : S -> M S) (s : S) : M S :=
  fun k => while_fuel k cond body s k.
