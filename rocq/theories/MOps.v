(** * MOps.v -- the loops once more, with a record of the methods of the base that they call.

    The definitions repeat those of Traits.v and MConstr.v; each call of a method of the base is
    labelled, and the labels of a call are collected in the order of the calls. POps.v proves
    that forgetting the labels gives the definitions of Traits.v and MConstr.v. *)

From Coq Require Import ZArith.
From mathcomp Require Import all_ssreflect.
From Verif Require Import Rust Traits MConstr.

Set Implicit Arguments.
Unset Strict Implicit.
Unset Printing Implicit Defensive.

(** [Mul]: mul, mul_assign; [Add]: add, add_assign; [Inv]: inv, div, try_div, try_inv;
    [Test]: is_zero, is_one, equals; [Const]: zero, one, int; [Div]: quo_rem, rem. *)
Inductive op := Mul | Square | Add | Double | Neg | Sub | Inv | Div | Test | Const.

(** A call together with the methods of the base that it has called. *)
Definition W (A : Type) : Type := M (A * seq op).
Definition wret {A} (a : A) : W A := ret (a, [::]).
Definition wbind {A B} (m : W A) (f : A -> W B) : W B :=
  let! x := m in let! y := f x.1 in ret (y.1, x.2 ++ y.2).
(** A method of the base *)
Definition call {A} (o : op) (m : M A) : W A := let! a := m in ret (a, [:: o]).
(** Everything else: indexing, assertions *)
Definition free {A} (m : M A) : W A := let! a := m in ret (a, [::]).

Notation "'let#' x := m 'in' k" := (wbind m (fun x => k))
  (at level 200, x pattern, m at level 100, k at level 200,
   format "'[v' 'let#'  x  :=  m  'in' '/' k ']'") : rust_scope.
Notation "'do#' m 'in' k" := (wbind m (fun _ => k))
  (at level 200, m at level 100, k at level 200,
   format "'[v' 'do#'  m  'in' '/' k ']'") : rust_scope.

(** ** Iterators and loops, see Rust.v *)
Definition w_not (m : W bool) : W bool := let# b := m in wret (~~ b).
Definition w_and (m1 m2 : W bool) : W bool := let# b := m1 in if b then m2 else wret false.
Fixpoint w_map {A B} (f : A -> W B) (s : seq A) : W (seq B) :=
  if s is x :: s' then
    let# y := f x in
    let# ys := w_map f s' in
    wret (y :: ys)
  else wret [::].
Fixpoint w_map2 {A B C} (f : A -> B -> W C) (s : seq A) (t : seq B) : W (seq C) :=
  match s, t with
  | x :: s', y :: t' =>
      let# z := f x y in
      let# zs := w_map2 f s' t' in
      wret (z :: zs)
  | _, _ => wret [::]
  end.
Fixpoint w_all {A} (f : A -> W bool) (s : seq A) : W bool :=
  if s is x :: s' then w_and (f x) (w_all f s') else wret true.
Fixpoint w_all2 {A B} (f : A -> B -> W bool) (s : seq A) (t : seq B) : W bool :=
  match s, t with
  | x :: s', y :: t' => w_and (f x y) (w_all2 f s' t')
  | _, _ => wret true
  end.
Fixpoint w_for {S} (lo cnt : nat) (body : nat -> S -> W S) (s : S) : W S :=
  if cnt is c.+1 then
    let# s' := body lo s in
    w_for lo.+1 c body s'
  else wret s.
Fixpoint w_for_rev {S} (cnt : nat) (body : nat -> S -> W S) (s : S) : W S :=
  if cnt is c.+1 then
    let# s' := body c s in
    w_for_rev c body s'
  else wret s.
Fixpoint w_for_ret {S R} (lo cnt : nat) (body : nat -> S -> W (S + R)) (s : S) : W (S + R) :=
  if cnt is c.+1 then
    let# x := body lo s in
    match x with
    | inl s' => w_for_ret lo.+1 c body s'
    | inr r => wret (inr r)
    end
  else wret (inl s).
Fixpoint w_for_rev_ret {S R} (cnt : nat) (body : nat -> S -> W (S + R)) (s : S) : W (S + R) :=
  if cnt is c.+1 then
    let# x := body c s in
    match x with
    | inl s' => w_for_rev_ret c body s'
    | inr r => wret (inr r)
    end
  else wret (inl s).
Fixpoint w_find (lo cnt : nat) (f : nat -> W bool) : W (option nat) :=
  if cnt is c.+1 then
    let# b := f lo in
    if b then wret (Some lo) else w_find lo.+1 c f
  else wret None.
Fixpoint w_while_fuel {S} (fuel : nat) (cond : S -> W bool) (body : S -> W S) (s : S) : W S :=
  if fuel is n.+1 then
    let# b := cond s in
    if b then
      let# s' := body s in
      w_while_fuel n cond body s'
    else wret s
  else fun _ => Unfinished.
Definition w_while {S} (cond : S -> W bool) (body : S -> W S) (s : S) : W S :=
  fun k => w_while_fuel k cond body s k.

(** ** The default methods of the traits *)
Section Defaults.
Variable E : Type.
Implicit Types x y : E.

(* traits.rs:92-98 and traits.rs:123-129; [o] is the label of [op_assign], [d] that of [dbl] *)
Definition w_power_loop (o d : op) (op_assign : E -> E -> M E) (dbl : E -> M E)
    (num : Z) (elem res : E) : W (Z * E * E) :=
  w_while
    (fun s => let '(num, elem, res) := s in wret (num >? 0)%Z)
    (fun s => let '(num, elem, res) := s in
       let# res := (if (Z.rem num 2 =? 0)%Z then wret res
                    else call o (op_assign res elem)) in
       let num := Z.quot num 2 in
       let# elem := call d (dbl elem) in
       wret (num, elem, res))
    (num, elem, res).
(* traits.rs:89-100 *)
Definition w_ntimes (zero : M E) (add_assign : E -> E -> M E) (double : E -> M E)
    (num : Z) x : W E :=
  let# res := call Const zero in
  let# s := w_power_loop Add Double add_assign double num x res in
  wret s.2.
(* traits.rs:114-131 *)
Definition w_gpower (cfg : Cfg) (one : M E) (mul_assign : E -> E -> M E)
    (square : E -> M E) (inv : E -> M E) (num : Z) x : W E :=
  let# ne := (if (num <? 0)%Z then
                let# num := free (prim_i cfg (ptr_bits cfg) (- num)%Z) in
                let# elem := call Inv (inv x) in
                wret (num, elem)
              else wret (num, x)) in
  let# res := call Const one in
  let# s := w_power_loop Mul Square mul_assign square ne.1 ne.2 res in
  wret s.2.
(* traits.rs:248-257 *)
Definition w_gcd (is_zero : E -> M bool) (rem : E -> E -> M E) x y : W E :=
  let# s := w_while
    (fun s => w_not (call Test (is_zero s.2)))
    (fun s => let# r := call Div (rem s.1 s.2) in wret (s.2, r))
    (x, y) in
  wret s.1.
(* traits.rs:272-285 *)
Fixpoint w_extended_gcd_fuel (fuel : nat) (is_zero : E -> M bool) (one zero : M E)
    (mul sub : E -> E -> M E) (quo_rem : E -> E -> M (E * E)) x y : W (E * E * E) :=
  if fuel is n.+1 then
    let# b := call Test (is_zero y) in
    if b then
      let# o := call Const one in
      let# z := call Const zero in
      wret (x, o, z)
    else
      let# qr := call Div (quo_rem x y) in
      let# gxy := w_extended_gcd_fuel n is_zero one zero mul sub quo_rem y qr.2 in
      let '(g, u, v) := gxy in
      let# vq := call Mul (mul v qr.1) in
      let# z := call Sub (sub u vq) in
      wret (g, v, z)
  else fun _ => Unfinished.
Definition w_extended_gcd (is_zero : E -> M bool) (one zero : M E) (mul sub : E -> E -> M E)
    (quo_rem : E -> E -> M (E * E)) x y : W (E * E * E) :=
  fun k => w_extended_gcd_fuel k is_zero one zero mul sub quo_rem x y k.
End Defaults.

(** ** VectorAlgebra: one call per entry *)
Section Vectors.
Variables (E : Type) (len : nat).
(* vector_algebra.rs:67-92, 136-202: the methods with one and two arguments *)
Definition w_vector1 (o : op) (f : E -> M E) (v : seq E) : W (seq E) :=
  do# free (assert_len1 len v) in w_map (fun x => call o (f x)) v.
Definition w_vector2 (o : op) (f : E -> E -> M E) (v u : seq E) : W (seq E) :=
  do# free (assert_len2 len v u) in w_map2 (fun x y => call o (f x y)) v u.
End Vectors.

(** ** PolynomialAlgebra *)
Section Poly.
Variable E : Type.
Let P : Type := seq E.

(* polynomial_algebra.rs:92-106 *)
Definition w_poly_mul (A : AbelianAlg E) (S : Semigroup E) (v u : P) : W P :=
  if (size v == 0) || (size u == 0) then wret [::]
  else
    let# z := call Const (zero A) in
    w_for 0 (size v) (fun i acc =>
      w_for 0 (size u) (fun j acc =>
        let# x := free (vget v i) in
        let# y := free (vget u j) in
        let# a := call Mul (mul S x y) in
        let# c := free (vget acc (i + j)) in
        let# d := call Add (add A c a) in
        free (vset acc (i + j) d)) acc)
      (vresize [::] (size v + size u - 1) z).
(* polynomial_algebra.rs:144-167 *)
Definition w_poly_add (A : AbelianAlg E) (v u : P) : W P :=
  if size v != size u then
    let '(v, u) := if size v > size u then (v, u) else (u, v) in
    w_for 0 (size u) (fun i acc =>
      let# x := free (vget acc i) in
      let# y := free (vget u i) in
      let# a := call Add (add A x y) in
      free (vset acc i a)) v
  else
    w_for 0 (size v) (fun i acc =>
      let# x := free (vget v i) in
      let# y := free (vget u i) in
      let# a := call Add (add A x y) in
      let# b := call Test (is_zero A a) in
      if ~~ b then
        let# z := call Const (zero A) in
        free (vset (vresize acc i.+1 z) i a)
      else wret acc) [::].
(* polynomial_algebra.rs:174-176 *)
Definition w_poly_neg (A : AbelianAlg E) (v : P) : W P := w_map (fun x => call Neg (neg A x)) v.
(* polynomial_algebra.rs:201-233 *)
Definition w_poly_try_div (A : IDomAlg E) (v u : P) : W (option P) :=
  do# free (assert (~~ (size u == 0))) in
  if size v < size u then
    if size v == 0 then wret (Some [::]) else wret None
  else
    let# z := call Const (zero A) in
    let quo := vresize [::] (size v - size u + 1) z in
    let# a := free (vget u (size u - 1)) in
    let# az := call Test (is_zero A a) in
    do# free (assert (~~ az)) in
    let# r := w_for_rev_ret (size quo) (fun i qr =>
      let '(quo, rem) := qr in
      let# x := free (vget rem (i + size u - 1)) in
      let# o := call Inv (try_div A x a) in
      if o is Some q then
        let# quo := free (vset quo i q) in
        let# b := call Neg (neg A q) in
        let# rem := w_for 0 (size u - 1) (fun j rem =>
          let# y := free (vget u j) in
          let# c := call Mul (mul A y b) in
          let# d := free (vget rem (i + j)) in
          let# d := call Add (add_assign A d c) in
          free (vset rem (i + j) d)) rem in
        wret (inl (quo, rem))
      else wret (inr None)) (quo, v) in
    match r with
    | inr res => wret res
    | inl (quo, rem) =>
        let# ok := w_all (fun x => call Test (is_zero A x)) (take (size u - 1) rem) in
        if ok then wret (Some quo) else wret None
    end.
(* polynomial_algebra.rs:278-281 *)
Definition w_poly_trim_index (A : AbelianAlg E) (rem : P) (i : nat) : W nat :=
  w_while
    (fun i => if i > 0 then let# x := free (vget rem (i - 1)) in call Test (is_zero A x)
              else wret false)
    (fun i => wret (i - 1)) i.
(* polynomial_algebra.rs:256-285 *)
Definition w_poly_quo_rem (A : FieldAlg E) (v u : P) : W (P * P) :=
  do# free (assert (~~ (size u == 0))) in
  if size v < size u then wret ([::], v)
  else
    let# z := call Const (zero A) in
    let quo := vresize [::] (size v - size u + 1) z in
    let# a := free (vget u (size u - 1)) in
    let# az := call Test (is_zero A a) in
    do# free (assert (~~ az)) in
    let# qr := w_for_rev (size quo) (fun i qr =>
      let '(quo, rem) := qr in
      let# x := free (vget rem (i + size u - 1)) in
      let# q := call Inv (fdiv A x a) in
      let# quo := free (vset quo i q) in
      let# b := call Neg (neg A q) in
      let# rem := w_for 0 (size u - 1) (fun j rem =>
        let# y := free (vget u j) in
        let# c := call Mul (mul A y b) in
        let# d := free (vget rem (i + j)) in
        let# d := call Add (add A d c) in
        free (vset rem (i + j) d)) rem in
      wret (quo, rem)) (quo, v) in
    let '(quo, rem) := qr in
    let# i := w_poly_trim_index A rem (size u - 1) in
    wret (quo, take i rem).
(* traits.rs:234-236, 248-257: the calls of the base made by the remainders *)
Definition w_poly_rem (A : FieldAlg E) (v u : P) : W P :=
  let# r := w_poly_quo_rem A v u in wret r.2.
Definition w_poly_gcd (A : FieldAlg E) (v u : P) : W P :=
  let# s := w_while
    (fun s => wret (~~ (size s.2 == 0)))
    (fun s => let# r := w_poly_rem A s.1 s.2 in wret (s.2, r))
    (v, u) in
  wret s.1.
End Poly.

(** ** MatrixRing *)
Section Matrix.
Variables (cfg : Cfg) (E : Type) (A : FieldAlg E) (n : nat).
Let T : Type := seq E.

(* matrix_ring.rs:58-63 *)
Definition w_mul_row (v : T) (row : nat) (coef : E) : W T :=
  let row := row * n in
  do# free (assert (row + n <= size v)) in
  let# s := w_map (fun x => call Mul (mul_assign A x coef)) (take n (drop row v)) in
  wret (take row v ++ s ++ drop (row + n) v).
(* matrix_ring.rs:67-80 *)
Definition w_add_rows (v : T) (row1 row2 : nat) (coef : E) : W T :=
  let row1 := row1 * n in
  let row2 := row2 * n in
  w_for 0 n (fun col v =>
    let# x := free (vget v (row1 + col)) in
    let# y := call Mul (mul A x coef) in
    let# z := free (vget v (row2 + col)) in
    let# z := call Add (add_assign A z y) in
    free (vset v (row2 + col) z)) v.
(* matrix_ring.rs:92-94 *)
Definition w_find_row (v : T) (col : nat) : W (option nat) :=
  w_find col (n - col) (fun row =>
    let# x := free (vget v (row * n + col)) in w_not (call Test (is_zero A x))).
(* matrix_ring.rs:111-118 *)
Definition w_det_clear_below (v : T) (col : nat) : W T :=
  w_for col.+1 (n - col.+1) (fun row v =>
    let# c := free (vget v (row * n + col)) in
    let# b := call Test (is_zero A c) in
    if b then wret v
    else
      let# c := call Neg (neg A c) in
      w_add_rows v col row c) v.
(* matrix_ring.rs:98-125 *)
Definition w_determinant (v : T) : W E :=
  let# det := call Const (one A) in
  let# r := w_for_ret 0 n (fun col s =>
    let '(v, det) := s in
    let# o := w_find_row v col in
    if o is Some row then
      let# v := (if row != col then free (swap_rows n v col row) else wret v) in
      let# coef := free (vget v (col * n + col)) in
      let# det := call Mul (mul_assign A det coef) in
      let# coef := call Inv (finv A coef) in
      let# v := w_mul_row v col coef in
      let# v := w_det_clear_below v col in
      wret (inl (v, det))
    else
      let# z := call Const (zero A) in wret (inr z)) (v, det) in
  match r with
  | inr z => wret z
  | inl (_, det) => wret det
  end.
(* matrix_ring.rs:155-172 *)
Definition w_matrix_mul (v u : T) : W T :=
  do# free (assert ((size v == matrix_len n) && (size u == matrix_len n))) in
  let# u := free (matrix_transpose n u) in
  w_for 0 n (fun row res =>
    w_for 0 n (fun col res =>
      let# sum := call Const (zero A) in
      let# sum := w_for 0 n (fun idx sum =>
        let# x := free (vget v (row * n + idx)) in
        let# y := free (vget u (col * n + idx)) in
        let# z := call Mul (mul A x y) in
        call Add (add_assign A sum z)) sum in
      wret (rcons res sum)) res) [::].
(* matrix_ring.rs:274-281 *)
Definition w_matrix_int (num : Z) : W T :=
  let# x := call Const (int A num) in
  let# z := call Const (zero A) in
  free (for_loop 0 n (fun i mat => vset mat (i * (n + 1)) x) (vector_diagonal (matrix_len n) z)).
(* traits.rs:50-52, matrix_ring.rs:142-148 *)
Definition w_matrix_is_one (v : T) : W bool :=
  let# o := w_matrix_int 1%Z in
  do# free (assert ((size v == matrix_len n) && (size o == matrix_len n))) in
  w_all2 (fun x y => call Test (equals A x y)) v o.
(* matrix_ring.rs:196-207 *)
Definition w_inv_clear_others (vi : T * T) (col : nat) : W (T * T) :=
  w_for 0 n (fun row vi =>
    let '(v, invs) := vi in
    if row == col then wret (v, invs)
    else
      let# c := free (vget v (row * n + col)) in
      let# b := call Test (is_zero A c) in
      if b then wret (v, invs)
      else
        let# c := call Neg (neg A c) in
        let# v := w_add_rows v col row c in
        let# invs := w_add_rows invs col row c in
        wret (v, invs)) vi.
(* matrix_ring.rs:183-215 *)
Definition w_matrix_try_inv (v : T) : W (option T) :=
  let# invs := w_matrix_int 1%Z in
  let# r := w_for_ret 0 n (fun col vi =>
    let '(v, invs) := vi in
    let# o := w_find_row v col in
    if o is Some row then
      let# vi :=
        (if row != col then
           let# v := free (swap_rows n v col row) in
           let# invs := free (swap_rows n invs col row) in
           wret (v, invs)
         else wret (v, invs)) in
      let '(v, invs) := vi in
      let# x := free (vget v (col * n + col)) in
      let# coef := call Inv (finv A x) in
      let# v := w_mul_row v col coef in
      let# invs := w_mul_row invs col coef in
      let# vi := w_inv_clear_others (v, invs) col in
      wret (inl vi)
    else wret (inr tt)) (v, invs) in
  match r with
  | inr _ => wret None
  | inl (v, invs) =>
      do# (if debug_assertions cfg then let# b := w_matrix_is_one v in free (assert b)
           else wret tt) in
      wret (Some invs)
  end.
(* matrix_ring.rs:217-219 *)
Definition w_matrix_invertible (v : T) : W bool :=
  let# d := w_determinant v in w_not (call Test (is_zero A d)).
End Matrix.
