(** * MIndex.v -- index arithmetic on [usize], and the casts of permutations.rs.

    In MConstr.v indices are natural numbers, and [a - b] is truncated. Here the
    same functions are transcribed once more with every [+], [-] and [*] on indices
    computed in [usize]: it panics if the result does not fit and overflow checks are on, and
    wraps if they are off. The casts between [u32] and [usize] in permutations.rs are reductions
    modulo powers of two. PIndex.v proves that this makes no difference.
    [Vec::with_capacity] only evaluates its argument, as there. *)

From Coq Require Import ZArith.
From mathcomp Require Import all_ssreflect.
From Verif Require Import Rust Traits MConstr.

Set Implicit Arguments.
Unset Strict Implicit.
Unset Printing Implicit Defensive.

(** The value of an arithmetic expression on [usize] whose mathematical value is [z]. *)
Definition prim_usize (cfg : Cfg) (z : Z) : M nat :=
  if is_usize cfg z then ret (Z.to_nat z)
  else if overflow_checks cfg then panic
  else ret (Z.to_nat (z mod 2 ^ ptr_bits cfg)).
Definition uadd (cfg : Cfg) (a b : nat) : M nat := prim_usize cfg (Z.of_nat a + Z.of_nat b).
Definition usub (cfg : Cfg) (a b : nat) : M nat := prim_usize cfg (Z.of_nat a - Z.of_nat b).
Definition umul (cfg : Cfg) (a b : nat) : M nat := prim_usize cfg (Z.of_nat a * Z.of_nat b).

(** ** MatrixRing *)
Section MatrixRing.
Variables (cfg : Cfg) (E : Type) (A : FieldAlg E) (n : nat).
Let T : Type := seq E.
Local Notation "a *! b" := (umul cfg a b) (at level 40).
Local Notation "a +! b" := (uadd cfg a b) (at level 50).
Local Notation "a -! b" := (usub cfg a b) (at level 50).

(* matrix_ring.rs:41-43 *)
Definition u_matrix_len : M nat := n *! n.

(* matrix_ring.rs:46-55 *)
Definition u_matrix_transpose (v : T) : M T :=
  let! len := u_matrix_len in
  do! assert (size v == len) in
  do! u_matrix_len in
  for_loop 0 n (fun row res =>
    for_loop 0 n (fun col res =>
      let! i := col *! n in
      let! i := i +! row in
      let! x := vget v i in
      ret (rcons res x)) res) [::].

(* matrix_ring.rs:58-63 *)
Definition u_mul_row (v : T) (row : nat) (coef : E) : M T :=
  let! row := row *! n in
  let! end_ := row +! n in
  do! assert (end_ <= size v) in
  let! s := mapM (fun x => mul_assign A x coef) (take (end_ - row) (drop row v)) in
  ret (take row v ++ s ++ drop end_ v).

(* matrix_ring.rs:67-80 *)
Definition u_add_rows (v : T) (row1 row2 : nat) (coef : E) : M T :=
  let! row1 := row1 *! n in
  let! row2 := row2 *! n in
  for_loop 0 n (fun col v =>
    let! i := row1 +! col in
    let! x := vget v i in
    let! y := mul A x coef in
    let! j := row2 +! col in
    let! z := vget v j in
    let! z := add_assign A z y in
    vset v j z) v.

(* matrix_ring.rs:83-89 *)
Definition u_swap_rows (v : T) (row1 row2 : nat) : M T :=
  let! row1 := row1 *! n in
  let! row2 := row2 *! n in
  for_loop 0 n (fun col v =>
    let! i := row1 +! col in
    let! j := row2 +! col in
    vswap v i j) v.

(* matrix_ring.rs:92-94 *)
Definition u_find_row (v : T) (col : nat) : M (option nat) :=
  findM col (n - col) (fun row =>
    let! i := row *! n in
    let! i := i +! col in
    let! x := vget v i in notM (is_zero A x)).

(* matrix_ring.rs:111-118; the range col + 1..size has size - (col + 1) elements *)
Definition u_det_clear_below (v : T) (col : nat) : M T :=
  let! lo := col +! 1 in
  for_loop lo (n - lo) (fun row v =>
    let! i := row *! n in
    let! i := i +! col in
    let! c := vget v i in
    let! b := is_zero A c in
    if b then ret v
    else
      let! c := neg A c in
      u_add_rows v col row c) v.
(* matrix_ring.rs:98-125 *)
Definition u_determinant (v : T) : M E :=
  let! det := one A in
  let! r := for_loop_ret 0 n (fun col s =>
    let '(v, det) := s in
    let! o := u_find_row v col in
    if o is Some row then
      let! v := (if row != col then u_swap_rows v col row else ret v) in
      let! i := col *! n in
      let! i := i +! col in
      let! coef := vget v i in
      let! det := mul_assign A det coef in
      let! coef := finv A coef in
      let! v := u_mul_row v col coef in
      let! v := u_det_clear_below v col in
      ret (inl (v, det))
    else
      let! z := zero A in ret (inr z)) (v, det) in
  match r with
  | inr z => ret z
  | inl (_, det) => ret det
  end.

(* matrix_ring.rs:134-140 *)
Definition u_matrix_contains (v : T) : M bool :=
  let! len := u_matrix_len in
  if size v != len then ret false else allM (contains A) v.
(* matrix_ring.rs:142-148; && evaluates len a second time *)
Definition u_matrix_equals (v u : T) : M bool :=
  let! len := u_matrix_len in
  do! (if size v == len then let! len := u_matrix_len in assert (size u == len) else panic) in
  all2M (equals A) v u.

(* matrix_ring.rs:155-172 *)
Definition u_matrix_mul (v u : T) : M T :=
  let! len := u_matrix_len in
  do! (if size v == len then let! len := u_matrix_len in assert (size u == len) else panic) in
  let! u := u_matrix_transpose u in
  do! u_matrix_len in
  for_loop 0 n (fun row res =>
    for_loop 0 n (fun col res =>
      let! sum := zero A in
      let! sum := for_loop 0 n (fun idx sum =>
        let! i := row *! n in
        let! i := i +! idx in
        let! x := vget v i in
        let! j := col *! n in
        let! j := j +! idx in
        let! y := vget u j in
        let! z := mul A x y in
        add_assign A sum z) sum in
      ret (rcons res sum)) res) [::].

(* matrix_ring.rs:274-281; the zero matrix is that of VectorAlgebra, whose length was
   computed by MatrixRing::new *)
Definition u_matrix_int (num : Z) : M T :=
  let! x := int A num in
  let! mat := zero (matrix_cmonoid A n) in
  for_loop 0 n (fun i mat =>
    let! s := n +! 1 in
    let! j := i *! s in
    vset mat j x) mat.

(* matrix_ring.rs:196-207 *)
Definition u_inv_clear_others (vi : T * T) (col : nat) : M (T * T) :=
  for_loop 0 n (fun row vi =>
    let '(v, invs) := vi in
    if row == col then ret (v, invs)
    else
      let! i := row *! n in
      let! i := i +! col in
      let! c := vget v i in
      let! b := is_zero A c in
      if b then ret (v, invs)
      else
        let! c := neg A c in
        let! v := u_add_rows v col row c in
        let! invs := u_add_rows invs col row c in
        ret (v, invs)) vi.
(* matrix_ring.rs:183-215 *)
Definition u_matrix_try_inv (v : T) : M (option T) :=
  let! invs := u_matrix_int 1%Z in
  let! r := for_loop_ret 0 n (fun col vi =>
    let '(v, invs) := vi in
    let! o := u_find_row v col in
    if o is Some row then
      let! vi :=
        (if row != col then
           let! v := u_swap_rows v col row in
           let! invs := u_swap_rows invs col row in
           ret (v, invs)
         else ret (v, invs)) in
      let '(v, invs) := vi in
      let! i := col *! n in
      let! i := i +! col in
      let! x := vget v i in
      let! coef := finv A x in
      let! v := u_mul_row v col coef in
      let! invs := u_mul_row invs col coef in
      let! vi := u_inv_clear_others (v, invs) col in
      ret (inl vi)
    else ret (inr tt)) (v, invs) in
  match r with
  | inr _ => ret None
  | inl (v, invs) =>
      do! debug_assert cfg (default_is_one u_matrix_equals (u_matrix_int 1%Z) v) in
      ret (Some invs)
  end.
(* matrix_ring.rs:217-219 *)
Definition u_matrix_invertible (v : T) : M bool :=
  let! d := u_determinant v in notM (is_zero A d).
End MatrixRing.

(** ** PolynomialAlgebra *)
Section PolynomialAlgebra.
Variables (cfg : Cfg) (E : Type).
Let P : Type := seq E.
Local Notation "a +! b" := (uadd cfg a b) (at level 50).
Local Notation "a -! b" := (usub cfg a b) (at level 50).

(* polynomial_algebra.rs:37-43 *)
Definition u_poly_degree (v : P) : M (option nat) :=
  if size v == 0 then ret None else let! d := size v -! 1 in ret (Some d).
(* polynomial_algebra.rs:48-54 *)
Definition u_poly_leading_coef (v : P) : M (option E) :=
  if size v == 0 then ret None
  else let! i := size v -! 1 in let! x := vget v i in ret (Some x).
(* polynomial_algebra.rs:63-74 *)
Definition u_poly_contains (A : AbelianAlg E) (v : P) : M bool :=
  if size v == 0 then ret true
  else
    let! b := allM (contains A) v in
    if ~~ b then ret false
    else
      let! i := size v -! 1 in
      let! x := vget v i in
      notM (is_zero A x).
(* polynomial_algebra.rs:92-106 *)
Definition u_poly_mul (A : AbelianAlg E) (S : Semigroup E) (v u : P) : M P :=
  if (size v == 0) || (size u == 0) then ret [::]
  else
    let! s := size v +! size u in
    do! s -! 1 in
    let! s := size v +! size u in
    let! s := s -! 1 in
    let! z := zero A in
    for_loop 0 (size v) (fun i acc =>
      for_loop 0 (size u) (fun j acc =>
        let! x := vget v i in
        let! y := vget u j in
        let! a := mul S x y in
        let! l := i +! j in
        let! c := vget acc l in
        let! d := add A c a in
        let! l := i +! j in
        vset acc l d) acc)
      (vresize [::] s z).
(* polynomial_algebra.rs:144-167 *)
Definition u_poly_add (A : AbelianAlg E) (v u : P) : M P :=
  if size v != size u then
    let '(v, u) := if size v > size u then (v, u) else (u, v) in
    for_loop 0 (size u) (fun i acc =>
      let! x := vget acc i in
      let! y := vget u i in
      let! a := add A x y in
      vset acc i a) v
  else
    for_loop 0 (size v) (fun i acc =>
      let! x := vget v i in
      let! y := vget u i in
      let! a := add A x y in
      let! b := is_zero A a in
      if ~~ b then
        let! l := i +! 1 in
        let! z := zero A in
        vset (vresize acc l z) i a
      else ret acc) [::].
(* polynomial_algebra.rs:178-190 *)
Definition u_poly_ztimes (A : AbelianAlg E) (num : Z) (v : P) : M P :=
  let! e := mapM (ztimes A num) v in
  let! r := for_rev_ret (size e) (fun i (_ : unit) =>
    let! x := vget e i in
    let! b := is_zero A x in
    if ~~ b then
      let! l := i +! 1 in
      let! z := zero A in
      ret (inr (vresize e l z))
    else ret (inl tt)) tt in
  match r with
  | inr e => ret e
  | inl _ => ret [::]
  end.
(* polynomial_algebra.rs:201-233 *)
Definition u_poly_try_div (A : IDomAlg E) (v u : P) : M (option P) :=
  do! assert (~~ (size u == 0)) in
  if size v < size u then
    if size v == 0 then ret (Some [::]) else ret None
  else
    let! c := size v +! size u in
    do! c -! 1 in
    let! l := size v -! size u in
    let! l := l +! 1 in
    let! z := zero A in
    let quo := vresize [::] l z in
    let! t := size u -! 1 in
    let! a := vget u t in
    let! az := is_zero A a in
    do! assert (~~ az) in
    let! r := for_rev_ret (size quo) (fun i qr =>
      let '(quo, rem) := qr in
      let! s := i +! size u in
      let! s := s -! 1 in
      let! x := vget rem s in
      let! o := try_div A x a in
      if o is Some q then
        let! quo := vset quo i q in
        let! b := neg A q in
        let! t := size u -! 1 in
        let! rem := for_loop 0 t (fun j rem =>
          let! y := vget u j in
          let! c := mul A y b in
          let! s := i +! j in
          let! d := vget rem s in
          let! d := add_assign A d c in
          vset rem s d) rem in
        ret (inl (quo, rem))
      else ret (inr None)) (quo, v) in
    match r with
    | inr res => ret res
    | inl (quo, rem) =>
        let! t := size u -! 1 in
        let! ok := allM (is_zero A) (take t rem) in
        if ok then ret (Some quo) else ret None
    end.
(* polynomial_algebra.rs:235-242 *)
Definition u_poly_associate_repr (A : IDomAlg E) (v : P) : M P :=
  if size v == 0 then ret [::]
  else
    let! i := size v -! 1 in
    let! x := vget v i in
    let! coef := associate_coef A x in
    mapM (fun x => mul A x coef) v.
(* polynomial_algebra.rs:244-249 *)
Definition u_poly_associate_coef (A : IDomAlg E) (v : P) : M P :=
  do! assert (~~ (size v == 0)) in
  let! i := size v -! 1 in
  let! x := vget v i in
  let! c := associate_coef A x in
  ret [:: c].
(* polynomial_algebra.rs:278-281 *)
Definition u_poly_trim_index (A : AbelianAlg E) (rem : P) (i : nat) : M nat :=
  while_loop
    (fun i => if i > 0 then let! j := i -! 1 in let! x := vget rem j in is_zero A x
              else ret false)
    (fun i => i -! 1) i.
(* polynomial_algebra.rs:256-285 *)
Definition u_poly_quo_rem (A : FieldAlg E) (v u : P) : M (P * P) :=
  do! assert (~~ (size u == 0)) in
  if size v < size u then ret ([::], v)
  else
    let! c := size v -! size u in
    do! c +! 1 in
    let! l := size v -! size u in
    let! l := l +! 1 in
    let! z := zero A in
    let quo := vresize [::] l z in
    let! t := size u -! 1 in
    let! a := vget u t in
    let! az := is_zero A a in
    do! assert (~~ az) in
    let! qr := for_rev (size quo) (fun i qr =>
      let '(quo, rem) := qr in
      let! s := i +! size u in
      let! s := s -! 1 in
      let! x := vget rem s in
      let! q := fdiv A x a in
      let! quo := vset quo i q in
      let! b := neg A q in
      let! t := size u -! 1 in
      let! rem := for_loop 0 t (fun j rem =>
        let! y := vget u j in
        let! c := mul A y b in
        let! s := i +! j in
        let! d := vget rem s in
        let! d := add A d c in
        let! s := i +! j in
        vset rem s d) rem in
      ret (quo, rem)) (quo, v) in
    let '(quo, rem) := qr in
    let! t := size u -! 1 in
    let! i := u_poly_trim_index A rem t in
    ret (quo, take i rem).
End PolynomialAlgebra.

(** ** Permutations *)
Section Permutations.
Variables (cfg : Cfg) (n : nat).
Let P : Type := seq nat.

(** [a as usize] and [i as u32] *)
Definition as_usize (a : nat) : nat := Z.to_nat (Z.of_nat a mod 2 ^ ptr_bits cfg).
Definition as_u32 (i : nat) : nat := Z.to_nat (Z.of_nat i mod 2 ^ 32).

(* permutations.rs:26-39 *)
Fixpoint c_perm_contains_loop (v : P) (used : seq bool) : M bool :=
  if v is a :: v' then
    let! b := vget used (as_usize a) in
    if b then ret false
    else
      let! used := vset used (as_usize a) true in
      c_perm_contains_loop v' used
  else ret true.
Definition c_perm_contains (v : P) : M bool :=
  if size v != as_usize n then ret false
  else c_perm_contains_loop v (nseq (as_usize n) false).

(* permutations.rs:48-49, 58-59, 76, 86 *)
Definition c_debug_len (v : P) : M unit := debug_assert cfg (ret (size v == as_usize n)).

(* permutations.rs:47-55 *)
Fixpoint c_perm_mul_loop (i : nat) (v u prod : P) : M P :=
  if v is a :: v' then
    let! x := vget u (as_usize a) in
    let! prod := vset prod i x in
    c_perm_mul_loop i.+1 v' u prod
  else ret prod.
Definition c_perm_mul (v u : P) : M P :=
  do! c_debug_len v in
  do! c_debug_len u in
  c_perm_mul_loop 0 v u (nseq (as_usize n) 0).
(* permutations.rs:57-63 *)
Definition c_perm_mul_assign (v u : P) : M P :=
  do! c_debug_len v in
  do! c_debug_len u in
  mapM (fun a => vget u (as_usize a)) v.

(* permutations.rs:67-73; the range 0..self.size is one of u32 *)
Definition c_perm_one : M P :=
  for_loop 0 n (fun i v => vset v (as_usize i) i) (nseq (as_usize n) 0).
(* permutations.rs:75-83 *)
Fixpoint c_perm_is_one_loop (i : nat) (v : P) : M bool :=
  if v is a :: v' then
    if i != as_usize a then ret false else c_perm_is_one_loop i.+1 v'
  else ret true.
Definition c_perm_is_one (v : P) : M bool :=
  do! c_debug_len v in c_perm_is_one_loop 0 v.
(* permutations.rs:85-92 *)
Fixpoint c_perm_inv_loop (i : nat) (v inv : P) : M P :=
  if v is a :: v' then
    let! inv := vset inv (as_usize a) (as_u32 i) in
    c_perm_inv_loop i.+1 v' inv
  else ret inv.
Definition c_perm_try_inv (v : P) : M (option P) :=
  do! c_debug_len v in
  let! r := c_perm_inv_loop 0 v (nseq (as_usize n) 0) in
  ret (Some r).
End Permutations.
