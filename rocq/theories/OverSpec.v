(** * OverSpec.v -- vocabulary for vectors and polynomials of machine integers.

    [coef v k] is the coefficient of x^k (the k-th entry of a vector), [total f n] is
    f 0 + ... + f (n-1), and [convolution v u k n] is the sum of the first [n] products
    v_i u_(k-i) that make up the k-th coefficient of the product of [v] and [u]. *)

From Coq Require Import ZArith List.
From Verif Require Import Rust NumSpec.
Local Open Scope Z_scope.

Definition coef (v : list Z) (k : nat) : Z := nth k v 0.
Fixpoint total (f : nat -> Z) (n : nat) : Z :=
  match n with O => 0 | S n => total f n + f n end.
Definition convolution (v u : list Z) (k n : nat) : Z :=
  total (fun i => if Nat.leb i k then coef v i * coef u (k - i) else 0) n.
(** The leading coefficient is not zero. *)
Definition canonical_poly (v : list Z) : Prop := v <> nil -> coef v (pred (length v)) <> 0.
(** All entries are at most [b] in absolute value. *)
Definition bounded (b : Z) (v : list Z) : Prop := forall k, Z.abs (coef v k) <= b.
(** The call returns the polynomial with the coefficients [f] if [P] holds and panics
    otherwise. *)
Definition poly_checked (P : Prop) (m : M (list Z)) (f : nat -> Z) : Prop :=
  exists2 z, canonical_poly z /\ (forall k, coef z k = f k) & checked P m z.
(** The same for the vector of [n] entries [f]. *)
Definition vector_checked (n : nat) (P : Prop) (m : M (list Z)) (f : nat -> Z) : Prop :=
  exists2 z, length z = n /\ (forall k, (k < n)%nat -> coef z k = f k) & checked P m z.
