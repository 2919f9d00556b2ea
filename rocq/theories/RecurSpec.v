(** * RecurSpec.v -- a client program: the n-th term of a sequence with a linear recurrence.

    The coefficients of [v] are those of the recurrence v_0 u_n + v_1 u_(n+1) + ... = 0, and
    [us] the first terms of the sequence. The program needs O(log n) multiplications of
    residues:

      let ring = PolynomialAlgebra::new(field.clone());
      let x = ring.rem(&vec![field.zero(), field.one()], &v);
      let group = MultiplicativeGroup::new(QuotientRing::new(ring, v));
      let y = group.power(n, &x);
      let mut s = field.zero();
      for (a, b) in y.iter().zip(us.iter()) { s = field.add(&s, &field.mul(a, b)); }
      s *)

From Coq Require Import ZArith.
From mathcomp Require Import all_ssreflect.
From Verif Require Import Rust Traits MConstr.

Set Implicit Arguments.
Unset Strict Implicit.
Unset Printing Implicit Defensive.

Section Program.
Variables (cfg : Cfg) (E : Type) (A : FieldAlg E).

Fixpoint dot (s : E) (y us : seq E) : M E :=
  match y, us with
  | a :: y', b :: us' =>
      let! t := mul A a b in
      let! s' := add A s t in
      dot s' y' us'
  | _, _ => ret s
  end.

Definition term (v us : seq E) (n : Z) : M E :=
  let! z := zero A in
  let! o := one A in
  let! x := rem (PolyEucl A) [:: z; o] v in
  let! y := gpower (MultiplicativeGroup cfg (QuotientRing cfg (PolyEucl A) v)) n x in
  dot z y us.

(** The Fibonacci numbers: u_(n+2) - u_(n+1) - u_n = 0. *)
Definition fibonacci (n : Z) : M E :=
  let! z := zero A in
  let! o := one A in
  let! m := neg A o in
  term [:: m; m; o] [:: z; o] n.
End Program.

Fixpoint fib (n : nat) : nat :=
  if n is n'.+1 then if n' is n''.+1 then fib n' + fib n'' else 1 else 0.
