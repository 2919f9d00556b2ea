(** * FourierSpec.v -- a client program: the discrete Fourier transform over a field of
    the crate, and its inverse. [g] is a primitive root of unity of order v.len().

      fn dft(field, g, v) -> Vec {
          (0..v.len()).map(|i| {
              let w = field.power(i as isize, g);
              let mut s = field.zero();
              for x in v.iter().rev() { s = field.add(&field.mul(&s, &w), x); }
              s
          }).collect()
      }
      fn inverse_dft(field, g, v) -> Vec {
          let h = field.inv(g);
          let u = dft(field, &h, v);
          let n = field.int(v.len() as isize);
          u.iter().map(|x| field.div(x, &n)).collect()
      } *)

From Coq Require Import ZArith.
From mathcomp Require Import all_ssreflect.
From Verif Require Import Rust Traits.

Set Implicit Arguments.
Unset Strict Implicit.
Unset Printing Implicit Defensive.

Section Fourier.
Variables (E : Type) (A : FieldAlg E).

Fixpoint value_at (w : E) (v : seq E) : M E :=
  if v is x :: v' then
    let! s := value_at w v' in
    let! t := mul A s w in
    add A t x
  else zero A.

Definition dft (g : E) (v : seq E) : M (seq E) :=
  mapM (fun i => let! w := fpower A (Z.of_nat i) g in value_at w v) (iota 0 (size v)).

Definition inverse_dft (g : E) (v : seq E) : M (seq E) :=
  let! h := finv A g in
  let! u := dft h v in
  let! n := int A (Z.of_nat (size v)) in
  mapM (fun x => fdiv A x n) u.
End Fourier.
