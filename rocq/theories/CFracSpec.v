(** * CFracSpec.v -- a client program that expands x / y into a continued fraction and keeps
    the last convergent, a fraction in lowest terms.

      let (mut x, mut y) = (x, y);
      let (mut h1, mut h0) = (ring.one(), ring.zero());
      let (mut k1, mut k0) = (ring.zero(), ring.one());
      while !ring.is_zero(&y) {
          let (q, r) = ring.quo_rem(&x, &y);
          (x, y) = (y, r);
          (h1, h0) = (ring.add(&ring.mul(&q, &h1), &h0), h1);
          (k1, k0) = (ring.add(&ring.mul(&q, &k1), &k0), k1);
      }
      (h1, k1) *)

From Coq Require Import ZArith.
From mathcomp Require Import all_ssreflect.
From Verif Require Import Rust Traits.

Set Implicit Arguments.
Unset Strict Implicit.
Unset Printing Implicit Defensive.

Section Program.
Variables (E : Type) (A : EuclAlg E).
Record cf_state := CF { cf_x : E; cf_y : E; cf_h1 : E; cf_h0 : E; cf_k1 : E; cf_k0 : E }.

Definition cf_body (s : cf_state) : M cf_state :=
  let! qr := quo_rem A (cf_x s) (cf_y s) in
  let! u := mul A qr.1 (cf_h1 s) in
  let! h := add A u (cf_h0 s) in
  let! v := mul A qr.1 (cf_k1 s) in
  let! k := add A v (cf_k0 s) in
  ret (CF (cf_y s) qr.2 h (cf_h1 s) k (cf_k1 s)).
Definition convergent (x y : E) : M (E * E) :=
  let! o := one A in
  let! z := zero A in
  let! s := while_loop (fun s => let! b := is_zero A (cf_y s) in ret (~~ b)) cf_body
              (CF x y o z z o) in
  ret (cf_h1 s, cf_k1 s).
End Program.
