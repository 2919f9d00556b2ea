(** * SortSpec.v -- client programs that order a list with [meet] and [join] alone, in place
    of comparisons: insertion into a chain.

      fn insert(lattice, x, chain) {
          let mut x = x;
          for c in chain.iter_mut() {
              let lo = lattice.meet(&x, c);
              x = lattice.join(&x, c);
              *c = lo;
          }
          chain.push(x);
      }

      for x in xs.iter().rev() { insert(lattice, x, &mut chain); } *)

From Coq Require Import ZArith.
From mathcomp Require Import all_ssreflect.
From Verif Require Import Rust Traits.

Set Implicit Arguments.
Unset Strict Implicit.
Unset Printing Implicit Defensive.

Section Program.
Variables (E : Type) (A : LatticeAlg E).

Fixpoint chain_insert (x : E) (chain : seq E) : M (seq E) :=
  if chain is c :: chain' then
    let! lo := meet A x c in
    let! hi := join A x c in
    let! t := chain_insert hi chain' in
    ret (lo :: t)
  else ret [:: x].
Fixpoint to_chain (xs : seq E) : M (seq E) :=
  if xs is x :: xs' then
    let! t := to_chain xs' in
    chain_insert x t
  else ret [::].
End Program.
