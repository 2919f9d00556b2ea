(** * PLagrEx.v -- points of the polynomial x^2 + 5 over the rational numbers. *)

From mathcomp Require Import all_ssreflect all_algebra ssrZ.
From Coq Require Import ZArith List.
From Verif Require Import Rust Spec PropSpec RingSpec Quotient PIntsZ PFrac PCases PResidue PLagr.

Set Implicit Arguments.
Unset Strict Implicit.
Unset Printing Implicit Defensive.

Import GRing.Theory.
Local Open Scope ring_scope.

Lemma square_points : exists (P : {poly {fraction [idomainType of Z]}}) xs,
  [/\ Forall2 (fun c x => qq_rep c.1 x /\ qq_rep c.2 P.[x])
        (((1, 1), (6, 1)) :: ((2, 1), (9, 1)) :: ((3, 1), (14, 1)) :: nil)%Z xs,
      uniq xs, (size P <= size xs)%nat & qq_rep (0, 1)%Z 0].
Proof.
exists ('X^2 + (of_int 5%Z)%:P), [:: of_int 1%Z; of_int 2%Z; of_int 3%Z].
have v k : ('X^2 + (of_int 5%Z)%:P).[of_int k] = of_int (k * k + 5%Z).
  by rewrite hornerD hornerXn hornerC expr2 rmorphD rmorphM.
split; last exact: qq_0.
- have pt k : qq_rep (k, 1%Z) (of_int k) /\
      qq_rep (k * k + 5, 1)%Z ('X^2 + (of_int 5%Z)%:P).[of_int k].
    by split; [exact: qq_int|rewrite v; exact: qq_int].
  constructor; first exact: (pt 1%Z).
  constructor; first exact: (pt 2%Z).
  by constructor; first exact: (pt 3%Z).
- have inj k l : of_int k = of_int l -> k = l.
    by move=> /eqP; rewrite tofrac_eq => /eqP.
  by rewrite /= !inE !negb_or; do !(apply/andP; split) => //; apply/eqP => /inj.
- by rewrite size_addl size_polyXn // ltnS (leq_trans (size_polyC_leq1 _)).
Qed.
