(** * PElemOrdEx.v -- the order of x in the field of the crate's test [field_256]. *)

From mathcomp Require Import all_ssreflect all_algebra ssrZ zify.
From Coq Require Import ZArith Lia.
From Verif Require Import Rust Traits MInts MConstr Wp Spec PropSpec RingSpec Quotient.
From Verif Require Import TowerSpec PTower FFSpec PFF PIrrEx PDlogEx ElemOrdSpec PElemOrd Refuted.

Set Implicit Arguments.
Unset Strict Implicit.
Unset Printing Implicit Defensive.

Lemma order_x : returns (element_order (field256 debug64) 255 [:: 3; 5; 17] [:: 0; 1]%Z) 51%nat.
Proof. by run 60%nat. Qed.
Lemma order_1x : returns (element_order (field256 debug64) 255 [:: 3; 5; 17] [:: 1; 1]%Z) 255%nat.
Proof. by run 60%nat. Qed.
Lemma field256_fermat : exists (F : fieldType) (rep : seq Z -> F -> Prop),
  field_alg_spec debug64 False rep (field256 debug64) /\
  exists u, rep [:: 0; 1]%Z u /\ (u ^+ 255 = 1)%R.
Proof.
have [F [rep [t _ _ _ [[b hb] b0]]]] := field256_log; exists F, rep.
split; first exact: (finite_field_contract t).
have [_ [_ _ [s [us sk hs]]]] := finite_field_ok t.
exists b; split=> //; have := fermat1 us hs; rewrite sk; apply.
by apply/(nz t hb).
Qed.
