(** * Props_Batch.v -- C117: inverting many elements with one inversion. *)

From mathcomp Require Import all_ssreflect all_algebra.
From Coq Require Import ZArith List.
From Verif Require Import Rust Traits MInts MConstr Spec PropSpec RingSpec.
From Verif Require Import PCases PBatchEx BatchSpec PBatch Refuted.

(** The program [batch_inv] of BatchSpec.v, which calls [inv] once, returns the inverses of
    the elements of a list. *)
Theorem C117_inverses : forall (cfg : Cfg) (p : Prop) (E : Type) (F : fieldType)
    (rep : E -> F -> Prop) (A : FieldAlg E), field_alg_spec cfg p rep A ->
  forall (xs : list E) (us : list F), Forall2 rep xs us -> all (fun u => u != 0)%R us ->
  ensures p (batch_inv A xs) (fun ys => Forall2 rep ys (map (fun u => u^-1)%R us)).
Proof. exact batch_inv_ok. Qed.
Print Assumptions C117_inverses.
Example C117_inverses_case :
  field_alg_spec debug64 False qq_rep (QQ debug64) /\
  (exists us, Forall2 qq_rep ((2, 3) :: (-3, 1) :: nil)%Z us /\ all (fun u => u != 0)%R us) /\
  returns (batch_inv (QQ debug64) ((2, 3) :: (-3, 1) :: nil)%Z) ((3, 2) :: (-1, 3) :: nil)%Z.
Proof. split; [exact: qq_field|split; [exact two_fractions|by run 60%nat]]. Qed.

(** Whenever [inv] returns for each element, it returns the same elements, as [equals]
    confirms. *)
Theorem C117_same : forall (cfg : Cfg) (p : Prop) (E : Type) (F : fieldType)
    (rep : E -> F -> Prop) (A : FieldAlg E), field_alg_spec cfg p rep A ->
  forall (xs : list E) (us : list F) (zs : list E), Forall2 rep xs us ->
  returns (mapM (finv A) xs) zs ->
  ensures p (batch_inv A xs) (fun ys =>
    Forall2 (fun y z => answers p (equals A y z) true) ys zs).
Proof. exact batch_inv_same. Qed.
Print Assumptions C117_same.
Example C117_same_case :
  (exists us, Forall2 qq_rep ((2, 3) :: (-3, 1) :: nil)%Z us) /\
  returns (mapM (finv (QQ debug64)) ((2, 3) :: (-3, 1) :: nil)%Z) ((3, 2) :: (-1, 3) :: nil)%Z.
Proof. by split; [have [us []] := two_fractions; exists us|run 60%nat]. Qed.

(** It panics if one of the elements is zero. *)
Theorem C117_zero : forall (cfg : Cfg) (p : Prop) (E : Type) (F : fieldType)
    (rep : E -> F -> Prop) (A : FieldAlg E), field_alg_spec cfg p rep A ->
  forall (xs : list E) (us : list F), Forall2 rep xs us -> has (fun u => u == 0)%R us ->
  panics (batch_inv A xs).
Proof. exact batch_inv_zero. Qed.
Print Assumptions C117_zero.
Example C117_zero_case :
  (exists us, Forall2 qq_rep ((2, 3) :: (0, 1) :: nil)%Z us /\ has (fun u => u == 0)%R us) /\
  panics (batch_inv (QQ debug64) ((2, 3) :: (0, 1) :: nil)%Z).
Proof. split; [exact with_zero|by run 60%nat]. Qed.
