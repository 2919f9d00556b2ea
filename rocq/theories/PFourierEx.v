(** * PFourierEx.v -- the transform over finite fields, and one of order 3 over the field with
    four elements. *)

From mathcomp Require Import all_ssreflect all_algebra ssrZ zify.
From Coq Require Import ZArith Lia List.
From Verif Require Import Rust Traits MInts MConstr Wp Spec RingSpec TowerSpec PTower PTowerEx PValEx.
From Verif Require Import FourierSpec PFourier Refuted.

Set Implicit Arguments.
Unset Strict Implicit.
Unset Printing Implicit Defensive.

Import GRing.Theory.
Local Open Scope ring_scope.

Lemma round_trip_exact cfg (E : Type) (F : fieldType) (rep : E -> F -> Prop) (A : FieldAlg E) (k : nat) :
  finite_field cfg rep A k ->
  forall (g : E) (b : F) (v : list E), good_isize cfg (Z.of_nat (length v)) -> rep g b ->
  (length v).-primitive_root b -> (forall x, In x v -> exists u, rep x u) ->
  returns (let! w := dft A g v in inverse_dft A g w) v.
Proof.
move=> hA g b v gs gb hb hv; have [_ _ inj] := finite_field_members hA.
have [us hu] : exists us, Forall2 rep v us.
  elim: v hv {gs hb} => [|x v IH] h; first by exists [::].
  have [u xu] := h x (or_introl erefl).
  by have [us hu] := IH (fun y hy => h y (or_intror hy)); exists (u :: us); constructor.
have [[z [rz hz]]|[[]]] := round_trip (finite_field_contract hA) gs gb hb hu.
suff vz : v = z by rewrite {2}vz.
elim: hu z {rz hv gs hb} hz => {v us} [|x u v us xu _ IH] z hz; inversion hz as [|y u' z' us' yu hz']; subst => //.
by rewrite (IH _ hz') (inj _ _ _ xu yu).
Qed.

Lemma gf4_trip : returns (dft (F4 debug64) [:: false; true] [:: [:: true]; [:: false; true]; [::]])
    [:: [:: true; true]; [:: false; true]; [::]] /\
  returns (inverse_dft (F4 debug64) [:: false; true] [:: [:: true; true]; [:: false; true]; [::]])
    [:: [:: true]; [:: false; true]; [::]].
Proof. by split; run 60%nat. Qed.
