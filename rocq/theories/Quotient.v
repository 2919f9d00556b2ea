(** * Quotient.v -- the mathematical quotient of a Euclidean domain by an ideal (m).

    No implementation is mentioned here.  The elements of R/(m) are represented
    by the canonical remainders; [qpi] is the projection, a surjective ring
    morphism whose kernel is (m), so R/(m) is the quotient ring up to
    isomorphism.  For irreducible m it is a field. *)

From mathcomp Require Import all_ssreflect all_algebra.
From Verif Require Import RingTac Spec PDefaults.

Set Implicit Arguments.
Unset Strict Implicit.
Unset Printing Implicit Defensive.

Import GRing.Theory.
Local Open Scope ring_scope.

(** A modulus that is neither zero nor a unit. *)
Record modulus (R : idomainType) := Modulus {
  mval :> R;
  m_neq0 : mval != 0;
  m_nonunit : mval \isn't a GRing.unit
}.

(** An irreducible element: neither zero nor a unit, and in each factorization one
    of the factors is a unit. *)
Definition irreducible_elt (R : idomainType) (m : R) : Prop :=
  [/\ m != 0, m \isn't a GRing.unit &
      forall a b : R, m = a * b -> a \is a GRing.unit \/ b \is a GRing.unit].

Section Quotient.
Variables (R : idomainType) (S : eucl_struct R) (m : modulus R).
Let m0 := m_neq0 m.

Record quot : Type := Quot { qval : R; qvalP : erem S qval m == qval }.

Canonical quot_subType := [subType for qval].
Definition quot_eqMixin := Eval hnf in [eqMixin of quot by <:].
Canonical quot_eqType := Eval hnf in EqType quot quot_eqMixin.
Definition quot_choiceMixin := [choiceMixin of quot by <:].
Canonical quot_choiceType := Eval hnf in ChoiceType quot quot_choiceMixin.

Lemma qpi_proof (a : R) : erem S (erem S a m) m == erem S a m.
Proof. by rewrite erem_idem. Qed.
Definition qpi (a : R) : quot := Quot (qpi_proof a).

Lemma qpiK (x : quot) : qpi (qval x) = x.
Proof. by apply: val_inj; apply/eqP; exact: qvalP. Qed.

Lemma qpiE (a b : R) : qpi a = qpi b <-> dvds (m : R) (a - b).
Proof.
by rewrite -(erem_eq S _ _ m0); split=> [[->]|/eqP h] //; apply: val_inj.
Qed.

Lemma qpi_val (a : R) : dvds (m : R) (qval (qpi a) - a).
Proof. by rewrite -opprB; apply: dvds_opp; exact: erem_sub. Qed.

Definition qadd (x y : quot) : quot := qpi (qval x + qval y).
Definition qmul (x y : quot) : quot := qpi (qval x * qval y).
Definition qopp (x : quot) : quot := qpi (- qval x).

Lemma qpiD a b : qpi (a + b) = qadd (qpi a) (qpi b).
Proof.
apply/esym/qpiE; rewrite (_ : _ - _ = (qval (qpi a) - a) + (qval (qpi b) - b)); last by cring.
by apply: dvds_add; exact: qpi_val.
Qed.
Lemma qpiM a b : qpi (a * b) = qmul (qpi a) (qpi b).
Proof.
apply/esym/qpiE; set u := qval _; set v := qval _.
rewrite (_ : _ - _ = v * (u - a) + a * (v - b)); last by cring.
by apply: dvds_add; apply: dvds_mull; exact: qpi_val.
Qed.
Lemma qpiN a : qpi (- a) = qopp (qpi a).
Proof.
apply/qpiE; set u := qval _; rewrite (_ : _ - _ = u - a); last by cring.
exact: qpi_val.
Qed.

Lemma qaddA : associative qadd.
Proof.
move=> x y z; rewrite -(qpiK x) -(qpiK y) -(qpiK z) -!qpiD; congr qpi; cring.
Qed.
Lemma qaddC : commutative qadd.
Proof. by move=> x y; rewrite /qadd addrC. Qed.
Lemma qadd0 : left_id (qpi 0) qadd.
Proof. by move=> x; rewrite -(qpiK x) -qpiD add0r. Qed.
Lemma qaddN : left_inverse (qpi 0) qopp qadd.
Proof. by move=> x; rewrite -(qpiK x) -qpiN -qpiD addNr. Qed.
Definition quot_zmodMixin := ZmodMixin qaddA qaddC qadd0 qaddN.
Canonical quot_zmodType := Eval hnf in ZmodType quot quot_zmodMixin.

Lemma qmulA : associative qmul.
Proof.
move=> x y z; rewrite -(qpiK x) -(qpiK y) -(qpiK z) -!qpiM; congr qpi; cring.
Qed.
Lemma qmulC : commutative qmul.
Proof. by move=> x y; rewrite /qmul mulrC. Qed.
Lemma qmul1 : left_id (qpi 1) qmul.
Proof. by move=> x; rewrite -(qpiK x) -qpiM mul1r. Qed.
Lemma qmulD : left_distributive qmul qadd.
Proof.
move=> x y z; rewrite -(qpiK x) -(qpiK y) -(qpiK z) -!(qpiD, qpiM); congr qpi; cring.
Qed.
Lemma qone_neq0 : qpi 1 != qpi 0.
Proof.
apply/negP => /eqP/qpiE; rewrite subr0 => -[c cE].
by case/negP: (m_nonunit m); apply/unitrP; exists c; rewrite -cE mulrC -cE.
Qed.
Definition quot_ringMixin := ComRingMixin qmulA qmulC qmul1 qmulD qone_neq0.
Canonical quot_ringType := Eval hnf in RingType quot quot_ringMixin.
Canonical quot_comRingType := Eval hnf in ComRingType quot qmulC.

(** The projection is a surjective ring morphism with kernel (m). *)
Lemma qpi_is_rmorphism : rmorphism qpi.
Proof.
split; first by move=> a b; rewrite qpiD qpiN.
by split=> [a b|] //; rewrite qpiM.
Qed.
Canonical qpi_additive := Additive qpi_is_rmorphism.
Canonical qpi_rmorphism := RMorphism qpi_is_rmorphism.
Lemma qpi_surjective (x : quot) : exists a, qpi a = x.
Proof. by exists (qval x); rewrite qpiK. Qed.
Lemma qpi_eq0 (a : R) : qpi a = 0 <-> dvds (m : R) a.
Proof. by rewrite -[X in dvds _ X]subr0; exact: qpiE. Qed.

Lemma qval0 : qval (0 : quot) = 0.
Proof. by rewrite /= e_rem0. Qed.
Lemma qval1 : qval (1 : quot) = 1.
Proof. by rewrite /= e_rem1 //; exact: m_nonunit. Qed.
Lemma qval_eq0 (x : quot) : (qval x == 0) = (x == 0).
Proof. by rewrite -[RHS](inj_eq val_inj) /= e_rem0. Qed.
Lemma qvalE (x : quot) : erem S (qval x) m = qval x.
Proof. exact/eqP/qvalP. Qed.

(** Units of the quotient. *)
Lemma qunitP (x : quot) :
  (exists y, inverse_of *%R 1 x y) <-> coprime_to (m : R) (qval x).
Proof.
split=> [[y [xy _]]|[s [t st]]].
  have /qpiE [c cE]: qpi (qval x * qval y) = qpi 1 by exact: xy.
  exists (- c), (qval y); rewrite mulNr -cE; cring.
exists (qpi t); have h : x * qpi t = 1.
  rewrite -[x in LHS]qpiK -rmorphM /=.
  change (qpi (qval x * t) = qpi 1); apply/qpiE; exists (- s).
  by rewrite -st; cring.
by split=> //; rewrite mulrC.
Qed.
End Quotient.

(** ** The quotient by an irreducible element is a field *)
Record irr_modulus (R : idomainType) := IrrModulus {
  imod :> modulus R;
  imodP : irreducible_elt (mval imod)
}.

Section QuotientField.
Variables (R : idomainType) (S : eucl_struct R) (m : irr_modulus R).

(** The same ring, under a name that carries the irreducibility. *)
Definition qfield : Type := quot S m.
Canonical qfield_eqType := Eval hnf in [eqType of qfield].
Canonical qfield_choiceType := Eval hnf in [choiceType of qfield].
Canonical qfield_zmodType := Eval hnf in [zmodType of qfield].
Canonical qfield_ringType := Eval hnf in [ringType of qfield].
Canonical qfield_comRingType := Eval hnf in [comRingType of qfield].

Lemma irr_coprime (a : R) : ~ dvds (m : R) a -> coprime_to (m : R) a.
Proof.
move=> na; have [d [s [t [dE dg]]]] := bezout S (m : R) a.
have [_ _ hm] := imodP m; apply/(gcd_coprime S dg).
have [[c mE] da _] := dg; have [cu|du] := hm _ _ mE.
  case: na; apply: dvds_trans da; exists c^-1.
  by rewrite mE mulrA mulVr ?mul1r.
by exists d^-1; rewrite mulrV.
Qed.

Lemma qfield_inv_ex (x : qfield) : exists y, (x != 0) ==> (y * x == 1).
Proof.
have [->|x0] := eqVneq x 0; first by exists 0.
have /qunitP [y [xy yx]] : coprime_to (m : R) (qval x).
  by apply: irr_coprime => /(qpi_eq0 S m); rewrite qpiK => /eqP; rewrite (negbTE x0).
by exists y; rewrite yx eqxx.
Qed.

Definition qinv (x : qfield) : qfield :=
  if x == 0 then 0 else xchoose (qfield_inv_ex x).

Lemma qmulVf : GRing.Field.axiom qinv.
Proof.
move=> x x0; have /implyP h := xchooseP (qfield_inv_ex x).
by rewrite /qinv ifN //; apply/eqP; exact: h.
Qed.
Lemma qinv0 : qinv 0 = 0.
Proof. by rewrite /qinv ifT. Qed.
Definition qfield_unitMixin := FieldUnitMixin qmulVf qinv0.
Canonical qfield_unitRingType := Eval hnf in UnitRingType qfield qfield_unitMixin.
Canonical qfield_comUnitRingType := Eval hnf in [comUnitRingType of qfield].
Lemma qfield_mixin : GRing.Field.mixin_of qfield_unitRingType.
Proof. by move=> x; apply: contraR; rewrite unfold_in negbK. Qed.
Canonical qfield_idomainType :=
  Eval hnf in IdomainType qfield (FieldIdomainMixin qfield_mixin).
Canonical qfield_fieldType := Eval hnf in FieldType qfield qfield_mixin.
End QuotientField.
