(** * PSame3.v -- quotients by associated moduli, cyclic groups, lattices, and the sizes
    of finite fields inside each other. *)

From Coq Require Import ZArith Znumtheory Lia List.
From mathcomp Require Import all_ssreflect all_fingroup all_algebra.
From mathcomp Require Import ssrZ zify.
From Verif Require Import Rust RustFacts Traits MInts MConstr Spec Wp ModSpec NumSpec RingSpec PropSpec TowerSpec ParSpec SameSpec.
From Verif Require Import RingTac PDefaults PIntsZ PInts POrders PGroups Quotient PQuot PModular PModProps PPoly PTower PCount PCount3 PFF.
From Verif Require Import PPar PPar2 PPar3 PPar4 PPar5 PSame PSame2.

Set Implicit Arguments.
Unset Strict Implicit.
Unset Printing Implicit Defensive.

Import GRing.Theory.
Local Open Scope ring_scope.

(** ** The quotient depends on the ideal only *)
Section Associates.
Variables (R : idomainType) (S1 S2 : eucl_struct R).

Section Change.
Variables (m1 m2 : modulus R).
Hypotheses (d12 : dvds (mval m2) (mval m1)).
Definition change (u : quot S1 m1) : quot S2 m2 := qpi S2 m2 (qval u).
Lemma change_pi a : change (qpi S1 m1 a) = qpi S2 m2 a.
Proof. by apply/qpiE; apply: dvds_trans d12 _; exact: qpi_val. Qed.
Lemma change_is_rmorphism : rmorphism change.
Proof.
split=> [u v|].
  by rewrite -[u]qpiK -[v]qpiK -rmorphB !change_pi rmorphB.
split=> [u v|]; first by rewrite -[u]qpiK -[v]qpiK -rmorphM !change_pi rmorphM.
by rewrite -[1](rmorph1 (qpi_rmorphism S1 m1)) change_pi rmorph1.
Qed.
End Change.
End Associates.

Section ChangeBack.
Variables (R : idomainType) (S1 S2 : eucl_struct R) (m1 m2 : modulus R).
Hypotheses (d12 : dvds (mval m2) (mval m1)) (d21 : dvds (mval m1) (mval m2)).
Lemma changeK : cancel (@change R S1 S2 m1 m2) (@change R S2 S1 m2 m1).
Proof. by move=> u; rewrite {2}/change change_pi // qpiK. Qed.
End ChangeBack.

Section Quotients.
Variables (c : Cfg) (E1 E2 : Type) (R : idomainType) (rep1 : E1 -> R -> Prop) (rep2 : E2 -> R -> Prop).
Variables (AS1 AS2 : assoc_struct R) (S1 S2 : eucl_struct R) (A1 : EuclAlg E1) (A2 : EuclAlg E2).
Local Notation ok := (ModSpec.usual_isize c).
Hypotheses (h1 : eucl_alg_spec c False rep1 AS1 S1 A1) (h2 : eucl_alg_spec c False rep2 AS2 S2 A2).
Hypotheses (s1 : eucl_alg_par ok eq A1 A1) (s2 : eucl_alg_par ok eq A2 A2).
Variables (m1 m2 : R) (x1 : E1) (x2 : E2).
Hypotheses (d12 : dvds m2 m1) (d21 : dvds m1 m2) (hx1 : rep1 x1 m1) (hx2 : rep2 x2 m2).
Local Notation T := (same_class S1 S2 rep1 rep2 m1 m2).

Section Rel.
Variables (md1 md2 : modulus R).
Hypotheses (e1 : mval md1 = m1) (e2 : mval md2 = m2).
Lemma change_rel x y :
  transported (@q_rep E1 R S1 md1 rep1) (@q_rep E2 R S2 md2 rep2) (@change R S1 S2 md1 md2) x y <-> T x y.
Proof.
split=> [[u xu yu]|[a [b [[xa ra] [yb rb] ab]]]].
  exists (qval u), (qval (change S2 md2 u)).
  split; [by split; rewrite // -e1 qvalE|by split; rewrite // -e2 qvalE|].
  rewrite -opprB; apply: dvds_opp; apply: dvds_trans d21 _; rewrite -e2; exact: qpi_val.
have ra' : erem S1 a md1 == a by rewrite e1 ra.
exists (Quot ra'); first by [].
rewrite /q_rep; suff -> : qval (change S2 md2 (Quot ra')) = b by [].
rewrite /change /= -rb -e2; apply/eqP; rewrite erem_eq ?m_neq0 // e2.
exact: dvds_trans d12 ab.
Qed.
Lemma change_embedding : monoid_embedding *%R 1 *%R 1 (@change R S1 S2 md1 md2).
Proof.
have D12 : dvds (mval md2) (mval md1) by rewrite e1 e2.
have D21 : dvds (mval md1) (mval md2) by rewrite e1 e2.
have hm := @change_is_rmorphism R S1 S2 md1 md2 D12; have hm' := @change_is_rmorphism R S2 S1 md2 md1 D21.
have K := @changeK R S1 S2 md1 md2 D21.
split; [exact: can_inj K|exact: (rmorphM (RMorphism hm))|exact: (rmorph1 (RMorphism hm))|].
move=> u v [uv vu]; exists (change S1 md1 v); rewrite -[u]K.
have M := rmorphM (RMorphism hm'); have O := rmorph1 (RMorphism hm').
by split; rewrite -[LHS]M ?uv ?vu; exact: O.
Qed.
End Rel.

Lemma same_quotient_rings : m1 != 0 -> m1 \isn't a GRing.unit ->
  ring_alg_par ok T (QuotientRing c A1 x1) (QuotientRing c A2 x2).
Proof.
move=> n1 u1.
have n2 : m2 != 0 by apply: contraNneq n1 => m20; have [a ->] := d12; rewrite m20 mulr0.
have u2 : m2 \isn't a GRing.unit.
  by apply: contra u1 => u2; have [a m2E] := d21; move: u2; rewrite m2E unitrM => /andP[].
pose md1 := Modulus n1 u1; pose md2 := Modulus n2 u2.
apply: (ring_par_iff (change_rel (md1 := md1) (md2 := md2) erefl erefl)).
have hm := @change_is_rmorphism R S1 S2 md1 md2 d12.
apply: (same_rings (phi := RMorphism hm)).
- exact: (change_embedding (md1 := md1) (md2 := md2)).
- exact: (@QuotientRing_ok _ _ _ _ _ _ _ _ h1 md1 _ hx1).
- exact: (@QuotientRing_ok _ _ _ _ _ _ _ _ h2 md2 _ hx2).
- exact: par_quotient_ring.
- exact: par_quotient_ring.
Qed.

Lemma same_quotient_fields : irreducible_elt m1 ->
  field_alg_par ok T (QuotientField c A1 x1) (QuotientField c A2 x2).
Proof.
move=> i1; have [n1 u1 f1] := i1.
have n2 : m2 != 0 by apply: contraNneq n1 => m20; have [a ->] := d12; rewrite m20 mulr0.
have u2 : m2 \isn't a GRing.unit.
  by apply: contra u1 => u2; have [a m2E] := d21; move: u2; rewrite m2E unitrM => /andP[].
have i2 : irreducible_elt m2.
  split=> // a b m2E; have [d dE] := d12.
  have h : m1 = d * a * b by rewrite dE m2E mulrA.
  by case: (f1 _ _ h) => [|bu]; [rewrite unitrM => /andP[_]; left|right].
pose md1 := @IrrModulus R (Modulus n1 u1) i1; pose md2 := @IrrModulus R (Modulus n2 u2) i2.
apply: (field_par_iff (change_rel (md1 := md1) (md2 := md2) erefl erefl)).
have hm := @change_is_rmorphism R S1 S2 md1 md2 d12.
apply: (same_fields (RMorphism (hm : rmorphism (change S2 md2 : qfield_fieldType S1 md1 -> qfield_fieldType S2 md2)))).
- exact: (@QuotientField_ok _ _ _ _ _ _ _ _ h1 md1 _ hx1).
- exact: (@QuotientField_ok _ _ _ _ _ _ _ _ h2 md2 _ hx2).
- exact: par_quotient_field.
- exact: par_quotient_field.
Qed.
End Quotients.

(** ** Lattices *)
Section Lattices.
Variables (E1 E2 : Type) (V1 V2 : eqType) (rep1 : E1 -> V1 -> Prop) (rep2 : E2 -> V2 -> Prop).
Variables (le1 : rel V1) (le2 : rel V2) (phi : V1 -> V2).
Local Notation R := (transported rep1 rep2 phi).
Hypotheses (bij : bijective phi) (phi_le : forall u v, le2 (phi u) (phi v) = le1 u v).
Hypothesis cover : forall x u, rep1 x u -> exists y, rep2 y (phi u).

Lemma phi_glb u v w : is_glb le1 u v w -> is_glb le2 (phi u) (phi v) (phi w).
Proof.
by have [psi K K'] := bij; case=> h1 h2 h3; split; rewrite ?phi_le // => d; rewrite -(K' d) !phi_le; exact: h3.
Qed.
Lemma phi_lub u v w : is_lub le1 u v w -> is_lub le2 (phi u) (phi v) (phi w).
Proof.
by have [psi K K'] := bij; case=> h1 h2 h3; split; rewrite ?phi_le // => d; rewrite -(K' d) !phi_le; exact: h3.
Qed.

Lemma same_orders (A1 : OrderAlg E1) (A2 : OrderAlg E2) :
  order_alg_spec False rep1 le1 A1 -> order_alg_spec False rep2 le2 A2 ->
  order_alg_par eq A1 A1 -> order_alg_par eq A2 A2 -> order_alg_par R A1 A2.
Proof.
have inj := bij_inj bij.
move=> [d1 o1 _] [d2 o2 _] [sd1 so1] [sd2 so2]; split; first exact: same_domain inj _ _ d1 d2 sd1 sd2.
split=> x x' y y' [u xu yu] [v xv yv].
- apply: (par_answers (b := le1 u v)); [exact: leq_par so1 _ _ _ _ erefl erefl|exact: leq_par so2 _ _ _ _ erefl erefl|exact: leq_ok o1 _ _ _ _ xu xv|].
  by rewrite -phi_le; exact: leq_ok o2 _ _ _ _ yu yv.
- apply: (par_answers (b := (u != v) && le1 u v)); [exact: less_than_par so1 _ _ _ _ erefl erefl|exact: less_than_par so2 _ _ _ _ erefl erefl|exact: less_than_ok o1 _ _ _ _ xu xv|].
  by rewrite -phi_le -(inj_eq inj); exact: less_than_ok o2 _ _ _ _ yu yv.
- apply: (par_answers (b := le1 u v || le1 v u)); [exact: comparable_par so1 _ _ _ _ erefl erefl|exact: comparable_par so2 _ _ _ _ erefl erefl|exact: comparable_ok o1 _ _ _ _ xu xv|].
  by rewrite -!phi_le; exact: comparable_ok o2 _ _ _ _ yu yv.
Qed.

Lemma same_lattices (A1 : LatticeAlg E1) (A2 : LatticeAlg E2) :
  lattice_alg_spec False rep1 le1 A1 -> lattice_alg_spec False rep2 le2 A2 ->
  lattice_alg_par eq A1 A1 -> lattice_alg_par eq A2 A2 -> lattice_alg_par R A1 A2.
Proof.
move=> [o1 l1] [o2 l2] [so1 sl1] [so2 sl2]; split; first exact: same_orders.
have anti := le_anti (or_laws o2).
split=> x x' y y' [u xu yu] [v xv yv].
  apply: (par_ensures _ _ (meet_ok l1 xu xv) (meet_ok l2 yu yv)).
  - exact: meet_par sl1 _ _ _ _ erefl erefl.
  - exact: meet_par sl2 _ _ _ _ erefl erefl.
  move=> z z' [w zw g1] [w' zw' [a1 a2 a3]]; exists w => //.
  have [t tw] := cover zw; have [b1 b2 b3] := phi_glb g1.
  by rewrite (anti _ _ _ _ tw zw' (a3 _ b1 b2) (b3 _ a1 a2)).
apply: (par_ensures _ _ (join_ok l1 xu xv) (join_ok l2 yu yv)).
- exact: join_par sl1 _ _ _ _ erefl erefl.
- exact: join_par sl2 _ _ _ _ erefl erefl.
move=> z z' [w zw g1] [w' zw' [a1 a2 a3]]; exists w => //.
have [t tw] := cover zw; have [b1 b2 b3] := phi_lub g1.
by rewrite (anti _ _ _ _ tw zw' (b3 _ a1 a2) (a3 _ b1 b2)).
Qed.
End Lattices.
