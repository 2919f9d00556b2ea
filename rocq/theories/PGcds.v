(** * PGcds.v -- gcd and lcm of lists. *)

From Coq Require Import ZArith Lia List.
From mathcomp Require Import all_ssreflect all_algebra ssrZ zify.
From Verif Require Import Rust Traits MInts MConstr Wp Spec PropSpec RingSpec PDefaults Laws.
From Verif Require Import RingTac PLaws GcdsSpec.

Set Implicit Arguments.
Unset Strict Implicit.
Unset Printing Implicit Defensive.

Import GRing.Theory.
Local Open Scope ring_scope.

Section Math.
Variable R : comRingType.
Lemma dvds_refl (a : R) : dvds a a.
Proof. by exists 1; rewrite mul1r. Qed.
Lemma dvds_trans (b a c : R) : dvds a b -> dvds b c -> dvds a c.
Proof. by move=> [x ->] [y ->]; exists (y * x); rewrite mulrA. Qed.
Lemma gcd_iff (a b d c : R) : is_gcd a b d -> dvds c d <-> dvds c a /\ dvds c b.
Proof.
move=> [h1 h2 h3]; split=> [h|[]]; last exact: h3.
by split; [exact: dvds_trans h1|exact: dvds_trans h2].
Qed.
Lemma lcm_iff (a b m c : R) : is_lcm a b m -> dvds m c <-> dvds a c /\ dvds b c.
Proof.
move=> [h1 h2 h3]; split=> [h|[]]; last exact: h3.
by split; [exact: dvds_trans h|exact: dvds_trans h].
Qed.
End Math.

Section Code.
Variables (cfg : Cfg) (p : Prop) (E : Type) (R : idomainType) (rep : E -> R -> Prop).
Variables (AS : assoc_struct R) (S : eucl_struct R) (A : EuclAlg E).
Hypothesis hA : eucl_alg_spec cfg p rep AS S A.
Let hI := eu_idom_ok hA.
Let hR := id_ring_ok hI.
Let hE := eu_eu_ok hA.

Definition divides_all (s : seq R) (c : R) : Prop := forall a, In a s -> dvds c a.
Definition divided_by_all (s : seq R) (c : R) : Prop := forall a, In a s -> dvds a c.

Lemma value_in xs s x : Forall2 rep xs s -> In x xs -> exists2 a, rep x a & In a s.
Proof.
elim=> [|y b ys s' yb _ IH] //= [<-|/IH[a xa ha]]; first by exists b => //; left.
by exists a => //; right.
Qed.
Lemma member_in xs s a : Forall2 rep xs s -> In a s -> exists2 x, rep x a & In x xs.
Proof.
elim=> [|y b ys s' yb _ IH] //= [<-|/IH[x xa hx]]; first by exists y => //; left.
by exists x => //; right.
Qed.
Lemma same_values xs s ys t : Forall2 rep xs s -> Forall2 rep ys t ->
  (forall x, In x xs <-> In x ys) -> forall a, In a s <-> In a t.
Proof.
have fn := dom_fun (mo_dom_ok (ri_mon_ok hR)).
move=> hx hy e a; split=> ha.
  have [x xa /e /(value_in hy) [b xb hb]] := member_in hx ha.
  by rewrite (fn _ _ _ xa xb).
have [x xa /e /(value_in hx) [b xb hb]] := member_in hy ha.
by rewrite (fn _ _ _ xa xb).
Qed.

Lemma gcd_from_ok x d xs s : rep x d -> Forall2 rep xs s ->
  ensures p (gcd_from A x xs) (fun z => exists2 g, rep z g &
    forall c, dvds c g <-> dvds c d /\ divides_all s c).
Proof.
move=> xd h; elim: h x d xd => [|y b ys s' yb _ IH] x d xd.
  by apply: ensures_ret; exists d => // c; split=> [?|[]] //; split=> // a [].
apply: ensures_bind (gcd_ok hE xd yb) _ => z [e ze he].
apply: ensures_mono (IH _ _ ze) _ => w [g wg hg]; exists g => // c.
apply: iff_trans (hg c) _; split=> [[/(gcd_iff _ he)[h1 h2] h3]|[h1 h2]].
  by split=> // a [<-|/h3].
split; last by move=> a ha; apply: h2; right.
by apply/(gcd_iff _ he); split=> //; apply: h2; left.
Qed.
Lemma gcds_ok xs s : Forall2 rep xs s ->
  ensures p (gcds A xs) (fun z => exists2 g, rep z g & forall c, dvds c g <-> divides_all s c).
Proof.
move=> h; apply: ensures_bind (zero_ok (ri_cm_ok hR)) _ => x x0.
apply: ensures_mono (gcd_from_ok x0 h) _ => z [g zg hg]; exists g => // c.
apply: iff_trans (hg c) _; split=> [[]|] // ?; split=> //.
by exists 0; rewrite mul0r.
Qed.

Lemma lcm_from_ok x d xs s : rep x d -> Forall2 rep xs s ->
  ensures p (lcm_from A x xs) (fun z => exists2 g, rep z g &
    forall c, dvds g c <-> dvds d c /\ divided_by_all s c).
Proof.
move=> xd h; elim: h x d xd => [|y b ys s' yb _ IH] x d xd.
  by apply: ensures_ret; exists d => // c; split=> [?|[]] //; split=> // a [].
apply: ensures_bind (lcm_ok hE xd yb) _ => z [e ze he].
apply: ensures_mono (IH _ _ ze) _ => w [g wg hg]; exists g => // c.
apply: iff_trans (hg c) _; split=> [[/(lcm_iff _ he)[h1 h2] h3]|[h1 h2]].
  by split=> // a [<-|/h3].
split; last by move=> a ha; apply: h2; right.
by apply/(lcm_iff _ he); split=> //; apply: h2; left.
Qed.
Lemma lcms_ok xs s : Forall2 rep xs s ->
  ensures p (lcms A xs) (fun z => exists2 g, rep z g & forall c, dvds g c <-> divided_by_all s c).
Proof.
move=> h; apply: ensures_bind (one_ok (mo_mo_ok (ri_mon_ok hR))) _ => x x1.
apply: ensures_mono (lcm_from_ok x1 h) _ => z [g zg hg]; exists g => // c.
apply: iff_trans (hg c) _; split=> [[]|] // ?; split=> //.
by exists c; rewrite mulr1.
Qed.

(** The order of the elements and repetitions do not matter, up to associates. *)
Lemma gcds_perm xs s ys t : Forall2 rep xs s -> Forall2 rep ys t ->
  (forall x, In x xs <-> In x ys) ->
  answers p (let! g := gcds A xs in let! h := gcds A ys in associates A g h) true.
Proof.
move=> hx hy e; have st := same_values hx hy e.
apply: ensures_bind (gcds_ok hx) _ => z [g zg hg]; apply: ensures_bind (gcds_ok hy) _ => w [h wh hh].
apply: ensures_mono (associates_ok (id_id_ok hI) zg wh) _ => r /iffRL; apply; split.
- by apply/hh => a /st ha; apply: ((hg g).1 (dvds_refl g)).
- by apply/hg => a /st ha; apply: ((hh h).1 (dvds_refl h)).
Qed.
Lemma lcms_perm xs s ys t : Forall2 rep xs s -> Forall2 rep ys t ->
  (forall x, In x xs <-> In x ys) ->
  answers p (let! g := lcms A xs in let! h := lcms A ys in associates A g h) true.
Proof.
move=> hx hy e; have st := same_values hx hy e.
apply: ensures_bind (lcms_ok hx) _ => z [g zg hg]; apply: ensures_bind (lcms_ok hy) _ => w [h wh hh].
apply: ensures_mono (associates_ok (id_id_ok hI) zg wh) _ => r /iffRL; apply; split.
- by apply/hg => a /st ha; apply: ((hh h).1 (dvds_refl h)).
- by apply/hh => a /st ha; apply: ((hg g).1 (dvds_refl g)).
Qed.
End Code.
