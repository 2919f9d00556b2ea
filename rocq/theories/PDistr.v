(** * PDistr.v -- which orders of the crate are distributive. *)

From Coq Require Import ZArith NArith.
From mathcomp Require Import all_ssreflect all_algebra zify ssrZ.
From Verif Require Import Rust Traits Spec PDefaults PLaws PDiv PVec POrders.

Set Implicit Arguments.
Unset Strict Implicit.
Unset Printing Implicit Defensive.

Import GRing.Theory.
Local Open Scope ring_scope.

(** A total order is distributive. *)
Lemma total_distributive (V : eqType) (le : rel V) :
  (forall u, le u u) -> (forall u v w, le u v -> le v w -> le u w) ->
  (forall u v, le u v || le v u) -> distributive_order le.
Proof.
move=> le0 leT leO; split=> a b c l d g1 g2 m [] + + + [] + + + [] + + + [] + + + [].
  move=> h1 h2 h3 i1 i2 i3 j1 j2 j3 k1 k2 k3 l1 l2 l3.
  have [bc|cb] := orP (leO b c).
    apply: (leT _ g2) => //; apply: k3 => //; apply: (leT _ _ _ i2); exact: h3.
  apply: (leT _ g1) => //; apply: j3 => //; apply: (leT _ _ _ i2); exact: h3.
move=> h1 h2 h3 i1 i2 i3 j1 j2 j3 k1 k2 k3 l1 l2 l3.
have [bc|cb] := orP (leO b c).
  apply: (leT _ g1) => //; apply: j3 => //; apply: (leT _ _ _ _ i2); exact: h3.
apply: (leT _ g2) => //; apply: k3 => //; apply: (leT _ _ _ _ i2); exact: h3.
Qed.

Lemma Z_distributive : distributive_order (V := ssrZ.ZInstances.Z_eqType) Z.leb.
Proof. by apply: total_distributive => *; lia. Qed.
Lemma N_distributive : distributive_order (V := bin_nat_eqType) N.leb.
Proof. by apply: total_distributive => *; lia. Qed.
Lemma bool_distributive : distributive_order (implb : rel bool).
Proof. by apply: total_distributive => [[]|[] [] []|[] []]. Qed.
Lemma bool_compl (u v : bool) : is_compl implb true false u v -> v = ~~ u.
Proof.
case: u v => [] [] //= [[_ _ h1] [_ _ h2]]; first by have := h1 true isT isT.
by have := h2 false isT isT.
Qed.
Lemma bool_complement (u v w : bool) :
  is_compl implb true false u v -> is_compl implb true false v w -> w = u.
Proof. by move=> /bool_compl-> /bool_compl->; rewrite negbK. Qed.

(** Orders of vectors. *)
Section Pointwise.
Variables (n : nat) (V : eqType) (le : rel V).
Hypothesis le0 : forall u, le u u.
Notation le' := (@pointwise_le n V le).

Definition upd (f : {ffun 'I_n -> V}) (i : 'I_n) (a : V) : {ffun 'I_n -> V} :=
  [ffun j => if j == i then a else f j].

Lemma glb_point a b c : is_glb le' a b c -> forall i, is_glb le (a i) (b i) (c i).
Proof.
move=> [/forallP ca /forallP cb h] i; split=> // d da db.
suff /forallP h' : le' (upd c i d) c.
  by have := h' i; rewrite ffunE eqxx.
by apply: h; apply/forallP => j; rewrite ffunE; case: eqP => [->|_].
Qed.
Lemma lub_point a b c : is_lub le' a b c -> forall i, is_lub le (a i) (b i) (c i).
Proof.
move=> [/forallP ca /forallP cb h] i; split=> // d da db.
suff /forallP h' : le' c (upd c i d).
  by have := h' i; rewrite ffunE eqxx.
by apply: h; apply/forallP => j; rewrite ffunE; case: eqP => [->|_].
Qed.
Lemma pointwise_distributive : distributive_order le -> distributive_order le'.
Proof.
move=> [h1 h2]; split=> a b c l d g1 g2 m hl hd hg1 hg2 hm; apply/forallP => i.
  exact: (h1 _ _ _ _ _ _ _ _ (lub_point hl i) (glb_point hd i) (glb_point hg1 i)
    (glb_point hg2 i) (lub_point hm i)).
exact: (h2 _ _ _ _ _ _ _ _ (glb_point hl i) (lub_point hd i) (lub_point hg1 i)
    (lub_point hg2 i) (glb_point hm i)).
Qed.
Lemma pointwise_complement top bot :
  (forall u v w, is_compl le top bot u v -> is_compl le top bot v w -> w = u) ->
  forall u v w, is_compl le' [ffun=> top] [ffun=> bot] u v ->
    is_compl le' [ffun=> top] [ffun=> bot] v w -> w = u.
Proof.
move=> h u v w [g1 l1] [g2 l2]; apply/ffunP => i; apply: (h _ (v i)).
  by have := glb_point g1 i; have := lub_point l1 i; rewrite !ffunE.
by have := glb_point g2 i; have := lub_point l2 i; rewrite !ffunE.
Qed.
End Pointwise.

(** Divisibility. *)
Section Divisibility.
Variables (R : idomainType) (S : eucl_struct R).
Variable le : rel R.
Hypothesis leP : forall a b, le a b <-> dvds a b.

Lemma glb_gcd (a b c : R) : is_glb le a b c <-> is_gcd a b c.
Proof.
split=> -[/leP h1 /leP h2 h3]; split=> // d.
  by move=> /leP d1 /leP d2; apply/leP; exact: h3.
by move=> /leP d1 /leP d2; apply/leP; exact: h3.
Qed.
Lemma lub_lcm (a b c : R) : is_lub le a b c <-> is_lcm a b c.
Proof.
split=> -[/leP h1 /leP h2 h3]; split=> // d.
  by move=> /leP d1 /leP d2; apply/leP; exact: h3.
by move=> /leP d1 /leP d2; apply/leP; exact: h3.
Qed.
Lemma has_lcm (a b : R) : exists m, is_lcm a b m.
Proof.
have [d [_ [_ [_ hd]]]] := bezout S a b.
have [d0|d0] := eqVneq d 0; last by exists (equo S a d * b); exact: lcm_of_gcd.
move: hd; rewrite d0 => -[/dvd0s -> /dvd0s -> _]; exists 0.
by split=> //; exact: dvds0.
Qed.

(** lcm (a, gcd (b, c)) is divided by gcd (lcm (a, b), lcm (a, c)). *)
Lemma lcm_distr (a b c g d l1 l2 m : R) :
  is_gcd b c g -> is_lcm a g d -> is_lcm a b l1 -> is_lcm a c l2 -> is_gcd l1 l2 m ->
  dvds m d.
Proof.
move=> hg hd h1 h2 hm.
(* m | gcd (l1, lcm (a, c)) | lcm (gcd (l1, a), gcd (l1, c)), and the second
   gcd divides lcm (gcd (c, a), gcd (c, b)) *)
have [x [_ [_ [_ hx]]]] := bezout S l1 a; have [y [_ [_ [_ hy]]]] := bezout S l1 c.
have [z hz] := has_lcm x y.
apply: (dvds_trans (gcd_distr S h2 hm hx hy hz)).
have [da dg d3] := hd; have [xl xa x3] := hx; have [z1 z2 z3] := hz.
apply: z3; first exact: dvds_trans xa da.
have [s [_ [_ [_ hs]]]] := bezout S c a; have [t [_ [_ [_ ht]]]] := bezout S c b.
have [r hr] := has_lcm s t.
apply: (dvds_trans (gcd_distr S h1 (is_gcdC hy) hs ht hr)).
have [r1 r2 r3] := hr; have [s1 s2 _] := hs; have [t1 t2 _] := ht.
apply: r3; first exact: dvds_trans s2 da.
by apply: dvds_trans dg; have [_ _] := hg; apply.
Qed.
Lemma divisibility_distributive : distributive_order le.
Proof.
split=> a b c l d g1 g2 m.
  move=> /lub_lcm h1 /glb_gcd h2 /glb_gcd h3 /glb_gcd h4 /lub_lcm h5; apply/leP.
  exact: (gcd_distr S h1 h2 h3 h4 h5).
move=> /glb_gcd h1 /lub_lcm h2 /lub_lcm h3 /lub_lcm h4 /glb_gcd h5; apply/leP.
exact: lcm_distr h1 h2 h3 h4 h5.
Qed.
End Divisibility.
