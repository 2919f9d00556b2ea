(** * PCount.v -- numbers of members of the finite structures, and Lagrange's
    theorem for the group algebras. *)

From Coq Require Import ZArith Znumtheory Lia List.
From mathcomp Require Import all_ssreflect all_fingroup all_solvable all_algebra ssrZ zify.
From Verif Require Import Rust Traits MInts MConstr Wp Spec PropSpec RingSpec NumSpec TowerSpec.
From Verif Require Import PDefaults PGroups PIntsZ PInts Quotient PQuot PModular PPoly PMatProps PTower.

Set Implicit Arguments.
Unset Strict Implicit.
Unset Printing Implicit Defensive.

Import GRing.Theory.

(** ** Lagrange *)
Section Lagrange.
Variables (V : eqType) (op : V -> V -> V) (e : V) (inv : V -> V) (s : seq V).
Hypotheses (us : uniq s) (es : e \in s).
Hypothesis ops : forall u v, u \in s -> v \in s -> op u v \in s.
Hypothesis invs : forall u, u \in s -> inv u \in s.
Hypothesis opA : forall u v w, op u (op v w) = op (op u v) w.
Hypothesis op1 : forall u, op e u = u.
Hypothesis opV : forall u, u \in s -> op (inv u) u = e.

Let k := (size s).-1.
Let sk : size s = k.+1. Proof. by rewrite /k; case: (s) es. Qed.
Definition lg_type : predArgType := 'I_(size s).-1.+1.
Let val (i : lg_type) : V := nth e s i.
Let idx (u : V) : lg_type := inord (index u s).
Let valK u : u \in s -> val (idx u) = u.
Proof. by move=> hu; rewrite /val /idx inordK ?nth_index // -/k -sk index_mem. Qed.
Let lt_i (i : lg_type) : (i < size s)%nat.
Proof. by have := ltn_ord i; move: (nat_of_ord i) => j; rewrite -/k -sk. Qed.
Let val_in i : val i \in s.
Proof. exact: mem_nth. Qed.
Let idxK i : idx (val i) = i.
Proof.
by apply: val_inj; rewrite /= /idx /val index_uniq // inordK //; exact: ltn_ord.
Qed.
Let valI i j : val i = val j -> i = j.
Proof. by move=> h; rewrite -[i]idxK h idxK. Qed.
Definition lg_mul (i j : lg_type) : lg_type := idx (op (val i) (val j)).
Definition lg_inv (i : lg_type) : lg_type := idx (inv (val i)).
Definition lg_one : lg_type := idx e.
Let mulE i j : val (lg_mul i j) = op (val i) (val j).
Proof. by rewrite valK ?ops. Qed.
Lemma lg_mulA : associative lg_mul.
Proof. by move=> i j l; apply: valI; rewrite !mulE opA. Qed.
Lemma lg_mul1 : left_id lg_one lg_mul.
Proof. by move=> i; apply: valI; rewrite mulE valK. Qed.
Lemma lg_mulV : left_inverse lg_one lg_inv lg_mul.
Proof. by move=> i; apply: valI; rewrite mulE !valK ?opV ?invs. Qed.
Definition lg_mixin := FinGroup.Mixin lg_mulA lg_mul1 lg_mulV.

Lemma lagrange u : u \in s -> npow op e u (size s) = e.
Proof.
move=> hu.
pose bT := BaseFinGroupType lg_type lg_mixin.
pose gT := FinGroup.Pack (lg_mulV : left_inverse (1 : bT) (@invg bT) (@mulg bT))%g.
have h (i : gT) j : val (i ^+ j)%g = npow op e (val i) j.
  elim: j => [|j IH]; first by rewrite expg0 /= valK.
  by rewrite expgS /= -IH mulE.
have := h (idx u) (size s); rewrite valK // => <-.
have := @expg_cardG gT [group of [set: gT]] (idx u) (in_setT _).
rewrite cardsT card_ord -/k -sk => ->.
exact: valK.
Qed.
End Lagrange.

(** ** Counting members *)

(** The members denoting the elements of a list. *)
Lemma members_count (E : Type) (V : eqType) (rep : E -> V -> Prop) (s : seq V) :
  (forall x u v, rep x u -> rep x v -> u = v) ->
  (forall x y u, rep x u -> rep y u -> x = y) ->
  (forall u, u \in s -> exists x, rep x u) -> uniq s ->
  has_members (fun x => exists2 u, rep x u & u \in s) (size s).
Proof.
move=> rfun inj surj us.
have [xs h] : exists xs, Forall2 rep xs s.
  elim: (s) surj => [|u t IH] surj; first by exists [::].
  have [|x xu] := surj u; first exact: mem_head.
  have [|xs h] := IH; first by move=> v vt; apply: surj; rewrite inE vt orbT.
  by exists (x :: xs); constructor.
exists xs; split.
- elim: h us => {xs s surj} [|x u xs s xu h IH] /=; first by constructor.
  move=> /andP[us ss]; constructor; last exact: IH.
  move=> xin; case/negP: us.
  elim: h xin => [|y v ys t yv h IH2] //= [yx|yin]; last by rewrite inE IH2 ?orbT.
  by rewrite inE (rfun x u v) ?eqxx // -yx.
- by elim: h => //= x u xs' us' _ _ ->.
- move=> x; split=> [|[u xu]].
    elim: h => [|y v ys t yv h IH] //= [<-|/IH[u xu ut]]; first by exists v; rewrite ?mem_head.
    by exists u; rewrite // inE ut orbT.
  elim: h => [|y v ys t yv h IH] //=; rewrite inE => /orP[/eqP uv|/IH]; last by right.
  by left; apply: inj yv _; rewrite -uv.
Qed.

Lemma has_members_iff (E : Type) (P Q : E -> Prop) k :
  (forall x, P x <-> Q x) -> has_members P k -> has_members Q k.
Proof.
by move=> h [s [h1 h2 h3]]; exists s; split=> // x; rewrite h3 h.
Qed.

(** [rep] is a bijection between the members and a type with [k] elements. *)
Definition counted (E : Type) (V : eqType) (rep : E -> V -> Prop) (k : nat) : Prop :=
  [/\ forall x u v, rep x u -> rep x v -> u = v,
      forall x y u, rep x u -> rep y u -> x = y,
      forall u, exists x, rep x u &
      exists s : seq V, [/\ uniq s, size s = k & forall u, u \in s]].

Lemma counted_members (E : Type) (V : eqType) (rep : E -> V -> Prop) k :
  counted rep k -> has_members (fun x => exists u, rep x u) k.
Proof.
move=> [rfun inj surj [s [us <- hs]]].
apply: has_members_iff (members_count rfun inj (fun u _ => surj u) us) => x.
by split=> [[u xu _]|[u xu]]; exists u.
Qed.

(** ** Lagrange's theorem for the group algebras *)
Section GroupLagrange.
Variables (cfg : Cfg) (E : Type) (V : eqType) (rep : E -> V -> Prop).
Variables (op : V -> V -> V) (e : V) (inv : V -> V) (G : GroupAlg E).
Hypothesis hG : group_alg_spec cfg False rep op e inv G.
Hypothesis inj : forall x y u, rep x u -> rep y u -> x = y.
Hypotheses (opA : associative op) (op1 : left_id e op).
Hypothesis opV : forall x u, rep x u -> op (inv u) u = e.

Lemma group_lagrange k : has_members (fun x => exists u, rep x u) k ->
  good_isize cfg (Z.of_nat k) -> forall x u, rep x u ->
  gives False rep (gpower G (Z.of_nat k) x) e.
Proof.
move=> [xs [nd lk hin]] gk x u xu.
have rfun : forall x u v, rep x u -> rep x v -> u = v := dom_fun (mo_dom_ok (gr_mon_ok hG)).
have [us h] : exists us, Forall2 rep xs us.
  have : forall y, In y xs -> exists v, rep y v by move=> y /hin.
  elim: (xs) => [|y ys IH] hm; first by exists [::].
  have [v yv] := hm y (or_introl erefl).
  by have [|us h] := IH; [move=> z zi; apply: hm; right|exists (v :: us); constructor].
have mem v : v \in us <-> exists y, rep y v.
  split=> [|[y yv]].
    elim: h => [|y w ys ws yw _ IH] //; rewrite inE => /orP[/eqP->|/IH //]; by exists y.
  have : In y xs by apply/hin; exists v.
  elim: h => [|z w ys ws zw _ IH] //= [zy|/IH]; last by rewrite inE => ->; rewrite orbT.
  by rewrite inE (rfun y v w) ?eqxx // -zy.
have un : uniq us.
  elim: h nd => [|y w ys ws yw h IH] //= nd; have [h1 h2] := NoDup_cons_iff y ys.
  have [ny nys] := h1 nd; rewrite IH // andbT; apply/negP => wi; apply: ny.
  elim: h wi => [|z w' zs ws' zw _ IH2] //; rewrite inE => /orP[/eqP ww|/IH2]; last by right.
  by left; apply: inj zw _; rewrite -ww.
have sk : size us = k by rewrite -lk; elim: h => //= *; congr S.
have hM := mo_mo_ok (gr_mon_ok hG); have hS := mo_sg_ok (gr_mon_ok hG).
have lag v : v \in us -> npow op e v (size us) = e.
  apply: (@lagrange _ op e inv us un) => //.
  - by apply/mem; have [[y [_ ye]]|[[]]] := one_ok hM; exists y.
  - move=> a b /mem[y ya] /mem[z zb]; apply/mem.
    by have [[t [_ tab]]|[[]]] := mul_ok hS ya zb; exists t.
  - move=> a /mem[y ya]; apply/mem.
    by have [[t [_ tab]]|[[]]] := ginv_ok (gr_gr_ok hG) ya; exists t.
  - by move=> a /mem[y ya]; exact: opV ya.
have := gpower_ok (gr_gr_ok hG) gk xu.
suff -> : zpow op e inv u (Z.of_nat k) = e by [].
have hu : u \in us by apply/mem; exists x.
rewrite -[RHS](lag u hu) sk; case: (k) => [|j] //=; by rewrite SuccNat2Pos.id_succ.
Qed.
End GroupLagrange.
