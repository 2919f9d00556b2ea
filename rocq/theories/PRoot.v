(** * PRoot.v -- square roots and quadratic equations over finite fields. *)

From Coq Require Import ZArith Lia List.
From mathcomp Require Import all_ssreflect all_fingroup all_solvable all_algebra all_field ssrZ zify.
From Verif Require Import Rust Traits MInts MConstr Wp Spec PropSpec RingSpec PDefaults Quotient Laws.
From Verif Require Import RingTac TowerSpec PTower FFSpec PFF RootSpec.

Set Implicit Arguments.
Unset Strict Implicit.
Unset Printing Implicit Defensive.

Import GRing.Theory.
Local Open Scope ring_scope.

Section Math.
Variables (F : fieldType) (s : seq F) (us : uniq s) (hs : forall u, u \in s).
Local Notation k := (size s).

Lemma even_root (u : F) : ~~ odd k -> u ^+ k./2 * u ^+ k./2 = u.
Proof.
move=> ek; rewrite -exprD addnn; have := odd_double_half k; rewrite (negbTE ek) add0n => ->.
exact: (fermat us hs).
Qed.
Lemma even_char : ~~ odd k -> 2%N \in [char F].
Proof.
move=> ek; have [r [d [pr rF d0 kE]]] := char_card us hs.
by move: ek; rewrite kE oddX negb_or -lt0n d0 /=; case: (even_prime pr) => [<- //|->].
Qed.
Lemma even_unique (u v : F) : ~~ odd k -> u * u = v * v -> u = v.
Proof.
move=> ek h; apply/eqP; rewrite -subr_eq0; apply/eqP.
have c2 := even_char ek; have o2 : (1 + 1 : F) = 0 by have := charf0 c2.
have : (u - v) * (u - v) = 0.
  have -> : (u - v) * (u - v) = u * u - v * v + (1 + 1) * (v * v - u * v) by cring.
  by rewrite o2 mul0r addr0 h subrr.
by move/eqP; rewrite mulf_eq0 orbb => /eqP.
Qed.

Hypothesis k3 : (k %% 4 = 3)%N.
Local Notation h := (k.+1 %/ 4)%N.
Lemma h4 : (4 * h = k.+1)%N.
Proof. by have := divn_eq k 4; rewrite k3; lia. Qed.
Lemma three_root (v : F) : (v * v) ^+ h * (v * v) ^+ h = v * v.
Proof.
rewrite -!expr2 -!exprM; have -> : (2 * (h * 2) = k.+1)%N by rewrite -h4; lia.
by rewrite exprS (fermat us hs).
Qed.
Lemma three_two : (1 + 1 : F) != 0.
Proof.
have := odd_neq us hs; rewrite -subr_eq0 opprK; apply.
by have := divn_eq k 4; rewrite k3; lia.
Qed.
End Math.

Section Code.
Variables (cfg : Cfg) (E : Type) (F : fieldType) (rep : E -> F -> Prop) (A : FieldAlg E) (k : nat).
Hypothesis hA : finite_field cfg rep A k.
Hypothesis gk : good_isize cfg (Z.of_nat k).
Let mem := fun x => exists u, rep x u.
Let hF := finite_field_contract hA.
Let hR := id_ring_ok (eu_idom_ok (fi_eucl_ok hF)).
Let hD := mo_dom_ok (ri_mon_ok hR).
Let hM := mo_mo_ok (ri_mon_ok hR).
Let hS := mo_sg_ok (ri_mon_ok hR).
Let hC := ri_cm_ok hR.
Let hN := ri_ab_ok hR.
Let hI := fi_fi_ok hF.
Let enum : exists s : seq F, [/\ uniq s, size s = k & forall u, u \in s].
Proof. by have [_ [_ _ h]] := finite_field_ok hA. Qed.
Let inj x y u : rep x u -> rep y u -> x = y.
Proof. by have [_ _ h] := finite_field_members hA; exact: h. Qed.

Lemma root_even x : ~~ odd k -> mem x ->
  exists2 y, returns (fpower A (Z.of_nat k./2) x) y &
    mem y /\ returns (mul A y y) x /\
    forall z, mem z -> returns (mul A z z) x -> z = y.
Proof.
move=> ek [u xu]; have [s [us sk hs]] := enum.
have k1 := card_gt1 us hs; rewrite sk in k1.
have h0 : (0 < k./2)%N by case: (k) k1 => [|[|n]].
have hk : (k./2 <= k)%N by rewrite -[X in (_ <= X)%N]odd_double_half -addnn addnA leq_addl.
have [|[y [ry yu]]|[[]]] := pwE hA gk hk _ xu; first by rewrite h0.
exists y => //; split; first by exists (u ^+ k./2).
have sq : u ^+ k./2 * u ^+ k./2 = u by rewrite -sk; apply: even_root; rewrite // sk.
split; first by apply: call hA _ _ _ _ xu; rewrite -[u]sq; exact: (mul_ok hS yu yu).
move=> z [v zv] rz; apply: (inj (u := v) zv); suff -> : v = u ^+ k./2 by [].
apply: (@even_unique F s us hs); rewrite ?sk //= sq.
exact: (finite_field_fun hA (called (mul_ok hS zv zv) rz) xu).
Qed.

Hypothesis k3 : (k %% 4 = 3)%N.
Let hk : (k.+1 %/ 4 <= k)%N.
Proof. by have := divn_eq k 4; rewrite k3; lia. Qed.
Let h0 : (0 < k.+1 %/ 4)%N.
Proof. by have := divn_eq k 4; rewrite k3; lia. Qed.

Lemma root_pow x u : rep x u -> gives False rep (fpower A (Z.of_nat (k.+1 %/ 4)%N) x) (u ^+ (k.+1 %/ 4)%N).
Proof. by apply: (pwE hA gk hk); rewrite h0. Qed.

Lemma root_square (u : F) : (exists v : F, v * v = u) <-> u ^+ (k.+1 %/ 4)%N * u ^+ (k.+1 %/ 4)%N = u.
Proof.
split=> [[v <-]|h]; last by eexists; exact: h.
by have [s [us sk hs]] := enum; have := three_root us hs; rewrite sk; apply.
Qed.

Lemma root_three x : mem x ->
  decides False (let! y := fpower A (Z.of_nat (k.+1 %/ 4)%N) x in let! z := mul A y y in equals A z x)
    (exists2 y, mem y & returns (mul A y y) x).
Proof.
move=> [u xu]; apply: ensures_bind (root_pow xu) _ => y yu.
apply: ensures_bind (mul_ok hS yu yu) _ => z zu.
apply: ensures_mono (equals_ok hD zu xu) _ => e ->.
apply: iff_trans (iff_sym (square_iff hA xu)).
by apply: iff_trans (iff_sym (root_square u)); split=> /eqP.
Qed.

Lemma quadratic_ok x b y c : rep x b -> rep y c ->
  ensures False (quadratic A k x y) (fun o =>
    match o with
    | Some w => exists u v, [/\ rep w.1 u, rep w.2 v &
        forall r, r * r + b * r + c = 0 <-> r = u \/ r = v]
    | None => forall r, r * r + b * r + c <> 0
    end).
Proof.
move=> xb yc; have [l [us sk hs]] := enum.
have two0 : (1 + 1 : F) != 0 by apply: (@three_two F l us hs); rewrite sk.
apply: ensures_bind (one_ok hM) _ => o oE.
apply: ensures_bind (add_ok hC oE oE) _ => two tE.
apply: ensures_bind (add_ok hC tE tE) _ => four fE.
apply: ensures_bind (mul_ok hS xb xb) _ => s sE.
apply: ensures_bind (mul_ok hS fE yc) _ => t ttE.
apply: ensures_bind (sub_ok hN sE ttE) _ => d dE.
apply: ensures_bind (root_pow dE) _ => w wE.
apply: ensures_bind (mul_ok hS wE wE) _ => z zE.
have := root_square (b * b - (1 + 1 + (1 + 1)) * c); move: wE zE.
move: (_ ^+ (k.+1 %/ 4)%N) => q wE zE hq.
apply: ensures_bind (equals_ok hD zE dE) _ => _ ->.
have key r : (1 + 1 + (1 + 1)) * (r * r + b * r + c) =
    ((1 + 1) * r + b) * ((1 + 1) * r + b) - (b * b - (1 + 1 + (1 + 1)) * c) by cring.
case: eqP => [e|e]; last first.
  apply: ensures_ret => r hr; apply: e; apply/hq.
  exists ((1 + 1) * r + b); apply/eqP; rewrite -subr_eq0 -key hr mulr0 //.
apply: ensures_bind (neg_ok hN xb) _ => n nE.
apply: ensures_bind (add_ok hC nE wE) _ => u uE.
apply: ensures_bind (sub_ok hN nE wE) _ => v vE.
apply: ensures_bind (fdiv_ok hI uE tE two0) _ => x1 x1E.
apply: ensures_bind (fdiv_ok hI vE tE two0) _ => x2 x2E.
apply: ensures_ret; do 2 eexists; split; [exact: x1E|exact: x2E|] => r.
have four0 : (1 + 1 + (1 + 1) : F) != 0.
  have -> : (1 + 1 + (1 + 1) : F) = (1 + 1) * (1 + 1) by cring.
  by rewrite mulf_neq0.
have f (a : F) : r = (- b + a) / (1 + 1) <-> (1 + 1) * r + b - a = 0.
  split=> [->|h]; first by rewrite mulrC divfK //; cring.
  apply: (mulIf two0); rewrite divfK //; apply/eqP; rewrite -subr_eq0 -h; apply/eqP; cring.
rewrite !f.
have -> : r * r + b * r + c = 0 <->
    ((1 + 1) * r + b - q) * ((1 + 1) * r + b - - q) = 0.
  have -> : ((1 + 1) * r + b - q) * ((1 + 1) * r + b - - q) =
    (1 + 1 + (1 + 1)) * (r * r + b * r + c) by rewrite key -e; cring.
  split=> [->|/eqP]; first by rewrite mulr0.
  by rewrite mulf_eq0 (negbTE four0) => /eqP.
split=> [/eqP|[->|->]]; rewrite ?mul0r ?mulr0 //.
by rewrite mulf_eq0 => /orP[]/eqP; [left|right].
Qed.
End Code.
