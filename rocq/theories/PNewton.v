(** * PNewton.v -- Newton's iteration for inverses of residues. *)

From Coq Require Import ZArith Lia List.
From mathcomp Require Import all_ssreflect all_algebra ssrZ zify.
From Verif Require Import Rust Traits MInts MConstr Wp Spec PropSpec RingSpec PDefaults Laws.
From Verif Require Import RingTac PLaws NewtonSpec.

Set Implicit Arguments.
Unset Strict Implicit.
Unset Printing Implicit Defensive.

Import GRing.Theory.
Local Open Scope ring_scope.

Lemma newton_step (R : comRingType) (a b c m q r : R) : 1 - a * b = c * m ->
  b * (1 + 1 - a * b) = q * (m * m) + r -> 1 - a * r = (c * c + a * q) * (m * m).
Proof.
move=> h1 h2; have -> : r = b * (1 + 1 - a * b) - q * (m * m) by rewrite h2; cring.
have -> : (c * c + a * q) * (m * m) = (c * m) * (c * m) + a * q * (m * m) by cring.
by rewrite -h1; cring.
Qed.

Section Code.
Variables (cfg : Cfg) (p : Prop) (E : Type) (R : idomainType) (rep : E -> R -> Prop).
Variables (AS : assoc_struct R) (S : eucl_struct R) (A : EuclAlg E).
Hypothesis hA : eucl_alg_spec cfg p rep AS S A.
Let hI := eu_idom_ok hA.
Let hR := id_ring_ok hI.
Let hE := eu_eu_ok hA.
Let hS := mo_sg_ok (ri_mon_ok hR).

Lemma newton_loop_ok two a u k m w b v : rep two (1 + 1) -> rep a u -> rep m w -> rep b v ->
  w != 0 -> dvds w (1 - u * v) ->
  ensures p (newton_loop A two a k m b) (fun s => rep s.1 (w ^+ (expn 2 k)) /\
    exists2 c, rep s.2 c & dvds (w ^+ (expn 2 k)) (1 - u * c)).
Proof.
move=> h2 au; elim: k m w b v => [|k IH] m w b v mw bv w0 hd.
  by apply: ensures_ret; rewrite expr1; split=> //; exists v.
apply: ensures_bind (mul_ok hS mw mw) _ => m' mE.
apply: ensures_bind (mul_ok hS au bv) _ => s sE.
apply: ensures_bind (sub_ok (ri_ab_ok hR) h2 sE) _ => t tE.
apply: ensures_bind (mul_ok hS bv tE) _ => x xE.
have w20 : w * w != 0 by rewrite mulf_neq0.
apply: ensures_bind (rem_ok hE xE mE w20) _ => b' bE.
have -> : w ^+ expn 2 k.+1 = (w * w) ^+ expn 2 k by rewrite expnS exprM expr2.
apply: (IH _ _ _ _ mE bE w20); have [c cE] := hd.
have := e_div S (v * (1 + 1 - u * v)) w20.
by move=> /(newton_step cE) ->; eexists.
Qed.

Lemma newton_ok k a u m w b v : rep a u -> rep m w -> rep b v -> w != 0 -> dvds w (1 - u * v) ->
  ensures p (newton A k a m b) (fun s => rep s.1 (w ^+ (expn 2 k)) /\
    exists2 c, rep s.2 c & dvds (w ^+ (expn 2 k)) (1 - u * c)).
Proof.
move=> au mw bv w0 hd; apply: ensures_bind (one_ok (mo_mo_ok (ri_mon_ok hR))) _ => o oE.
apply: ensures_bind (add_ok (ri_cm_ok hR) oE oE) _ => two h2.
exact: (newton_loop_ok k h2 au mw bv w0 hd).
Qed.

Lemma newton_calls k a u m w b v : rep a u -> rep m w -> rep b v -> w != 0 ->
  returns (let! c := mul A a b in let! o := one A in let! d := Traits.sub A o c in divisible A d m) true ->
  ensures p (newton A k a m b) (fun s => rep s.1 (w ^+ (expn 2 k)) /\
    answers p (let! c := mul A a s.2 in let! o := one A in let! d := Traits.sub A o c in
               divisible A d s.1) true).
Proof.
have hc x y i j z l : rep x i -> rep y j -> rep z l ->
    decides p (let! c := mul A x y in let! o := one A in let! d := Traits.sub A o c in divisible A d z)
      (dvds l (1 - i * j)).
  move=> xi yj zl; apply: ensures_bind (mul_ok hS xi yj) _ => c cE.
  apply: ensures_bind (one_ok (mo_mo_ok (ri_mon_ok hR))) _ => o oE.
  apply: ensures_bind (sub_ok (ri_ab_ok hR) oE cE) _ => d dE.
  by apply: ensures_mono (divisible_ok (id_id_ok hI) dE zl) _ => r.
move=> au mw bv w0 ht; have hd := (ensures_value (hc _ _ _ _ _ _ au bv mw) ht).1 isT.
apply: ensures_mono (newton_ok k au mw bv w0 hd) _ => s [h1 [c h2 h3]]; split=> //.
by apply: ensures_mono (hc _ _ _ _ _ _ au h2 h1) _ => r /iffRL; apply.
Qed.
End Code.
