(** * PDigit.v -- digits. *)

From Coq Require Import ZArith Lia List.
From mathcomp Require Import all_ssreflect all_algebra ssrZ zify.
From Verif Require Import Rust Traits MInts MConstr Wp Spec PropSpec RingSpec PDefaults Laws.
From Verif Require Import RingTac PLaws DigitSpec.

Set Implicit Arguments.
Unset Strict Implicit.
Unset Printing Implicit Defensive.

Import GRing.Theory.
Local Open Scope ring_scope.

Section Code.
Variables (cfg : Cfg) (p : Prop) (E : Type) (R : idomainType) (rep : E -> R -> Prop).
Variables (AS : assoc_struct R) (S : eucl_struct R) (A : EuclAlg E).
Hypothesis hA : eucl_alg_spec cfg p rep AS S A.
Let hI := eu_idom_ok hA.
Let hR := id_ring_ok hI.
Let hE := eu_eu_ok hA.
Let hS := mo_sg_ok (ri_mon_ok hR).
Let hC := ri_cm_ok hR.

Definition digit_value (w : R) (ds : seq R) (q : R) : R :=
  \sum_(i < size ds) ds`_i * w ^+ i + q * w ^+ size ds.
Lemma digit_value_cons w d ds q : digit_value w (d :: ds) q = digit_value w ds q * w + d.
Proof.
rewrite /digit_value big_ord_recl expr0 mulr1 -addrA addrC; congr (_ + _).
rewrite mulrDl mulr_suml -mulrA -exprSr; congr (_ + _).
by apply: eq_bigr => i _; rewrite /= -mulrA -exprSr.
Qed.

Lemma to_digits_ok m w n x a : rep m w -> w != 0 -> rep x a ->
  ensures p (to_digits A m n x) (fun t => exists ds q,
    [/\ Forall2 rep t.1 ds, rep t.2 q, size ds = n, all (fun d => erem S d w == d) ds &
        digit_value w ds q = a]).
Proof.
move=> mw w0; elim: n x a => [|n IH] x a xa.
  apply: ensures_ret; exists [::], a; split=> //; first by constructor.
  by rewrite /digit_value big_ord0 add0r mulr1.
apply: ensures_bind (quo_rem_ok hE xa mw w0) _ => qr [qE rE].
apply: ensures_bind (IH _ _ qE) _ => t [ds [q [h1 h2 h3 h4 h5]]]; apply: ensures_ret.
exists (erem S a w :: ds), q; split=> //=; first by constructor.
- by rewrite h3.
- by rewrite h4 andbT; apply/eqP; rewrite {2}(e_div S a w0) addrC e_canon.
by rewrite digit_value_cons h5 -e_div.
Qed.
Lemma from_digits_ok m w ds es y q : rep m w -> Forall2 rep ds es -> rep y q ->
  gives p rep (from_digits A m ds y) (digit_value w es q).
Proof.
move=> mw h yq; elim: h => [|d e ds' es' de _ IH].
  by apply: ensures_ret; rewrite /digit_value big_ord0 add0r mulr1.
apply: ensures_bind IH _ => x xE; apply: ensures_bind (mul_ok hS xE mw) _ => z zE.
by rewrite digit_value_cons; exact: (add_ok hC zE de).
Qed.

(** The digits are unique. *)
Lemma digits_unique w ds q ds' q' : w != 0 -> size ds = size ds' ->
  all (fun d => erem S d w == d) ds -> all (fun d => erem S d w == d) ds' ->
  digit_value w ds q = digit_value w ds' q' -> ds = ds' /\ q = q'.
Proof.
move=> w0; elim: ds ds' => [|d ds IH] [|d' ds'] //=.
  by move=> _ _ _; rewrite /digit_value !big_ord0 !add0r !mulr1.
move=> [sz] /andP[/eqP hd hds] /andP[/eqP hd' hds']; rewrite !digit_value_cons => e.
have dd : d = d'.
  by rewrite -hd -hd' -(e_canon S d (digit_value w ds q) w0) addrC e addrC e_canon.
rewrite dd in e *; have /(mulIf w0) h := addIr _ e.
by have [-> ->] := IH _ sz hds hds' h.
Qed.

Lemma digits_back m w n x a : rep m w -> w != 0 -> rep x a ->
  answers p (let! t := to_digits A m n x in let! y := from_digits A m t.1 t.2 in equals A y x) true.
Proof.
move=> mw w0 xa; apply: ensures_bind (to_digits_ok n mw w0 xa) _ => t [ds [q [h1 h2 _ _ h5]]].
apply: ensures_bind (from_digits_ok mw h1 h2) _ => y; rewrite h5 => yE.
by apply: ensures_mono (equals_ok (mo_dom_ok (ri_mon_ok hR)) yE xa) _ => b ->; rewrite eqxx.
Qed.
Lemma digits_forth m w ds es y q : rep m w -> w != 0 -> Forall2 rep ds es -> rep y q ->
  all (fun d => erem S d w == d) es ->
  ensures p (let! x := from_digits A m ds y in to_digits A m (size ds) x) (fun t =>
    Forall2 rep t.1 es /\ rep t.2 q).
Proof.
move=> mw w0 h yq hes; apply: ensures_bind (from_digits_ok mw h yq) _ => x xE.
have sz : size ds = size es by elim: h => [|? ? ? ? _ _] //= ->.
apply: ensures_mono (to_digits_ok (size ds) mw w0 xE) _ => t [es' [q' [h1 h2 h3 h4 h5]]].
by have [<- <-] := digits_unique w0 (etrans h3 sz) h4 hes h5.
Qed.
End Code.
