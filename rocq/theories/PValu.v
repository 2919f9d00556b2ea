(** * PValu.v -- how often one element divides another. *)

From Coq Require Import ZArith Lia List.
From mathcomp Require Import all_ssreflect all_algebra ssrZ zify.
From Verif Require Import Rust Traits MInts MConstr Wp Spec PropSpec RingSpec PDefaults Laws.
From Verif Require Import PInts PIntsZ PPoly PLaws PFact PIrr Quotient ValuSpec.

Set Implicit Arguments.
Unset Strict Implicit.
Unset Printing Implicit Defensive.

Import GRing.Theory.
Local Open Scope ring_scope.

Section Code.
Variables (cfg : Cfg) (p : Prop) (E : Type) (R : idomainType) (rep : E -> R -> Prop).
Variables (AS : assoc_struct R) (S : eucl_struct R) (A : EuclAlg E).
Hypothesis hA : eucl_alg_spec cfg p rep AS S A.
Let hI := eu_idom_ok hA.
Let hR := id_ring_ok hI.
Let hE := eu_eu_ok hA.
Variables (y : E) (b : R) (f : R -> nat).
Hypotheses (yb : rep y b) (b0 : b != 0) (fS : forall a, a != 0 -> (f a < f (a * b)%R)%N).

Lemma quo_multiple c : equo S (c * b) b = c.
Proof.
have e : erem S (c * b) b = 0 by rewrite -[c * b]add0r e_canon // e_rem0.
by apply: (mulIf b0); rewrite [RHS](e_div S (c * b) b0) e addr0.
Qed.

Lemma valuation_ok x a : rep x a -> a != 0 ->
  ensures p (valuation A x y) (fun s => exists2 c, rep s.2 c & a = c * b ^+ s.1 /\ ~ dvds b c).
Proof.
move=> xa a0.
pose I (n : nat) (s : nat * E) := exists2 c, rep s.2 c & (a = c * b ^+ s.1 /\ n = f c).
apply: (ensures_while_index (I := I) (n := f a)); first by exists a; rewrite ?mulr1.
move=> n s [c sc [aE ->]].
apply: ensures_mono (divisible_ok (id_id_ok hI) sc yb) _ => -[] hb; last first.
  by exists c => //; split=> // /hb.
have [d cE] := hb.1 isT; apply: ensures_bind (quo_ok hE sc yb b0) _ => z.
rewrite cE quo_multiple => zd; apply: ensures_ret.
have d0 : d != 0 by apply: contraNneq a0 => d0; rewrite aE cE d0 !mul0r.
exists (f d); first exact: fS.
by exists d => //; split=> //=; rewrite aE cE exprS mulrA.
Qed.

(** The result is determined by its properties. *)
Lemma valuation_unique n m (c d : R) : d != 0 -> c * b ^+ n = d * b ^+ m -> ~ dvds b c -> ~ dvds b d ->
  n = m /\ c = d.
Proof.
move=> d0 e hc hd; have bn i : b ^+ i != 0 by rewrite expf_neq0.
have [nm|mn|nm] := ltngtP n m.
- case: hc; exists (d * b ^+ (m - n).-1); apply: (mulIf (bn n)); rewrite e -mulrA -exprS -mulrA -exprD.
  by congr (_ * _ ^+ _); lia.
- case: hd; exists (c * b ^+ (n - m).-1); apply: (mulIf (bn m)); rewrite -e -mulrA -exprS -mulrA -exprD.
  by congr (_ * _ ^+ _); lia.
by split=> //; apply: (mulIf (bn n)); rewrite e nm.
Qed.

(** Divisors of products: the numbers add up for irreducible y. *)
Lemma valuation_mul x1 a1 x2 a2 : irreducible_elt b -> rep x1 a1 -> rep x2 a2 -> a1 != 0 -> a2 != 0 ->
  ensures p (let! s := valuation A x1 y in let! t := valuation A x2 y in
             let! x := mul A x1 x2 in let! u := valuation A x y in ret (s.1, t.1, u.1))
    (fun r => r.2 = (r.1.1 + r.1.2)%N).
Proof.
move=> bi xa1 xa2 a10 a20; apply: ensures_bind (valuation_ok xa1 a10) _ => s [c _ [aE1 hc]].
apply: ensures_bind (valuation_ok xa2 a20) _ => t [d _ [aE2 hd]].
apply: ensures_bind (mul_ok (mo_sg_ok (ri_mon_ok hR)) xa1 xa2) _ => x xE.
have a0 : a1 * a2 != 0 by rewrite mulf_neq0.
apply: ensures_bind (valuation_ok xE a0) _ => u [e _ [aE he]]; apply: ensures_ret => /=.
have cd : ~ dvds b (c * d) by move=> /(irr_prime S bi) h; apply: hd; exact: h.
have cd0 : c * d != 0 by apply: contraNneq a0 => h; rewrite aE1 aE2 mulrACA h mul0r.
have eq1 : e * b ^+ u.1 = (c * d) * b ^+ (s.1 + t.1) by rewrite -aE aE1 aE2 mulrACA exprD.
by case: (valuation_unique cd0 eq1 he cd).
Qed.
End Code.

(** ** Integers and polynomials *)
Lemma valuation_integers (x y : Z) : x <> Z0 -> Z.lt 1 (Z.abs y) ->
  exists n z, [/\ returns (valuation ZZ x y) (n, z), x = Z.mul z (Z.pow y (Z.of_nat n)) & ~ Z.divide y z].
Proof.
pose cfg := mkCfg true true 64.
move=> x0 y1; have y0 : (y : [idomainType of Z]) != 0 by apply/eqP => y0; rewrite y0 in y1.
have fS (a : [idomainType of Z]) : a != 0 -> (Z.abs_nat a < Z.abs_nat (a * y)%R)%N.
  move=> /eqP a0; rewrite -[(a * y)%R]/(Z.mul a y); have : a <> Z0 by [].
  by move: y1; clear; nia.
have x0' : (x : [idomainType of Z]) != 0 by apply/eqP.
have [[[n z] [hz [c zc [xE hd]]]]|[[]]] := @valuation_ok cfg False Z [idomainType of Z] zz_rep _ _ ZZ (ZZ_ok cfg False) y y
  Z.abs_nat (erefl y) y0 fS x x (erefl x) x0'.
rewrite /= in xE; have {zc} zE : z = c := zc; subst z; exists n, c; split=> //.
rewrite {1}xE; congr (Z.mul c _); elim: n {hz xE} => [|n IH] //.
by rewrite exprS IH Nat2Z.inj_succ Z.pow_succ_r //; lia.
Qed.

Section Polys.
Variables (cfg : Cfg) (p : Prop) (E : Type) (F : fieldType) (rep : E -> F -> Prop) (A : FieldAlg E).
Hypothesis hA : field_alg_spec cfg p rep A.
Local Notation R := (poly_idomainType F).

Lemma poly_shrinks (Q : R) : (1 < size (Q : {poly F}))%N -> forall a : R, a != 0 ->
  (size (a : {poly F}) < size ((a * Q)%R : {poly F}))%N.
Proof.
move=> s1 a a0; have Q0 : Q != 0 by rewrite -size_poly_eq0; case: size s1.
rewrite size_mul //; have : (0 < size (a : {poly F}))%N by rewrite size_poly_gt0.
by move: s1; move: (size (a : {poly F})) (size (Q : {poly F})); lia.
Qed.

Lemma valuation_polys x (P : {poly F}) y (Q : {poly F}) : poly_of rep x P -> poly_of rep y Q ->
  (0 < size x)%N -> (1 < size y)%N ->
  ensures p (valuation (PolyEucl A) x y) (fun s => exists2 W : {poly F}, poly_of rep s.2 W &
    P = W * Q ^+ s.1 /\ ~~ (Q %| W)).
Proof.
move=> xP yQ sx sy; rewrite (reps_size xP) size_poly_gt0 in sx; rewrite (reps_size yQ) in sy.
have Q0 : (Q : R) != 0 by rewrite -size_poly_eq0; case: size sy.
have h := valuation_ok (PolyEucl_ok hA) yQ Q0 (@poly_shrinks Q sy) xP sx.
apply: ensures_mono h _ => s [W sW [PE hd]]; exists W => //; split=> //.
by apply/negP => /dvdpP[q qE]; apply: hd; exists q.
Qed.
End Polys.
