(** * PBezout.v -- the coefficients of extended_gcd are small. *)

From Coq Require Import ZArith Lia Psatz.
From mathcomp Require Import all_ssreflect all_algebra zify ssrZ.
From Verif Require Import Rust Traits MInts MConstr Spec PropSpec RingTac Wp ZFacts ZEgcd ZBezout NumSpec.
From Verif Require Import PDefaults PEucl PIntsZ PInts PNum PChecked PPoly BezoutSpec.

Set Implicit Arguments.
Unset Strict Implicit.
Unset Printing Implicit Defensive.

(** ** Integers *)
Section Integers.
Local Open Scope Z_scope.
Implicit Types x y g s t : Z.

Lemma zz_egcd_returns x y g s t : eg x y g s t -> returns (extended_gcd ZZ x y) (g, s, t).
Proof.
move=> h; suff [n hn] : exists n : nat, forall f k : nat, (n <= f)%N ->
  extended_gcd_fuel f (is_zero ZZ) (one ZZ) (zero ZZ) (mul ZZ) (sub ZZ) (quo_rem ZZ)
    x y k = Done (g, s, t) by exists n => k nk; exact: hn.
elim: h => {x y g s t} [x|x y g u v y0 h [n hn]].
  by exists 1%N => -[//|f] k _.
exists n.+1 => -[//|f] k; rewrite ltnS => nf /=.
rewrite /bind /= (_ : (y =? 0) = false); last by case: Z.eqb_spec.
by rewrite integers_quo_remE // /= hn.
Qed.

Lemma eg_small x y g s t : eg x y g s t -> small_bezout x y g s t.
Proof.
move=> h; split.
- exact: eg_bezout h.
- exact: eg_gcd h.
- by move=> y0; rewrite y0 in h; have [-> [-> ->]] := eg_zero _ _ _ _ h.
- move=> y0 /(zrem_dvd x y y0) r0; have [u [h2 ->]] := eg_step _ _ _ _ _ h y0.
  by rewrite r0 in h2; have [-> [-> ->]] := eg_zero _ _ _ _ h2.
- exact: eg_general h.
- exact: eg_positive h.
Qed.

Lemma zz_small x y : exists g s t,
  returns (extended_gcd ZZ x y) (g, s, t) /\ small_bezout x y g s t.
Proof.
have [g [s [t h]]] := eg_total x y; exists g, s, t; split; last exact: eg_small.
exact: zz_egcd_returns.
Qed.
Lemma ci_small cfg w x y : 4 <= w -> fits w x -> fits w y -> ~ min_by_m1 w x y ->
  exists g s t, returns (extended_gcd (CheckedInts cfg w) x y) (g, s, t) /\
    small_bezout x y g s t.
Proof.
move=> w4 /fitsP hx /fitsP hy /badP hb; have [g [s [t h]]] := eg_total x y.
exists g, s, t; split; last exact: eg_small.
have w2 : 2 <= w by lia.
exact: (ci_extended_gcd_returns cfg w2 w4 h hx hy hb).
Qed.
End Integers.

(** ** The default method, in terms of the Euclidean algorithm *)
Section Generic.
Import GRing.Theory.
Local Open Scope ring_scope.
Variables (p : Prop) (E : Type) (R : idomainType) (rep : E -> R -> Prop).
Variables (S : eucl_struct R) (iz : E -> M bool).
Hypothesis iz_ok : forall x a, rep x a -> answers p (iz x) (a == 0).

Inductive egr : R -> R -> R -> R -> R -> Prop :=
| egr0 a : egr a 0 a 1 0
| egrS a b d u v : b != 0 -> egr b (erem S a b) d u v ->
    egr a b d v (u - v * equo S a b).

Lemma default_extended_gcd_egr (on ze : M E) ml sb qr x a y b :
  gives p rep on 1 -> gives p rep ze 0 ->
  (forall x a y b, rep x a -> rep y b -> gives p rep (ml x y) (a * b)) ->
  (forall x a y b, rep x a -> rep y b -> gives p rep (sb x y) (a - b)) ->
  (forall x a y b, rep x a -> rep y b -> b != 0 ->
    ensures p (qr x y) (fun z => rep z.1 (equo S a b) /\ rep z.2 (erem S a b))) ->
  rep x a -> rep y b ->
  ensures p (default_extended_gcd iz on ze ml sb qr x y) (fun z => exists d s t,
      [/\ rep z.1.1 d, rep z.1.2 s & rep z.2 t] /\ egr a b d s t).
Proof.
move=> h1 h0 hm hs hq xa yb.
set Q := (Q in ensures _ _ Q).
suff: (exists v n, (forall f k, (n <= f)%N -> (n <= k)%N ->
           extended_gcd_fuel f iz on ze ml sb qr x y k = Done v) /\ Q v) \/
      (p /\ exists n, forall f k, (n <= f)%N -> (n <= k)%N ->
           extended_gcd_fuel f iz on ze ml sb qr x y k = Panicked).
  move=> [[v [n [hh Qv]]]|[pp [n hh]]]; [left; exists v; split=> //|right; split=> //];
  by exists n => k nk; apply: hh.
rewrite {}/Q; have [k leqk] := ubnP (emeasure S b).
elim: k x a y b xa yb leqk => // k IH x a y b xa yb; rewrite ltnS => leqk.
case: (iz_ok yb) => [[b0 [[n1 r1] b0E]]|[pp [n1 r1]]]; last first.
  by right; split=> //; exists n1.+1 => -[//|f] k' nf nk' /=; rewrite /bind r1 // ltnW.
rewrite {}b0E in r1; case: eqVneq r1 => [bz|bnz] r1.
  have: ensures p (let! o := on in let! z := ze in ret (x, o, z))
    (fun z => exists d s t, [/\ rep z.1.1 d, rep z.1.2 s & rep z.2 t] /\ egr a b d s t).
    apply: ensures_bind h1 _ => o o1; apply: ensures_bind h0 _ => z z0.
    apply: ensures_ret; exists a, 1, 0; split=> //=.
    by rewrite bz; exact: egr0.
  move=> [[v [[n2 r2] Qv]]|[pp [n2 r2]]]; [left; exists v, (maxn n1 n2).+1; split=> //
    |right; split=> //; exists (maxn n1 n2).+1]; move=> [//|f] k' _ /ltnW;
  by rewrite geq_max => /andP[k1 k2]; rewrite /= /bind r1 //; apply: r2.
case: (hq _ _ _ _ xa yb bnz) => [[q [[n2 r2] [q1 q2]]]|[pp [n2 r2]]]; last first.
  right; split=> //; exists (maxn n1 n2).+1 => -[//|f] k' _ /ltnW.
  by rewrite geq_max => /andP[k1 k2]; rewrite /= /bind r1 // r2.
have [] := IH _ _ _ _ yb q2 (leq_trans (emeasure_rem S a bnz) leqk); last first.
  move=> [pp [n3 r3]]; right; split=> //; exists (maxn n3 (maxn n1 n2)).+1 => -[//|f] k'.
  rewrite ltnS => nf /ltnW; move: nf.
  rewrite !geq_max => /andP[f1 /andP[f2 f3]] /andP[k1 /andP[k2 k3]].
  by rewrite /= /bind r1 // r2 // r3.
move=> [[[g u] v] [n3 [r3 [d [s [t [[gd us vt] dE]]]]]]]; rewrite /= in gd us vt.
have: ensures p (let! vq := ml v q.1 in let! z := sb u vq in ret (g, v, z))
    (fun z => exists d s t, [/\ rep z.1.1 d, rep z.1.2 s & rep z.2 t] /\ egr a b d s t).
  apply: ensures_bind (hm _ _ _ _ vt q1) _ => vq vqE.
  apply: ensures_bind (hs _ _ _ _ us vqE) _ => z zE.
  apply: ensures_ret; exists d, t, (s - t * equo S a b); split=> //=.
  exact: egrS.
move=> [[w [[n4 r4] Qw]]|[pp [n4 r4]]]; [left; exists w, (maxn n4 (maxn n3 (maxn n1 n2))).+1; split=> //
    |right; split=> //; exists (maxn n4 (maxn n3 (maxn n1 n2))).+1];
move=> [//|f] k'; rewrite ltnS => nf /ltnW; move: nf;
rewrite !geq_max => /andP[f0 /andP[f1 /andP[f2 f3]]] /andP[k0 /andP[k1 /andP[k2 k3]]];
rewrite /= /bind r1 // r2 // r3 //; exact: r4.
Qed.

Lemma egr_bezout a b d s t : egr a b d s t -> d = s * a + t * b /\ is_gcd a b d.
Proof.
elim=> {a b d s t} [a|a b d u v bnz _ [dE dg]].
  by rewrite mul1r mul0r addr0; split=> //; exact: is_gcd0.
split; last exact: is_gcd_step (e_div S a bnz) dg.
by rewrite {1}dE {2}(e_div S a bnz); cring.
Qed.
End Generic.

(** ** Polynomials *)
Section Poly.
Import GRing.Theory.
Local Open Scope ring_scope.
Variables (cfg : Cfg) (p : Prop) (E : Type) (F : fieldType) (rep : E -> F -> Prop).
Variable A : FieldAlg E.
Hypothesis hF : field_alg_spec cfg p rep A.
Local Notation egp := (@egr (poly_idomainType F) (poly_estruct F)).
Local Notation prep := (poly_rep rep).

Lemma egp_zero (a b d s t : {poly F}) : egp a b d s t -> b = 0 -> [/\ d = a, s = 1 & t = 0].
Proof. by case=> // ? ? ? ? ? /eqP. Qed.
Lemma egp_size (a b d s t : {poly F}) : egp a b d s t -> b != 0 ->
  d != 0 /\ (if modp a b == 0 then [/\ d = b, s = 0 & t = 1]
   else [/\ (size d < size b)%N, (size s + size d <= size b)%N & (size t + size d <= size a)%N]).
Proof.
elim=> {a b d s t} [a|a b d u v b0 h IH _]; first by rewrite eqxx.
case: (eqVneq (modp a b) 0) => [r0|rn0].
  by have [-> -> ->] := egp_zero h r0; rewrite mul0r subr0.
have {h} [dn0 h] := IH rn0; split=> //.
have hr : (size (modp a b) < size b)%N by rewrite ltn_modp.
have ha : a = divp a b * b + modp a b := divp_eq a b.
have [q0|q0] := eqVneq (divp a b) 0.
  have rE : modp a b = a by rewrite {2}ha q0 mul0r add0r.
  rewrite /= q0 mulr0 subr0; move: h hr; rewrite /= rE; case: eqVneq => [_|_].
    by move=> [-> -> ->] hr; rewrite size_poly1 size_poly0 add1n.
  by move=> [h1 h2 h3] hr; split=> //; exact: ltn_trans hr.
have sa : (size a = size (divp a b) + size b - 1)%N.
  have hq : (0 < size (divp a b))%N by rewrite size_poly_gt0.
  rewrite {1}ha size_addl size_mul //; first by rewrite subn1.
  by apply: leq_trans hr _; rewrite -ltnS prednK ?addn_gt0 ?hq // -add1n leq_add2r.
have hq : (0 < size (divp a b))%N by rewrite size_poly_gt0.
have hm (x y z : {poly F}) :
  (size (x - y * z)%R <= maxn (size x) (size y + size z).-1)%N.
  by apply: leq_trans (size_add _ _) _; rewrite size_opp geq_max leq_maxl leq_max size_mul_leq orbT.
have {}hm := hm u v (divp a b).
pose r : {poly F} := modp a b; pose q : {poly F} := divp a b.
have aux (sr sb sq sa' sd su sv st : nat) : (0 < sq -> sr < sb -> sa' = sq + sb - 1 ->
   st <= maxn su (sv + sq).-1 ->
   (sd = sr /\ su = 0 /\ sv = 1) \/ (sd < sr /\ su + sd <= sr /\ sv + sd <= sb) ->
   [/\ sd < sb, sv + sd <= sb & st + sd <= sa'])%N.
  move=> h1 h2 -> ; rewrite leq_max => h4 [[-> [su0 sv1]]|[h5 [h6 h7]]].
    by move: h4; rewrite su0 sv1 => h4; split; [lia|lia|case/orP: h4; lia].
  by split; [lia|lia|case/orP: h4; lia].
apply: (aux (size r) (size b) (size q) (size a) (size d) (size u) (size v) _ hq hr sa hm).
move: h; case: eqVneq => [_ [-> -> ->]|_ [h1 h2 h3]]; [left|by right].
by rewrite size_poly0 size_poly1.
Qed.

Lemma poly_short v (P : {poly F}) u Q : prep v P -> prep u Q ->
  ensures p (extended_gcd (PolyEucl A) v u) (fun z =>
    short_bezout v u z.1.1 z.1.2 z.2 /\
    exists d s t, [/\ prep z.1.1 d, prep z.1.2 s, prep z.2 t, d = s * P + t * Q & is_gcd P Q d]).
Proof.
move=> vP uQ; have hE := PolyEucl_ok hF; have hR := id_ring_ok (eu_idom_ok hE).
apply: ensures_mono (default_extended_gcd_egr (S := poly_estruct F) (is_zero_ok (ri_cm_ok hR))
  (one_ok (mo_mo_ok (ri_mon_ok hR))) (zero_ok (ri_cm_ok hR)) (mul_ok (mo_sg_ok (ri_mon_ok hR)))
  (sub_ok (ri_ab_ok hR)) (poly_quo_rem_ok hF) vP uQ) _.
move=> [[g s] t] [d [S [T [/= [gd sS tT] h]]]]; have [h1 h2] := egr_bezout h.
split; last by exists d, S, T.
split; rewrite ?(reps_size gd) ?(reps_size sS) ?(reps_size tT) ?(reps_size vP) ?(reps_size uQ).
- move/eqP; rewrite size_poly_eq0 => /eqP Q0; have [-> -> ->] := egp_zero h Q0.
  by rewrite size_poly1 size_poly0.
- rewrite size_poly_gt0 => Q0 sd; have [_] := egp_size h Q0; case: ifP => [_ [_ -> ->]|_ []].
    by rewrite size_poly0 size_poly1.
  by rewrite sd ltnn.
- rewrite size_poly_gt0 => Q0 sd; have [d0] := egp_size h Q0; case: ifP => [_ [dQ _ _]|_ [h3 h4 h5]].
    by rewrite dQ in sd.
  by split=> //; rewrite size_poly_gt0.
Qed.
End Poly.
