(** * PEucl.v -- the default methods of IntegralDomain and EuclideanDomain, and
    the blanket impls for fields, meet the contracts. *)

From Coq Require Import ZArith Lia.
From mathcomp Require Import all_ssreflect all_algebra zify.
From Verif Require Import Rust Traits RingTac Wp Spec PDefaults.

Set Implicit Arguments.
Unset Strict Implicit.
Unset Printing Implicit Defensive.

Import GRing.Theory.
Local Open Scope ring_scope.

Section IDomDefaults.
Variables (p : Prop) (E : Type) (R : idomainType) (rep : E -> R -> Prop).

Lemma default_divisible_ok iz td x a y b :
  (forall x a, rep x a -> answers p (iz x) (a == 0)) ->
  (b != 0 -> ensures p (td x y) (fun o =>
      match o with
      | Some z => exists2 c, rep z c & a = c * b
      | None => ~ dvds b a
      end)) ->
  rep x a -> rep y b -> decides p (default_divisible iz td x y) (dvds b a).
Proof.
move=> hz ht xa yb; apply: ensures_bind (hz _ _ yb) _ => r ->.
case: eqVneq ht => [->|b0] ht.
  apply: ensures_mono (hz _ _ xa) _ => r' ->; split=> [/eqP ->|/dvd0s ->] //.
  exact: dvds0.
apply: ensures_bind (ht isT) _ => -[z [c zc ->]|nd]; apply: ensures_ret; split=> //.
by move=> _; exists c.
Qed.

Lemma default_associates_ok dv x a y b :
  (forall x a y b, rep x a -> rep y b -> decides p (dv x y) (dvds b a)) ->
  rep x a -> rep y b ->
  decides p (default_associates dv x y) (dvds a b /\ dvds b a).
Proof.
move=> hd xa yb; apply: ensures_bind (hd _ _ _ _ xa yb) _ => r hr; case: ifP => r1.
  apply: ensures_mono (hd _ _ _ _ yb xa) _ => r' hr'; split=> [/hr' h|[/hr' h _]] //.
  by split=> //; apply/hr.
apply: ensures_ret; split=> // -[_ /hr]; by rewrite r1.
Qed.
End IDomDefaults.

Section EuclDefaults.
Variables (p : Prop) (E : Type) (R : idomainType) (rep : E -> R -> Prop).
Variable (S : eucl_struct R).
Variables (iz : E -> M bool).
Hypothesis iz_ok : forall x a, rep x a -> answers p (iz x) (a == 0).

Section QuoRem.
Variable qr : E -> E -> M (E * E).
Hypothesis qr_ok : forall x a y b, rep x a -> rep y b -> b != 0 ->
    ensures p (qr x y) (fun z => rep z.1 (equo S a b) /\ rep z.2 (erem S a b)).
Hypothesis qr_zero : forall x a y, rep x a -> rep y 0 -> panics (qr x y).

Lemma default_quo_ok x a y b : rep x a -> rep y b -> b != 0 ->
  gives p rep (default_quo qr x y) (equo S a b).
Proof. by move=> xa yb b0; apply: ensures_bind (qr_ok xa yb b0) _ => z [z1 z2]; apply: ensures_ret. Qed.

Lemma default_rem_ok x a y b : rep x a -> rep y b -> b != 0 ->
  gives p rep (default_rem qr x y) (erem S a b).
Proof. by move=> xa yb b0; apply: ensures_bind (qr_ok xa yb b0) _ => z [z1 z2]; apply: ensures_ret. Qed.

Lemma default_quo_zero x a y : rep x a -> rep y 0 -> panics (default_quo qr x y).
Proof. by move=> xa yb; apply: panics_bind; apply: qr_zero xa yb. Qed.

Lemma default_rem_zero x a y : rep x a -> rep y 0 -> panics (default_rem qr x y).
Proof. by move=> xa yb; apply: panics_bind; apply: qr_zero xa yb. Qed.
End QuoRem.

Lemma default_reduced_ok qo x a y b :
  (b != 0 -> gives p rep (qo x y) (equo S a b)) ->
  rep x a -> rep y b ->
  answers p (default_reduced iz qo x y) ((b == 0) || (erem S a b == a)).
Proof.
move=> hq xa yb; apply: ensures_orM (iz_ok yb) _ => b0.
by apply: ensures_bind (hq b0) _ => q hqq; rewrite -equo_eq0 //; apply: iz_ok.
Qed.

Section Gcd.
Variable rm : E -> E -> M E.
Hypothesis rm_ok : forall x a y b, rep x a -> rep y b -> b != 0 ->
    gives p rep (rm x y) (erem S a b).

Lemma default_gcd_ok x a y b : rep x a -> rep y b ->
  ensures p (default_gcd iz rm x y) (fun z => exists2 d, rep z d & is_gcd a b d).
Proof.
move=> xa yb.
apply: (@ensures_bind _ _ _ _ _ (fun s => exists2 d, rep s.1 d & is_gcd a b d)); last first.
  by move=> s h; apply: ensures_ret.
pose I n (s : E * E) := exists a' b', [/\ rep s.1 a', rep s.2 b',
   n = emeasure S b' & forall d, is_gcd a' b' d -> is_gcd a b d].
apply: (@ensures_while_index _ _ _ _ I _ (emeasure S b)).
  by exists a, b.
move=> n s [a' [b' [sa sb -> h]]].
apply: ensures_mono (ensures_notM (iz_ok sb)) _ => r ->; case: eqVneq => [b0|b0] /=.
  by exists a' => //; apply: h; rewrite b0; exact: is_gcd0.
apply: ensures_bind (rm_ok sa sb b0) _ => r' r'e; apply: ensures_ret.
exists (emeasure S (erem S a' b')); first exact: emeasure_rem.
exists b', (erem S a' b'); split=> // d dg; apply: h.
exact: is_gcd_step (e_div S a' b0) dg.
Qed.
End Gcd.

Lemma default_lcm_ok ml qo gc x a y b :
  (forall x a y b, rep x a -> rep y b -> gives p rep (ml x y) (a * b)) ->
  (forall x a y b, rep x a -> rep y b -> b != 0 -> gives p rep (qo x y) (equo S a b)) ->
  (forall x a y b, rep x a -> rep y b ->
     ensures p (gc x y) (fun z => exists2 d, rep z d & is_gcd a b d)) ->
  rep x a -> rep y b ->
  ensures p (default_lcm iz ml qo gc x y) (fun z => exists2 m, rep z m & is_lcm a b m).
Proof.
move=> hm hq hg xa yb; apply: ensures_bind (hg _ _ _ _ xa yb) _ => g [d gd dg].
apply: ensures_bind (iz_ok gd) _ => r ->; case: eqVneq => [d0|d0].
  apply: ensures_ret; exists d => //; rewrite d0 in dg *.
  case: dg => /dvd0s -> /dvd0s -> _; split; [exact: dvds_refl|exact: dvds_refl|by []].
apply: ensures_bind (hq _ _ _ _ xa gd d0) _ => q qq.
apply: ensures_mono (hm _ _ _ _ qq yb) _ => z zz; eexists; first exact: zz.
exact: lcm_of_gcd.
Qed.

Lemma default_extended_gcd_ok (on ze : M E) ml sb qr x a y b :
  gives p rep on 1 -> gives p rep ze 0 ->
  (forall x a y b, rep x a -> rep y b -> gives p rep (ml x y) (a * b)) ->
  (forall x a y b, rep x a -> rep y b -> gives p rep (sb x y) (a - b)) ->
  (forall x a y b, rep x a -> rep y b -> b != 0 ->
    ensures p (qr x y) (fun z => rep z.1 (equo S a b) /\ rep z.2 (erem S a b))) ->
  rep x a -> rep y b ->
  ensures p (default_extended_gcd iz on ze ml sb qr x y) (fun z => exists d s t,
      [/\ rep z.1.1 d, rep z.1.2 s & rep z.2 t] /\
      d = s * a + t * b /\ is_gcd a b d).
Proof.
move=> h1 h0 hm hs hq xa yb.
set Q := (Q in ensures _ _ Q).
suff: (exists v n, (forall f k, (n <= f)%N -> (n <= k)%N ->
           extended_gcd_fuel f iz on ze ml sb qr x y k = Done v) /\ Q v) \/
      (p /\ exists n, forall f k, (n <= f)%N -> (n <= k)%N ->
           extended_gcd_fuel f iz on ze ml sb qr x y k = Panicked).
  move=> [[v [n [hh Qv]]]|[pp [n hh]]]; [left; exists v; split=> //|right; split=> //];
  by exists n => k nk; apply: hh.
rewrite {}/Q; have [k leqk] := ubnP (emeasure S b).
elim: k x a y b xa yb leqk => // k IH x a y b xa yb; rewrite ltnS => leqk.
case: (iz_ok yb) => [[b0 [[n1 r1] b0E]]|[pp [n1 r1]]]; last first.
  by right; split=> //; exists n1.+1 => -[//|f] k' nf nk' /=; rewrite /bind r1 // ltnW.
rewrite {}b0E in r1; case: eqVneq r1 => [bz|bnz] r1.
  have: ensures p (let! o := on in let! z := ze in ret (x, o, z))
    (fun z => exists d s t, [/\ rep z.1.1 d, rep z.1.2 s & rep z.2 t] /\
       d = s * a + t * b /\ is_gcd a b d).
    apply: ensures_bind h1 _ => o o1; apply: ensures_bind h0 _ => z z0.
    apply: ensures_ret; exists a, 1, 0; split=> //=.
    by rewrite bz mul1r mul0r addr0; split=> //; exact: is_gcd0.
  move=> [[v [[n2 r2] Qv]]|[pp [n2 r2]]]; [left; exists v, (maxn n1 n2).+1; split=> //
    |right; split=> //; exists (maxn n1 n2).+1]; move=> [//|f] k' _ /ltnW;
  by rewrite geq_max => /andP[k1 k2]; rewrite /= /bind r1 //; apply: r2.
case: (hq _ _ _ _ xa yb bnz) => [[q [[n2 r2] [q1 q2]]]|[pp [n2 r2]]]; last first.
  right; split=> //; exists (maxn n1 n2).+1 => -[//|f] k' _ /ltnW.
  by rewrite geq_max => /andP[k1 k2]; rewrite /= /bind r1 // r2.
have [] := IH _ _ _ _ yb q2 (leq_trans (emeasure_rem S a bnz) leqk); last first.
  move=> [pp [n3 r3]]; right; split=> //; exists (maxn n3 (maxn n1 n2)).+1 => -[//|f] k'.
  rewrite ltnS => nf /ltnW; move: nf.
  rewrite !geq_max => /andP[f1 /andP[f2 f3]] /andP[k1 /andP[k2 k3]].
  by rewrite /= /bind r1 // r2 // r3.
move=> [[[g u] v] [n3 [r3 [d [s [t [[gd us vt] [dE dg]]]]]]]]; rewrite /= in gd us vt.
have: ensures p (let! vq := ml v q.1 in let! z := sb u vq in ret (g, v, z))
    (fun z => exists d s t, [/\ rep z.1.1 d, rep z.1.2 s & rep z.2 t] /\
       d = s * a + t * b /\ is_gcd a b d).
  apply: ensures_bind (hm _ _ _ _ vt q1) _ => vq vqE.
  apply: ensures_bind (hs _ _ _ _ us vqE) _ => z zE.
  apply: ensures_ret; exists d, t, (s - t * equo S a b); split=> //=; split.
    by rewrite {1}dE {2}(e_div S a bnz); cring.
  exact: is_gcd_step (e_div S a bnz) dg.
move=> [[w [[n4 r4] Qw]]|[pp [n4 r4]]]; [left; exists w, (maxn n4 (maxn n3 (maxn n1 n2))).+1; split=> //
    |right; split=> //; exists (maxn n4 (maxn n3 (maxn n1 n2))).+1];
move=> [//|f] k'; rewrite ltnS => nf /ltnW; move: nf;
rewrite !geq_max => /andP[f0 /andP[f1 /andP[f2 f3]]] /andP[k0 /andP[k1 /andP[k2 k3]]];
rewrite /= /bind r1 // r2 // r3 //; exact: r4.
Qed.

Lemma default_relative_primes_ok (iv : E -> M bool) gc x a y b :
  (forall x a, rep x a -> decides p (iv x) (exists v, inverse_of *%R 1 a v)) ->
  ensures p (gc x y) (fun z => exists2 d, rep z d & is_gcd a b d) ->
  decides p (default_relative_primes iv gc x y) (coprime_to a b).
Proof.
move=> hi hg; apply: ensures_bind hg _ => g [d gd dg].
apply: ensures_mono (hi _ _ gd) _ => r ->; rewrite -(gcd_coprime S dg).
by split=> [[v [h _]]|[v h]]; exists v => //; split=> //; rewrite mulrC.
Qed.

(** All default methods at once, from quo_rem (and reduced). *)
Lemma eucl_default (A : IDomAlg E) AS cfg qr rd :
  idom_alg_spec cfg p rep AS A ->
  (forall x a y b, rep x a -> rep y b -> b != 0 ->
    ensures p (qr x y) (fun z => rep z.1 (equo S a b) /\ rep z.2 (erem S a b))) ->
  (forall x a y, rep x a -> rep y 0 -> panics (qr x y)) ->
  (forall x a y b, rep x a -> rep y b ->
    answers p (rd x y) ((b == 0) || (erem S a b == a))) ->
  let quo := default_quo qr in
  let rem := default_rem qr in
  let gcd := default_gcd iz rem in
  eucl_spec p rep S (mkEuclideanDomain qr quo rem rd gcd
    (default_lcm iz (mul A) quo gcd)
    (default_extended_gcd iz (one A) (zero A) (mul A) (sub A) qr)
    (default_relative_primes (invertible A) gcd)).
Proof.
move=> hA hqr hqz hrd /=.
have hR := id_ring_ok hA; have hM := ri_mon_ok hR.
have hm := mul_ok (mo_sg_ok hM).
have hg := default_gcd_ok (default_rem_ok hqr).
split=> //=.
- exact: default_quo_ok.
- exact: default_rem_ok.
- exact: default_quo_zero.
- exact: default_rem_zero.
- by move=> x a y b xa yb; apply: default_lcm_ok => //; exact: default_quo_ok.
- move=> x a y b xa yb; apply: default_extended_gcd_ok => //.
  + exact: one_ok (mo_mo_ok hM).
  + exact: zero_ok (ri_cm_ok hR).
  + exact: sub_ok (ri_ab_ok hR).
- move=> x a y b xa yb; apply: default_relative_primes_ok (hg _ _ _ _ xa yb).
  exact: invertible_ok (mo_mo_ok hM).
Qed.
End EuclDefaults.

(** ** The blanket impls for fields *)
Section Blanket.
Variables (cfg : Cfg) (p : Prop) (E : Type) (F : fieldType) (rep : E -> F -> Prop).
Variables (A : RingAlg E) (FA : Field E).
Hypothesis hA : ring_alg_spec cfg p rep *%R 1 A.
Hypothesis hF : field_spec cfg p rep FA.

Let iz := is_zero_ok (ri_cm_ok hA).

Lemma field_dvds (a b : F) : b != 0 -> dvds b a.
Proof. by move=> b0; exists (a / b); rewrite divfK. Qed.

Lemma blanket_try_div x a y b : rep x a -> rep y b -> b != 0 ->
  ensures p (field_try_div (fdiv FA) x y) (fun o =>
      match o with
      | Some z => exists2 c, rep z c & a = c * b
      | None => ~ dvds b a
      end).
Proof.
move=> xa yb b0; apply: ensures_bind (fdiv_ok hF xa yb b0) _ => z zE.
by apply: ensures_ret; exists (a / b) => //; rewrite divfK.
Qed.

Lemma field_idom_ok : idom_spec p rep (field_assoc F) (field_idom A FA).
Proof.
have hd x a y b : rep x a -> rep y b ->
    decides p (default_divisible (is_zero A) (field_try_div (fdiv FA)) x y) (dvds b a).
  by move=> xa yb; apply: default_divisible_ok (xa) (yb) => // b0; exact: blanket_try_div.
split=> //=.
- exact: blanket_try_div.
- by move=> x a y xa yb; apply: panics_bind; exact: (fdiv_zero hF xa yb).
- by move=> x a y b xa yb; exact: default_associates_ok hd xa yb.
- move=> x a xa; apply: ensures_bind (iz xa) _ => r ->; rewrite /arep /=.
  case: eqVneq => a0; first exact: zero_ok (ri_cm_ok hA).
  by rewrite mulVf //; apply: one_ok (mo_mo_ok (ri_mon_ok hA)).
- by move=> x a xa a0; exact: (finv_ok hF).
- by move=> x x0; exact: (finv_zero hF x0).
Qed.

Lemma assert_nonzero_ok y b : rep y b -> b != 0 ->
  ensures p (assert_nonzero A y) (fun _ => True).
Proof. by move=> yb b0; apply: ensures_bind (iz yb) _ => r ->; apply: ensures_assert. Qed.

Lemma assert_nonzero_zero y : rep y 0 -> panics (assert_nonzero A y).
Proof.
move=> y0; apply: panics_ensures (iz y0) _ => r ->; apply: panics_assert.
by rewrite eqxx.
Qed.

Lemma field_gcd_math (a b : F) d : d != 0 -> ~~ ((a == 0) && (b == 0)) -> is_gcd a b d.
Proof.
move=> d0 ab; split; try exact: field_dvds.
move=> c ca cb; apply: field_dvds; apply: contra ab => /eqP c0.
by rewrite c0 in ca cb; rewrite (dvd0s ca) (dvd0s cb) eqxx.
Qed.

Lemma field_eucl_ok : eucl_spec p rep (field_estruct F) (field_eucl A FA).
Proof.
have h0 := zero_ok (ri_cm_ok hA).
have h1 := one_ok (mo_mo_ok (ri_mon_ok hA)).
have hqr x a y b : rep x a -> rep y b -> b != 0 -> ensures p (field_quo_rem A FA x y)
   (fun z => rep z.1 (equo (field_estruct F) a b) /\ rep z.2 (erem (field_estruct F) a b)).
  move=> xa yb b0; apply: ensures_bind (assert_nonzero_ok yb b0) _ => _ _.
  apply: ensures_bind (fdiv_ok hF xa yb b0) _ => q qE.
  by apply: ensures_bind h0 _ => z z0; apply: ensures_ret.
have hgcd x a y b : rep x a -> rep y b ->
    ensures p (field_gcd A x y) (fun z => exists2 d, rep z d & is_gcd a b d).
  move=> xa yb; apply: ensures_bind (ensures_andM (iz xa) (fun _ => iz yb)) _ => r ->.
  case: ifP => [/andP[/eqP -> /eqP ->]|ab].
    by apply: ensures_mono h0 _ => z z0; exists 0 => //; exact: is_gcd0.
  apply: ensures_mono h1 _ => z z1; exists 1 => //; apply: field_gcd_math.
    exact: oner_neq0.
  by rewrite ab.
split=> //=.
- move=> x a y b xa yb b0; apply: ensures_bind (assert_nonzero_ok yb b0) _ => _ _.
  exact: (fdiv_ok hF).
- by move=> x a y b xa yb b0; apply: ensures_bind (assert_nonzero_ok yb b0) _ => _ _.
- by move=> x a y xa yb; apply: panics_bind; apply: assert_nonzero_zero.
- by move=> x a y xa yb; apply: panics_bind; apply: assert_nonzero_zero.
- by move=> x a y xa yb; apply: panics_bind; apply: assert_nonzero_zero.
- move=> x a y b xa yb; rewrite orbC eq_sym.
  by apply: ensures_orM (iz xa) (fun _ => iz yb).
- move=> x a y b xa yb; apply: ensures_bind (ensures_orM (iz xa) (fun _ => iz yb)) _ => r ->.
  case: ifP => ab.
    apply: ensures_mono h0 _ => z z0; exists 0 => //.
    split; try exact: dvds0.
    by move=> c ac bc; case/orP: ab => /eqP h0; rewrite h0 in ac bc;
       [rewrite (dvd0s ac)|rewrite (dvd0s bc)]; exact: dvds0.
  apply: ensures_mono h1 _ => z z1; exists 1 => //; case/norP: (negbT ab) => a0 b0.
  by split; try exact: field_dvds; move=> *; exact: dvd1s.
- move=> x a y b xa yb.
  exact: (default_extended_gcd_ok iz h1 h0 (mul_ok (mo_sg_ok (ri_mon_ok hA)))
           (sub_ok (ri_ab_ok hA)) hqr xa yb).
- move=> x a y b xa yb.
  apply: (@default_relative_primes_ok _ _ _ _ (field_estruct F)) (hgcd _ _ _ _ xa yb).
  exact: invertible_ok (mo_mo_ok (ri_mon_ok hA)).
Qed.

Lemma field_alg_ok : field_alg_spec cfg p rep (field_alg A FA).
Proof.
by split=> //; split=> //=; [split=> //; exact: field_idom_ok|exact: field_eucl_ok].
Qed.
End Blanket.

(** The default power of a field (traits.rs:311-318). *)
Section FieldPower.
Variables (cfg : Cfg) (p : Prop) (E : Type) (F : fieldType) (rep : E -> F -> Prop).
Variables (A : RingAlg E).
Hypothesis hA : ring_alg_spec cfg p rep *%R 1 A.

Lemma mgroup_inv_ok x a : rep x a -> a != 0 ->
  gives p rep (multiplicative_inv A x) (a^-1).
Proof.
move=> xa a0; apply: ensures_bind (try_inv_ok (mo_mo_ok (ri_mon_ok hA)) xa) _.
case=> [y [v yv [av _]]|/(_ a^-1)[]]; last by rewrite /inverse_of mulfV // mulVf.
apply: ensures_ret; rewrite (_ : a^-1 = v) //.
by rewrite -[LHS]mulr1 -av mulrA mulVf // mul1r.
Qed.

Lemma default_fpower_ok n x a : good_isize cfg n -> rep x a -> a != 0 ->
  gives p rep (default_fpower cfg A (is_zero A) (zero A) n x) (zexp a n).
Proof.
move=> gn xa a0; apply: ensures_bind (is_zero_ok (ri_cm_ok hA) xa) _ => r ->.
rewrite (negbTE a0) -zpow_zexp.
have hM := ri_mon_ok hA.
apply: (@default_gpower_ok _ _ _ _ _ _ (@mulrA F) (@mul1r F) (@mulr1 F)) => //=.
- exact: mul_assign_ok (mo_sg_ok hM).
- exact: square_ok (mo_sg_ok hM).
- exact: one_ok (mo_mo_ok hM).
- by move=> _; apply: mgroup_inv_ok.
Qed.

Lemma default_fpower_zero n x : rep x 0 ->
  gives p rep (default_fpower cfg A (is_zero A) (zero A) n x) 0.
Proof.
move=> xa; apply: ensures_bind (is_zero_ok (ri_cm_ok hA) xa) _ => r ->.
by rewrite eqxx; apply: zero_ok (ri_cm_ok hA).
Qed.
End FieldPower.
