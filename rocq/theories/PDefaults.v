(** * PDefaults.v -- the default methods of the traits meet the contracts. *)

From Coq Require Import ZArith Lia.
From mathcomp Require Import all_ssreflect all_algebra zify.
From Verif Require Import Rust Traits RingTac Wp Spec.

Set Implicit Arguments.
Unset Strict Implicit.
Unset Printing Implicit Defensive.

Import GRing.Theory.
Local Open Scope ring_scope.

(** ** Powers *)
Section Powers.
Variables (V : Type) (op : V -> V -> V) (e : V).
Hypotheses (opA : associative op) (op1x : left_id e op) (opx1 : right_id e op).

Lemma npow_add v m n : npow op e v (m + n) = op (npow op e v m) (npow op e v n).
Proof. by elim: m => [|m IH]; rewrite ?op1x // addSn /= IH opA. Qed.

Lemma npow_double v n : npow op e v (n + n) = npow op e (op v v) n.
Proof.
elim: n => // n IH; rewrite addSn addnS /= IH opA.
by rewrite -/(npow op e _ _).
Qed.

Lemma npow1 v : npow op e v 1 = v.
Proof. by rewrite /npow /= opx1. Qed.

Lemma npow_half v n :
  npow op e v n = op (if odd n then v else e) (npow op e (op v v) n./2).
Proof.
rewrite -{1}(odd_double_half n) -addnn npow_add npow_double.
by case: (odd n); rewrite ?npow1.
Qed.
End Powers.

Lemma npow_mulrn (V : zmodType) (v : V) n : npow +%R 0 v n = v *+ n.
Proof. by elim: n => // n IH; rewrite mulrS -IH. Qed.

Lemma npow_expr (R : ringType) (v : R) n : npow *%R 1 v n = v ^+ n.
Proof. by elim: n => // n IH; rewrite exprS -IH. Qed.

Lemma zpow_zmul (V : zmodType) (v : V) n : zpow +%R 0 -%R v n = zmul v n.
Proof. by case: n => [|k|k] //=; rewrite npow_mulrn // mulNrn. Qed.

Lemma zpow_zexp (F : fieldType) (v : F) n : zpow *%R 1 GRing.inv v n = zexp v n.
Proof. by case: n => [|k|k] //=; rewrite npow_expr // exprVn. Qed.

Lemma Z_half_odd n : Z.le Z0 n ->
  (Z.to_nat (Z.quot n 2) = (Z.to_nat n)./2) /\ (Z.eqb (Z.rem n 2) Z0 = ~~ odd (Z.to_nat n)).
Proof.
move=> n0.
have := Z.quot_rem' n 2; have := Z.rem_bound_pos n 2 n0 (erefl _).
have := Z.quot_pos n 2 n0 ltac:(by []).
set q := Z.quot _ _; set r := Z.rem _ _ => q0 [r0 r1] nE.
have {}r1 : r = Z0 \/ r = Zpos xH by lia.
have -> : Z.to_nat n = ((Z.to_nat q).*2 + Z.eqb r (Zpos xH))%N.
  by rewrite -addnn; clearbody q r; case: r1 => rE; subst r; rewrite nE; lia.
rewrite addnC half_bit_double oddD odd_double addbF; split=> //.
by case: r1 => ->.
Qed.

Section PowerLoop.
Variables (p : Prop) (E : Type) (V : eqType) (rep : E -> V -> Prop).
Variables (op : V -> V -> V) (e : V).
Hypotheses (opA : associative op) (op1x : left_id e op) (opx1 : right_id e op).
Variables (opa : E -> E -> M E) (dbl : E -> M E).
Hypothesis opa_ok : forall x u y v, rep x u -> rep y v -> gives p rep (opa x y) (op u v).
Hypothesis dbl_ok : forall x u, rep x u -> gives p rep (dbl x) (op u u).

Lemma power_loop_ok num x u r v : Z.le Z0 num -> rep x u -> rep r v ->
  ensures p (power_loop opa dbl num x r)
    (fun s => rep s.2 (op v (npow op e u (Z.to_nat num)))).
Proof.
move=> num0 xu rv.
pose I (s : Z * E * E) := Z.le Z0 s.1.1 /\ exists u' v',
  [/\ rep s.1.2 u', rep s.2 v' &
      op v (npow op e u (Z.to_nat num)) = op v' (npow op e u' (Z.to_nat s.1.1))].
apply: (@ensures_while _ _ _ _ I _ (fun s => Z.to_nat s.1.1)).
  by split=> //; exists u, v.
move=> [[n y] s] /= [/= n0 [u' [v' [yu' sv' eqv]]]]; apply: ensures_ret.
case: Z.gtb_spec => n1; last first.
  by rewrite eqv (_ : n = Z0) /= ?opx1 //; lia.
have [hq hr] := Z_half_odd n0.
apply: (@ensures_bind _ _ _ _ _
          (fun s' => rep s' (op v' (if odd (Z.to_nat n) then u' else e)))).
  rewrite hr; case: (odd _) => /=; first exact: opa_ok.
  by apply: ensures_ret; rewrite opx1.
move=> s' s'v; apply: ensures_bind (dbl_ok yu') _ => y' y'u.
apply: ensures_ret; split; last first.
  have h1 : Z.lt (Z.quot n 2) n by apply: Z.quot_lt; lia.
  have h2 : Z.le Z0 (Z.quot n 2) by apply: Z.quot_pos; lia.
  by rewrite /=; lia.
split; first by apply: Z.quot_pos; lia.
exists (op u' u'), (op v' (if odd (Z.to_nat n) then u' else e)); split=> //.
by rewrite /= hq -opA -(npow_half opA op1x opx1).
Qed.

Lemma default_ntimes_ok (zro : M E) n x u :
  gives p rep zro e -> Z.le Z0 n -> rep x u ->
  gives p rep (default_ntimes zro opa dbl n x) (npow op e u (Z.to_nat n)).
Proof.
move=> z0 n0 xu; apply: ensures_bind z0 _ => z ze.
apply: ensures_bind (power_loop_ok n0 xu ze) _ => s; rewrite op1x => sr.
exact: ensures_ret.
Qed.

Lemma default_gpower_ok cfg (o : M E) (iv : E -> M E) (inv : V -> V) n x u :
  gives p rep o e -> (rep x u -> gives p rep (iv x) (inv u)) ->
  good_isize cfg n -> rep x u ->
  gives p rep (default_gpower cfg o opa dbl iv n x) (zpow op e inv u n).
Proof.
move=> o1 ivx [ni nm] xu.
apply: (@ensures_bind _ _ _ _ _ (fun s => Z.le Z0 s.1 /\ exists2 v, rep s.2 v &
          zpow op e inv u n = npow op e v (Z.to_nat s.1))).
  case: Z.ltb_spec => n0.
    have h : in_i (ptr_bits cfg) (- n).
      move: ni nm; rewrite /is_isize /in_i /imin /imax.
      case: Z.leb_spec => //= h1; case: Z.leb_spec => //= h2 _ h3.
      by case: Z.leb_spec; case: Z.leb_spec; lia.
    rewrite /prim_i h bind_ret; apply: ensures_bind (ivx xu) _ => y yv.
    apply: ensures_ret; split=> /=; first by lia.
    exists (inv u) => //; move: n0; case: (n) => //= k _.
  apply: ensures_ret; split=> //=; exists u => //.
  by move: n0; case: (n) => //= k; lia.
move=> s [s0 [v sv ->]]; apply: ensures_bind o1 _ => r re.
apply: ensures_bind (power_loop_ok s0 sv re) _ => s'; rewrite op1x => sr.
exact: ensures_ret.
Qed.
End PowerLoop.

(** ** Semigroup, Monoid, CommMonoid, AbelianGroup *)
Section Simple.
Variables (p : Prop) (E : Type) (V : eqType) (rep : E -> V -> Prop).
Variables (op : V -> V -> V) (e : V).

Lemma default_is_one_ok eqs (o : M E) x u :
  (forall x u y v, rep x u -> rep y v -> answers p (eqs x y) (u == v)) ->
  gives p rep o e -> rep x u -> answers p (default_is_one eqs o x) (u == e).
Proof. by move=> h oe xu; apply: ensures_bind oe _ => y ye; apply: h. Qed.

Lemma default_is_zero_ok eqs (o : M E) x u :
  (forall x u y v, rep x u -> rep y v -> answers p (eqs x y) (u == v)) ->
  gives p rep o e -> rep x u -> answers p (default_is_zero eqs o x) (u == e).
Proof. exact: default_is_one_ok. Qed.

Lemma default_invertible_ok (ti : E -> M (option E)) x u :
  ensures p (ti x) (fun o =>
    match o with
    | Some y => exists2 v, rep y v & inverse_of op e u v
    | None => forall v, ~ inverse_of op e u v
    end) ->
  decides p (default_invertible ti x) (exists v, inverse_of op e u v).
Proof.
move=> h; apply: ensures_bind h _ => -[y [v yv uv]|nv]; apply: ensures_ret.
  by split=> // _; exists v.
by split=> // -[v]; move/nv.
Qed.

(** Assembling a semigroup whose in-place methods are the default ones. *)
Lemma semigroup_default (ml : E -> E -> M E) :
  (forall x u y v, rep x u -> rep y v -> gives p rep (ml x y) (op u v)) ->
  semigroup_spec p rep op
    (mkSemigroup ml (default_mul_assign ml) (default_square ml)).
Proof. by move=> h; split=> /= *; apply: h. Qed.

Hypotheses (opA : associative op) (op1x : left_id e op) (opx1 : right_id e op).

Lemma cmonoid_default zro isz ad :
  gives p rep zro e ->
  (forall x u, rep x u -> answers p (isz x) (u == e)) ->
  (forall x u y v, rep x u -> rep y v -> gives p rep (ad x y) (op u v)) ->
  cmonoid_spec p rep op e
    (mkCommMonoid zro isz ad (default_add_assign ad) (default_double ad)
       (default_ntimes zro (default_add_assign ad) (default_double ad))).
Proof.
move=> h1 h2 h3; split=> //= [*|n x u n0 xu]; first exact: h3.
by apply: default_ntimes_ok xu => // *; apply: h3.
Qed.
End Simple.

Section Abelian.
Variables (cfg : Cfg) (p : Prop) (E : Type) (V : zmodType) (rep : E -> V -> Prop).

Lemma zmul0 n : zmul (0 : V) n = 0.
Proof. by case: n => //= k; rewrite mul0rn ?oppr0. Qed.

Lemma default_ztimes_ok dom cm ng n x u :
  cmonoid_spec p rep +%R 0 cm ->
  (forall x u, rep x u -> gives p rep (ng x) (- u)) ->
  good_isize cfg n -> rep x u ->
  gives p rep (default_ztimes cfg dom cm ng n x) (zmul u n).
Proof.
move=> hc hn gn xu; rewrite -zpow_zmul.
apply: (@default_gpower_ok _ _ _ _ _ _ (@addrA V) (@add0r V) (@addr0 V)) => //=.
- by move=> *; apply: (add_assign_ok hc).
- by move=> *; apply: (double_ok hc).
- exact: zero_ok hc.
- exact: hn.
Qed.

Lemma abelian_default dom cm ng :
  cmonoid_spec p rep +%R 0 cm ->
  (forall x u, rep x u -> gives p rep (ng x) (- u)) ->
  abelian_spec cfg p rep
    (mkAbelianGroup ng (default_neg_assign ng) (default_sub ng (add_assign cm))
       (default_sub_assign ng (add_assign cm)) (default_ztimes cfg dom cm ng)).
Proof.
move=> hc hn; split=> //= [x u y v xu yv|x u y v xu yv|n x u gn xu].
- apply: ensures_bind (hn _ _ yv) _ => z zv.
  by rewrite addrC; apply: (add_assign_ok hc).
- apply: ensures_bind (hn _ _ yv) _ => z zv.
  exact: (add_assign_ok hc).
- exact: default_ztimes_ok.
Qed.

Lemma default_sub_ok (ng : E -> M E) (aa : E -> E -> M E) x u y v :
  (forall x u, rep x u -> gives p rep (ng x) (- u)) ->
  (forall x u y v, rep x u -> rep y v -> gives p rep (aa x y) (u + v)) ->
  rep x u -> rep y v -> gives p rep (default_sub ng aa x y) (u - v).
Proof.
move=> hn ha xu yv; apply: ensures_bind (hn _ _ yv) _ => z zv.
by rewrite addrC; apply: ha.
Qed.

Lemma default_sub_assign_ok (ng : E -> M E) (aa : E -> E -> M E) x u y v :
  (forall x u, rep x u -> gives p rep (ng x) (- u)) ->
  (forall x u y v, rep x u -> rep y v -> gives p rep (aa x y) (u + v)) ->
  rep x u -> rep y v -> gives p rep (default_sub_assign ng aa x y) (u - v).
Proof.
move=> hn ha xu yv; apply: ensures_bind (hn _ _ yv) _ => z zv.
exact: ha.
Qed.

Lemma unitary_default zt o e :
  (forall n x u, good_isize cfg n -> rep x u -> gives p rep (zt n x) (zmul u n)) ->
  gives p rep o e ->
  unitary_spec cfg p rep e (mkUnitaryRing (default_int zt o)).
Proof. by move=> hz ho; split=> /= n gn; apply: ensures_bind ho _ => x xe; apply: hz. Qed.
End Abelian.

(** ** Divisibility *)
Section Divides.
Variable R : comRingType.
Implicit Types a b c : R.

Lemma dvds_refl a : dvds a a.
Proof. by exists 1; rewrite mul1r. Qed.
Lemma dvds_trans a b c : dvds a b -> dvds b c -> dvds a c.
Proof. by move=> [x ->] [y ->]; exists (y * x); rewrite mulrA. Qed.
Lemma dvds0 a : dvds a 0.
Proof. by exists 0; rewrite mul0r. Qed.
Lemma dvd0s a : dvds 0 a -> a = 0.
Proof. by move=> [x ->]; rewrite mulr0. Qed.
Lemma dvd1s a : dvds 1 a.
Proof. by exists a; rewrite mulr1. Qed.
Lemma dvds_mull a b c : dvds a b -> dvds a (c * b).
Proof. by move=> [x ->]; exists (c * x); rewrite mulrA. Qed.
Lemma dvds_mulr a b c : dvds a b -> dvds a (b * c).
Proof. by rewrite mulrC; exact: dvds_mull. Qed.
Lemma dvds_add a b c : dvds a b -> dvds a c -> dvds a (b + c).
Proof. by move=> [x ->] [y ->]; exists (x + y); rewrite mulrDl. Qed.
Lemma dvds_opp a b : dvds a b -> dvds a (- b).
Proof. by move=> [x ->]; exists (- x); rewrite mulNr. Qed.
Lemma dvds_sub a b c : dvds a b -> dvds a c -> dvds a (b - c).
Proof. by move=> h1 h2; apply: dvds_add => //; apply: dvds_opp. Qed.

Lemma is_gcdC a b d : is_gcd a b d -> is_gcd b a d.
Proof. by move=> [h1 h2 h3]; split=> // c *; apply: h3. Qed.
Lemma is_gcd0 a : is_gcd a 0 a.
Proof. by split=> //; [exact: dvds_refl|exact: dvds0]. Qed.
Lemma is_gcd_step a b q r d : a = q * b + r -> is_gcd b r d -> is_gcd a b d.
Proof.
move=> -> [h1 h2 h3]; split=> //; first by apply: dvds_add => //; apply: dvds_mull.
move=> c c1 c2; apply: h3 => //; rewrite -[r](addKr (q * b)) addrC.
by apply: dvds_sub => //; apply: dvds_mull.
Qed.
End Divides.

Lemma dvds_anti (R : idomainType) (a b : R) : dvds a b -> dvds b a ->
  exists2 u, u \is a GRing.unit & b = u * a.
Proof.
move=> [x xE] [y yE]; have [a0|a0] := eqVneq a 0.
  by exists 1; rewrite ?unitr1 // mul1r xE a0 mulr0.
exists x => //; apply/unitrP; exists y.
suff yx : y * x = 1 by rewrite [x * y]mulrC.
by apply: (mulIf a0); rewrite mul1r -mulrA -xE.
Qed.

(** Uniqueness of associate representatives. *)
Section Assoc.
Variables (R : idomainType) (S : assoc_struct R).

Lemma arep0 : arep S 0 = 0.
Proof. by rewrite /arep eqxx. Qed.
Lemma arep_neq0 (a : R) : a != 0 -> arep S a = acoef S a * a.
Proof. by rewrite /arep => /negbTE ->. Qed.
Lemma arep1 : arep S 1 = 1.
Proof. by rewrite arep_neq0 ?oner_neq0 // acoef1 mulr1. Qed.
Lemma arep_eq0 (a : R) : (arep S a == 0) = (a == 0).
Proof.
have [->|a0] := eqVneq a 0; first by rewrite arep0 eqxx.
by rewrite arep_neq0 // mulf_eq0 (negbTE a0) orbF; apply/negbTE; apply: contraTneq (acoef_unit S a0) => ->; rewrite unitr0.
Qed.
Lemma arep_dvd (a : R) : dvds a (arep S a).
Proof.
have [->|a0] := eqVneq a 0; first by rewrite arep0; exact: dvds0.
by rewrite arep_neq0 //; exists (acoef S a).
Qed.
Lemma dvd_arep (a : R) : dvds (arep S a) a.
Proof.
have [->|a0] := eqVneq a 0; first exact: dvds0.
rewrite arep_neq0 //; exists (acoef S a)^-1.
by rewrite mulrA mulVr ?mul1r //; apply: acoef_unit.
Qed.
Lemma arep_unit (u a : R) : u \is a GRing.unit -> arep S (u * a) = arep S a.
Proof.
move=> uu; have [->|a0] := eqVneq a 0; first by rewrite mulr0.
have u0 : u != 0 by apply: contraTneq uu => ->; rewrite unitr0.
rewrite !arep_neq0 ?mulf_neq0 // mulrA; congr (_ * _); exact: acoef_mul.
Qed.
Lemma arep_assoc (a b : R) : dvds a b -> dvds b a -> arep S a = arep S b.
Proof. by move=> h1 h2; case: (dvds_anti h1 h2) => u uu ->; rewrite arep_unit. Qed.
Lemma arep_idem (a : R) : arep S (arep S a) = arep S a.
Proof. by apply: arep_assoc; [exact: dvd_arep|exact: arep_dvd]. Qed.
(** Canonical elements that divide each other are equal. *)
Lemma arep_anti (a b : R) : arep S a = a -> arep S b = b ->
  dvds a b -> dvds b a -> a = b.
Proof. by move=> ha hb h1 h2; rewrite -ha -hb; exact: arep_assoc. Qed.
Lemma arep_canonP (a : R) : a != 0 -> (arep S a == a) = (acoef S a == 1).
Proof.
move=> a0; rewrite arep_neq0 //; apply/eqP/eqP => [h|->]; last by rewrite mul1r.
by apply: (mulIf a0); rewrite h mul1r.
Qed.
End Assoc.

(** ** Euclidean division and Bezout *)
Section Bezout.
Variables (R : idomainType) (S : eucl_struct R).
Implicit Types a b c d : R.

Lemma erem_idem a b : b != 0 -> erem S (erem S a b) b = erem S a b.
Proof.
move=> b0; rewrite -[RHS](e_canon S _ (- equo S a b) b0); congr erem.
by rewrite {2}(e_div S a b0) mulNr addrC addKr.
Qed.

Lemma erem_congr a b c : b != 0 -> dvds b (a - c) -> erem S a b = erem S c b.
Proof.
by move=> b0 [x h]; rewrite -[a](subrK c) h addrC e_canon.
Qed.

Lemma erem_sub a b : b != 0 -> dvds b (a - erem S a b).
Proof. by move=> b0; exists (equo S a b); rewrite {1}(e_div S a b0) addrK. Qed.

Lemma erem_eq a b c : b != 0 -> (erem S a b == erem S c b) <-> dvds b (a - c).
Proof.
move=> b0; split=> [/eqP h|h]; last exact/eqP/erem_congr.
have h1 := erem_sub a b0; have h2 := erem_sub c b0.
by rewrite -[a](subrK (erem S a b)) -addrA; apply: dvds_add => //;
   rewrite h -opprB; apply: dvds_opp.
Qed.

Lemma erem_eq0 a b : b != 0 -> (erem S a b == 0) <-> dvds b a.
Proof.
by move=> b0; rewrite -{1}(e_rem0 S b0) erem_eq // subr0.
Qed.

Lemma equo_dvd a b : b != 0 -> dvds b a -> a = equo S a b * b.
Proof.
move=> b0 /(erem_eq0 _ b0)/eqP h; by rewrite {1}(e_div S a b0) h addr0.
Qed.

Lemma equo_eq0 a b : b != 0 -> (equo S a b == 0) = (erem S a b == a).
Proof.
move=> b0; apply/eqP/eqP => [h|h].
  by rewrite [RHS](e_div S a b0) h mul0r add0r.
have := e_div S a b0; rewrite h -{1}[a]add0r => /addIr /esym/eqP.
by rewrite mulf_eq0 (negbTE b0) orbF => /eqP.
Qed.

Definition emeasure b : nat := if b == 0 then 0%N else (enorm S b).+1.

Lemma emeasure_rem a b : b != 0 -> (emeasure (erem S a b) < emeasure b)%N.
Proof.
move=> b0; rewrite /emeasure (negbTE b0); case: ifP => // r0.
by rewrite ltnS; apply: e_norm => //; rewrite r0.
Qed.

Lemma bezout a b : exists d s t, d = s * a + t * b /\ is_gcd a b d.
Proof.
have [k leqk] := ubnP (emeasure b); elim: k a b leqk => // k IH a b; rewrite ltnS => bk.
have [->|b0] := eqVneq b 0.
  by exists a, 1, 0; rewrite mul1r mul0r addr0; split=> //; exact: is_gcd0.
have [d [s [t [dE dg]]]] := IH b (erem S a b) (leq_trans (emeasure_rem a b0) bk).
exists d, t, (s - t * equo S a b); split; last exact: is_gcd_step (e_div S a b0) dg.
rewrite dE {2}(e_div S a b0); cring.
Qed.

Lemma gcd_bezout a b d : is_gcd a b d -> exists s t, d = s * a + t * b.
Proof.
move=> [h1 h2 h3]; have [g [s [t [gE [g1 g2 g3]]]]] := bezout a b.
have [c ->] := h3 _ g1 g2; have [x xE] := g3 _ h1 h2.
by exists (c * s), (c * t); rewrite gE mulrDr !mulrA.
Qed.

Lemma gcd_coprime a b d : is_gcd a b d -> (exists v, d * v = 1) <-> coprime_to a b.
Proof.
move=> dg; have [s [t dE]] := gcd_bezout dg; case: dg => h1 h2 h3; split.
  by move=> [v dv]; exists (v * s), (v * t); rewrite -!mulrA -mulrDr -dE mulrC.
move=> [x [y xy]]; have [c cE]: dvds d 1.
  by rewrite -xy; apply: dvds_add; apply: dvds_mull.
by exists c; rewrite mulrC.
Qed.

Lemma lcm_of_gcd a b d : d != 0 -> is_gcd a b d -> is_lcm a b (equo S a d * b).
Proof.
move=> d0 dg; have [s [t dE]] := gcd_bezout dg; case: (dg) => h1 h2 h3.
have aE := equo_dvd d0 h1; have bE := equo_dvd d0 h2.
split; first by exists (equo S b d); rewrite {1}bE {2}aE; cring.
  by exists (equo S a d).
move=> c [x xE] [y yE]; exists (s * y + t * x); apply: (mulIf d0).
rewrite {1}dE (_ : c * (s * a + t * b) = s * (c * a) + t * (c * b)); last by cring.
rewrite {1}yE xE {1 2}aE; cring.
Qed.
End Bezout.
