(** * PArgs.v -- QuotientRing, QuotientField and ReducedFractions called with
    arguments that are not in normal form, and QuotientField with a modulus that is
    not irreducible. *)

From Coq Require Import ZArith Lia.
From mathcomp Require Import all_ssreflect all_algebra zify.
From mathcomp Require Import fraction.
From Verif Require Import Rust Traits MInts MConstr RingTac Wp Spec PropSpec Laws ArgSpec.
From Verif Require Import PDefaults PEucl Quotient PQuot PQuotProps PFrac PFracProps.

Set Implicit Arguments.
Unset Strict Implicit.
Unset Printing Implicit Defensive.

Import GRing.Theory.
Local Open Scope ring_scope.

(** ** The power loop with an argument of another kind than the result *)
Section PowerLoop.
Variables (p : Prop) (E : Type) (V : eqType) (rep arg : E -> V -> Prop).
Variables (op : V -> V -> V) (e : V).
Hypotheses (opA : associative op) (op1x : left_id e op) (opx1 : right_id e op).
Variables (opa : E -> E -> M E) (dbl : E -> M E).
Hypothesis opa_ok : forall x u y v, rep x u -> arg y v -> gives p rep (opa x y) (op u v).
Hypothesis dbl_ok : forall x u, arg x u -> gives p arg (dbl x) (op u u).

Lemma power_loop_arg num x u r v : Z.le Z0 num -> arg x u -> rep r v ->
  ensures p (power_loop opa dbl num x r)
    (fun s => rep s.2 (op v (npow op e u (Z.to_nat num)))).
Proof.
move=> num0 xu rv.
pose I (s : Z * E * E) := Z.le Z0 s.1.1 /\ exists u' v',
  [/\ arg s.1.2 u', rep s.2 v' &
      op v (npow op e u (Z.to_nat num)) = op v' (npow op e u' (Z.to_nat s.1.1))].
apply: (@ensures_while _ _ _ _ I _ (fun s => Z.to_nat s.1.1)).
  by split=> //; exists u, v.
move=> [[n y] s] /= [/= n0 [u' [v' [yu' sv' eqv]]]]; apply: ensures_ret.
case: Z.gtb_spec => n1; last first.
  by rewrite eqv (_ : n = Z0) /= ?opx1 //; lia.
have [hq hr] := Z_half_odd n0.
apply: (@ensures_bind _ _ _ _ _
          (fun s' => rep s' (op v' (if odd (Z.to_nat n) then u' else e)))).
  rewrite hr; case: (odd _) => /=; first exact: opa_ok.
  by apply: ensures_ret; rewrite opx1.
move=> s' s'v; apply: ensures_bind (dbl_ok yu') _ => y' y'u.
apply: ensures_ret; split; last first.
  have h1 : Z.lt (Z.quot n 2) n by apply: Z.quot_lt; lia.
  have h2 : Z.le Z0 (Z.quot n 2) by apply: Z.quot_pos; lia.
  by rewrite /=; lia.
split; first by apply: Z.quot_pos; lia.
exists (op u' u'), (op v' (if odd (Z.to_nat n) then u' else e)); split=> //.
by rewrite /= hq -opA -(npow_half opA op1x opx1).
Qed.

Lemma ntimes_arg (zro : M E) n x u :
  gives p rep zro e -> Z.le Z0 n -> arg x u ->
  gives p rep (default_ntimes zro opa dbl n x) (npow op e u (Z.to_nat n)).
Proof.
move=> z0 n0 xu; apply: ensures_bind z0 _ => z ze.
apply: ensures_bind (power_loop_arg n0 xu ze) _ => s; rewrite op1x => sr.
exact: ensures_ret.
Qed.

Lemma gpower_arg cfg (o : M E) (iv : E -> M E) (inv : V -> V) n x u :
  gives p rep o e -> (Z.lt n 0 -> gives p arg (iv x) (inv u)) ->
  good_isize cfg n -> arg x u ->
  gives p rep (default_gpower cfg o opa dbl iv n x) (zpow op e inv u n).
Proof.
move=> o1 ivx [ni nm] xu.
apply: (@ensures_bind _ _ _ _ _ (fun s => Z.le Z0 s.1 /\ exists2 v, arg s.2 v &
          zpow op e inv u n = npow op e v (Z.to_nat s.1))).
  case: Z.ltb_spec => n0.
    have h : in_i (ptr_bits cfg) (- n).
      move: ni nm; rewrite /is_isize /in_i /imin /imax.
      case: Z.leb_spec => //= h1; case: Z.leb_spec => //= h2 _ h3.
      by case: Z.leb_spec; case: Z.leb_spec; lia.
    rewrite /prim_i h bind_ret; apply: ensures_bind (ivx n0) _ => y yv.
    apply: ensures_ret; split=> /=; first by lia.
    exists (inv u) => //; move: n0; case: (n) => //= k _.
  apply: ensures_ret; split=> //=; exists u => //.
  by move: n0; case: (n) => //= k; lia.
move=> s [s0 [v sv ->]]; apply: ensures_bind o1 _ => r re.
apply: ensures_bind (power_loop_arg s0 sv re) _ => s'; rewrite op1x => sr.
exact: ensures_ret.
Qed.
End PowerLoop.

(** ** Quotients *)
Section Quot.
Variables (cfg : Cfg) (p : Prop) (E : Type) (R : idomainType) (rep : E -> R -> Prop).
Variables (AS : assoc_struct R) (S : eucl_struct R) (A : EuclAlg E).
Hypothesis hA : eucl_alg_spec cfg p rep AS S A.

Let hI := eu_idom_ok hA.
Let hR := id_ring_ok hI.
Let hD := mo_dom_ok (ri_mon_ok hR).
Let hM := mo_mo_ok (ri_mon_ok hR).
Let hS := mo_sg_ok (ri_mon_ok hR).
Let hC := ri_cm_ok hR.
Let hB := ri_ab_ok hR.
Let hE := eu_eu_ok hA.

Section Modulus.
Variables (m : modulus R) (modulo : E).
Hypothesis hm : rep modulo m.
Local Notation qrep := (@q_rep E R S m rep).
Local Notation pi := (qpi S m).
Local Notation mgives := (mod_gives p S (m : R) rep).

(** Any member of the base stands for its class. *)
Let arg (x : E) (u : quot S m) : Prop := exists2 a, rep x a & u = pi a.
Lemma qrep_arg x u : qrep x u -> arg x u.
Proof. by move=> xu; exists (qval u) => //; rewrite qpiK. Qed.
Lemma gives_arg c u : gives p qrep c u -> gives p arg c u.
Proof. by move=> h; apply: ensures_mono h _ => z; exact: qrep_arg. Qed.

Lemma a_mul x u y v : arg x u -> arg y v -> gives p qrep (quotient_mul A modulo x y) (u * v).
Proof. by move=> [a xa ->] [b yb ->]; exact: (b_mul hA hm xa yb). Qed.
Lemma a_add x u y v : arg x u -> arg y v -> gives p qrep (quotient_add A modulo x y) (u + v).
Proof.
move=> [a xa ->] [b yb ->]; apply: ensures_bind (add_ok hC xa yb) _ => z zE.
by rewrite -rmorphD; exact: (b_rem hA hm).
Qed.
Lemma a_neg x u : arg x u -> gives p qrep (quotient_neg A modulo x) (- u).
Proof.
move=> [a xa ->]; apply: ensures_bind (neg_ok hB xa) _ => z zE.
by rewrite -rmorphN; exact: (b_rem hA hm).
Qed.
Lemma a_zero : gives p qrep (zero A) 0.
Proof. by apply: ensures_mono (zero_ok hC) _ => z zz; rewrite /q_rep qval0. Qed.
Lemma a_one : gives p qrep (one A) 1.
Proof. by apply: ensures_mono (one_ok hM) _ => z zz; rewrite /q_rep qval1. Qed.

Lemma a_sub x u y v : arg x u -> arg y v ->
  gives p qrep (default_sub (quotient_neg A modulo) (default_add_assign (quotient_add A modulo)) x y)
    (u - v) /\
  gives p qrep (default_sub_assign (quotient_neg A modulo)
    (default_add_assign (quotient_add A modulo)) x y) (u - v).
Proof.
move=> xu yv; split; apply: ensures_bind (a_neg yv) _ => z zE.
  by rewrite addrC; exact: a_add (qrep_arg zE) xu.
exact: a_add xu (qrep_arg zE).
Qed.
Lemma a_ntimes n x u : Z.le 0 n -> arg x u ->
  gives p qrep (ntimes (quotient_cmonoid A modulo) n x) (u *+ Z.to_nat n).
Proof.
move=> n0 xu; rewrite -npow_mulrn.
apply: (@ntimes_arg _ _ _ qrep arg _ _ (@addrA _) (@add0r _) (@addr0 _)) => //.
- by move=> y v z w /qrep_arg; exact: a_add.
- by move=> y v yv; apply: gives_arg; exact: a_add.
- exact: a_zero.
Qed.
Lemma a_ztimes n x u : good_isize cfg n -> arg x u ->
  gives p qrep (ztimes (quotient_abelian cfg A modulo) n x) (zmul u n).
Proof.
move=> gn xu; rewrite -zpow_zmul.
apply: (@gpower_arg _ _ _ qrep arg _ _ (@addrA _) (@add0r _) (@addr0 _)) => //=.
- by move=> y v z w /qrep_arg; exact: a_add.
- by move=> y v yv; apply: gives_arg; exact: a_add.
- exact: a_zero.
- by move=> _; apply: gives_arg; exact: a_neg.
Qed.

(** [extended_gcd] of the modulus and any representative. *)
Lemma a_bezout x a : rep x a ->
  ensures p (extended_gcd A modulo x) (fun gsr => exists g r,
     [/\ rep gsr.1.1 g, rep gsr.2 r, is_gcd (m : R) a g & pi g = pi r * pi a]).
Proof.
move=> xa; apply: ensures_mono (extended_gcd_ok hE hm xa) _.
move=> [[g s] r] [d [s' [t [[/= gd ss rt] [dE dg]]]]]; exists d, t; split=> //.
rewrite dE rmorphD !rmorphM /=.
have -> : pi m = 0 by apply/qpi_eq0; exact: dvds_refl.
by rewrite mulr0 add0r.
Qed.
Lemma pi_unitP a : (exists b, congruent m (a * b) 1) <-> coprime_to (m : R) a.
Proof.
split=> [[b [c cE]]|[s [t st]]].
  by exists c, b; rewrite -cE [a * b]mulrC subrK.
exists t, s; rewrite -st; cring.
Qed.

Lemma congr_pi a b : congruent m a b <-> pi a = pi b.
Proof. by split=> [/(qpiE S m) ->//|h]; apply/(qpiE S m); rewrite h. Qed.

Lemma piMM a b : pi (a * b) = pi a * pi b.
Proof. exact: rmorphM. Qed.
Lemma pi1 : pi 1 = 1.
Proof. exact: rmorph1. Qed.
Lemma piX a n : pi (a ^+ n) = pi a ^+ n.
Proof. exact: rmorphX. Qed.
Lemma piM a (w : quot S m) : pi (a * qval w) = pi a * w.
Proof. by rewrite -{2}[w]qpiK -rmorphM. Qed.

Lemma a_try_inv x a : rep x a ->
  ensures p (quotient_ring_try_inv A modulo x) (fun o =>
    if o is Some y then inverse_mod S (m : R) rep a y else ~ has_inverse (m : R) a).
Proof.
move=> xa; apply: ensures_bind (a_bezout xa) _ => -[[g s] r] [d [t [/= gd rt dg dE]]].
apply: ensures_bind (try_inv_ok hM gd) _ => -[y [d' yd' [dd' d'd]]|nd].
  apply: ensures_bind (b_mul hA hm yd' rt) _ => z zE; apply: ensures_ret.
  exists (qval (pi d' * pi t)); first exact: quot_res.
  by apply/congr_pi; rewrite piM mulrC -mulrA -dE -rmorphM d'd rmorph1.
apply: ensures_ret => /pi_unitP cop.
have [d' h] := (gcd_coprime S dg).2 cop.
by case: (nd d'); split=> //; rewrite mulrC.
Qed.

Lemma no_inverse0 : ~ has_inverse (m : R) 0.
Proof.
move=> [b]; rewrite mul0r /congruent subr0 => -[c /esym h].
by have /negP := m_nonunit m; apply; apply/unitrPr; exists c; rewrite mulrC.
Qed.

Lemma a_inv x a : rep x a ->
  (has_inverse (m : R) a ->
     ensures p (quotient_field_inv A modulo x) (inverse_mod S (m : R) rep a)) /\
  (~ has_inverse (m : R) a -> panics (quotient_field_inv A modulo x)).
Proof.
move=> xa; have hz : answers p (is_zero (quotient_cmonoid A modulo) x) (a == 0).
  apply: (@default_is_zero_ok _ _ _ rep) xa; last exact: (zero_ok hC).
  exact: equals_ok hD.
split=> hi.
  apply: ensures_bind hz _ => b ->; apply: ensures_assert_bind.
    by apply/eqP => a0; apply: no_inverse0; rewrite -a0.
  apply: ensures_bind (a_bezout xa) _ => -[[g s] r] [d [t [/= gd rt dg dE]]].
  have [d' dd'] := (gcd_coprime S dg).2 ((pi_unitP _).1 hi).
  apply: ensures_bind (try_inv_ok hM gd) _ => -[y [d2 yd2 [dd2 d2d]]|/(_ d')[]]; last first.
    by split=> //; rewrite mulrC.
  rewrite bind_ret; apply: ensures_mono (b_mul hA hm yd2 rt) _ => z zE.
  exists (qval (pi d2 * pi t)); first exact: quot_res.
  by apply/congr_pi; rewrite piM mulrC -mulrA -dE -rmorphM d2d rmorph1.
apply: panics_ensures hz _ => b ->.
have [a0|a0] := eqVneq a 0; first exact: panics_assert_bind.
rewrite bind_ret.
apply: panics_ensures (a_bezout xa) _ => -[[g s] r] [d [t [/= gd rt dg dE]]].
apply: panics_ensures (try_inv_ok hM gd) _ => -[y [d2 yd2 [dd2 d2d]]|_]; last first.
  exact: panics_bind (@panics_panic _).
by case: hi; apply/pi_unitP; apply/(gcd_coprime S dg); exists d2; rewrite mulrC.
Qed.

Lemma a_gives c a : gives p qrep c (pi a) -> mgives c a.
Proof. by move=> h; exact: (gives_mod h (erefl _)). Qed.
Lemma arg_rep x a : rep x a -> arg x (pi a).
Proof. by move=> xa; exists a. Qed.

Lemma a_ring_args x a y b : rep x a -> rep y b ->
  let C := quotient_cmonoid A modulo in
  let G := quotient_abelian cfg A modulo in
  let P := quotient_semigroup A modulo in
  [/\ mgives (add C x y) (a + b), mgives (sub G x y) (a - b) & mgives (mul P x y) (a * b)] /\
  [/\ mgives (add_assign C x y) (a + b), mgives (sub_assign G x y) (a - b) &
      mgives (mul_assign P x y) (a * b)] /\
  [/\ mgives (neg G x) (- a), mgives (neg_assign G x) (- a),
      mgives (double C x) (a + a) & mgives (square P x) (a * a)] /\
  (forall n, Z.le 0 n -> mgives (ntimes C n x) (a *+ Z.to_nat n)) /\
  (forall n, good_isize cfg n -> mgives (ztimes G n x) (zmul a n)).
Proof.
move=> /arg_rep xa /arg_rep yb /=.
have hadd z t u v : arg z (pi u) -> arg t (pi v) -> mgives (quotient_add A modulo z t) (u + v).
  by move=> xu yv; apply: a_gives; rewrite rmorphD; exact: a_add.
have hmul z t u v : arg z (pi u) -> arg t (pi v) -> mgives (quotient_mul A modulo z t) (u * v).
  by move=> xu yv; apply: a_gives; rewrite rmorphM; exact: a_mul.
have [hs hsa] := a_sub xa yb.
split; first by split; [exact: hadd|apply: a_gives; rewrite rmorphB|exact: hmul].
split; first by split; [exact: hadd|apply: a_gives; rewrite rmorphB|exact: hmul].
split.
  by split; [apply: a_gives; rewrite rmorphN; exact: a_neg|
    apply: a_gives; rewrite rmorphN; exact: a_neg|exact: hadd|exact: hmul].
split=> n hn.
  by apply: a_gives; rewrite rmorphMn; exact: a_ntimes.
by apply: a_gives; rewrite -zmul_qpi; exact: a_ztimes.
Qed.

Lemma quotient_ring_args : quotient_args_correct p S (m : R) rep cfg (QuotientRing cfg A modulo).
Proof. by move=> x a y b xa yb; exact: a_ring_args. Qed.
Lemma quotient_field_ring_args :
  quotient_args_correct p S (m : R) rep cfg (QuotientField cfg A modulo).
Proof. by move=> x a y b xa yb; exact: a_ring_args. Qed.

Lemma quotient_ring_inv_args :
  quotient_try_inv_args p S (m : R) rep (QuotientRing cfg A modulo).
Proof.
move=> x a xa; have h := a_try_inv xa; split=> //.
apply: ensures_bind h _ => -[y [b yb hb]|h]; apply: ensures_ret; split=> // _.
by exists b.
Qed.

Lemma a_is_zero x a : rep x a -> answers p (is_zero (quotient_cmonoid A modulo) x) (a == 0).
Proof.
move=> xa; apply: (@default_is_zero_ok _ _ _ rep) xa; last exact: (zero_ok hC).
exact: equals_ok hD.
Qed.

Lemma a_field_inv x a : rep x a ->
  (has_inverse (m : R) a -> ensures p (quotient_field_try_inv A modulo x) (fun o =>
     if o is Some y then inverse_mod S (m : R) rep a y else False)) /\
  (a = 0 -> ensures p (quotient_field_try_inv A modulo x) (fun o => o = None)) /\
  (a <> 0 -> ~ has_inverse (m : R) a -> panics (quotient_field_try_inv A modulo x)).
Proof.
move=> xa; have [h1 h2] := a_inv xa; have hz := a_is_zero xa; split=> [hi|].
  have a0 : a <> 0 by move=> a0; apply: no_inverse0; rewrite -a0.
  apply: ensures_bind hz _ => b ->; case: eqP => // _.
  by apply: ensures_bind (h1 hi) _ => y yE; apply: ensures_ret.
split=> [a0|a0 hi].
  by apply: ensures_bind hz _ => b ->; rewrite a0 eqxx; apply: ensures_ret.
apply: panics_ensures hz _ => b ->; case: eqP => // _.
by apply: panics_bind; exact: h2.
Qed.

Lemma quotient_field_any : quotient_field_args p S (m : R) rep cfg (QuotientField cfg A modulo).
Proof.
move=> x a y b xa yb.
have [xi xni] := a_inv xa; have [yi yni] := a_inv yb; have [t1 [t2 t3]] := a_field_inv xa.
split=> //; split=> //; split.
  move=> hi; apply: ensures_bind (yi hi) _ => i [c [ic _] hc].
  apply: ensures_mono (a_mul (arg_rep xa) (arg_rep ic)) _ => z zE.
  exists (qval (pi a * pi c)); first exact: quot_res.
  have /congr_pi e := hc.
  apply/congr_pi; rewrite mulrC piM.
  by rewrite mulrCA -(piMM b c) e pi1 mulr1.
split; first by move=> hi; apply: panics_bind; exact: yni.
split=> //; split=> //; split=> //; split.
  by apply: ensures_mono (ensures_notM (a_is_zero xa)) _ => r ->; split=> [/eqP|/eqP].
move=> a0 n gn.
have hz : forall c : M E, forall Q, ensures p c Q ->
    ensures p (let! b := is_zero (quotient_cmonoid A modulo) x in
               if b then zero (quotient_cmonoid A modulo) else c) Q.
  by move=> c Q h; apply: ensures_bind (a_is_zero xa) _ => r ->; case: eqP.
have pw (inv : quot S m -> quot S m) :
    (Z.lt n 0 -> gives p arg (multiplicative_inv (quotient_field_ring cfg A modulo) x) (inv (pi a))) ->
    gives p qrep (fpower (QuotientField cfg A modulo) n x) (zpow *%R 1 inv (pi a) n).
  move=> hi; apply: hz.
  apply: (@gpower_arg _ _ _ qrep arg _ _ (@mulrA _) (@mul1r _) (@mulr1 _)) => //=.
  - by move=> z v t w /qrep_arg; exact: a_mul.
  - by move=> z v zv; apply: gives_arg; exact: a_mul.
  - exact: a_one.
  - exact: arg_rep.
case: n gn pw => [|k|k] gn pw.
- apply: a_gives; rewrite rmorph1; exact: (pw (fun=> 0)).
- apply: a_gives; rewrite rmorphX -npow_expr; exact: (pw (fun=> 0)).
- split=> hi.
    have [c hc] := hi.
    have h : gives p qrep (fpower (QuotientField cfg A modulo) (Zneg k) x)
        (zpow *%R 1 (fun=> pi c) (pi a) (Zneg k)).
      apply: pw => _; apply: ensures_bind (t1 hi) _ => -[i [d [id _] hd]|//].
      apply: ensures_ret; exists d => //.
      have /congr_pi e1 := hc; have /congr_pi e2 := hd.
      by rewrite -[LHS]mul1r -pi1 -e2 piMM mulrAC -(piMM a c) e1 pi1 mul1r.
    apply: ensures_mono h _ => z zE; eexists; first exact: (quot_res zE).
    apply/congr_pi; rewrite mulrC piM /zpow npow_expr piX -exprMn -(piMM a c).
    by have /congr_pi -> := hc; rewrite pi1 expr1n.
  apply: panics_ensures (a_is_zero xa) _ => r ->; case: eqP => // _.
  rewrite /= /default_gpower /=; case: gn => gi gm.
  have -> : prim_i cfg (ptr_bits cfg) (Z.pos k) = ret (Z.pos k).
    move: gi gm; rewrite /prim_i /is_isize /in_i /imin /imax.
    case: Z.leb_spec => //= h1; case: Z.leb_spec => //= h2 _ h3.
    by case: Z.leb_spec; case: Z.leb_spec => //; lia.
  rewrite bind_ret; apply: panics_bind; apply: panics_bind; apply: panics_bind.
  exact: t3.
Qed.
End Modulus.

Variables (m : R) (modulo : E).
Hypotheses (m0 : m != 0) (mu : m \isn't a GRing.unit) (hm : rep modulo m).
Definition quotient_ring_any :
  quotient_args_correct p S m rep cfg (QuotientRing cfg A modulo) /\
  quotient_try_inv_args p S m rep (QuotientRing cfg A modulo) :=
  conj (@quotient_ring_args (Modulus m0 mu) modulo hm)
       (@quotient_ring_inv_args (Modulus m0 mu) modulo hm).
Definition quotient_field_args_any :
  quotient_args_correct p S m rep cfg (QuotientField cfg A modulo) /\
  quotient_field_args p S m rep cfg (QuotientField cfg A modulo) :=
  conj (@quotient_field_ring_args (Modulus m0 mu) modulo hm)
       (@quotient_field_any (Modulus m0 mu) modulo hm).
End Quot.

(** ** Fractions *)
Section Frac.
Variables (cfg : Cfg) (p : Prop) (E : Type) (R : idomainType) (rep : E -> R -> Prop).
Variables (AS : assoc_struct R) (S : eucl_struct R) (A : EuclAlg E).
Hypothesis hA : eucl_alg_spec cfg p rep AS S A.
Local Notation phi := [rmorphism of @FracField.tofrac R].

Let hI := eu_idom_ok hA.
Let hR := id_ring_ok hI.
Let hD := mo_dom_ok (ri_mon_ok hR).
Let hM := mo_mo_ok (ri_mon_ok hR).
Let hS := mo_sg_ok (ri_mon_ok hR).
Let hC := ri_cm_ok hR.
Let hB := ri_ab_ok hR.
Let hi := id_id_ok hI.
Let hE := eu_eu_ok hA.
Let inj : injective phi := @tofrac_inj R.
Local Notation frep := (frac_rep (F := [fieldType of {fraction R}]) phi AS rep).
Local Notation fgives := (frac_gives p AS rep).

Let arg (x : E * E) (q : {fraction R}) : Prop :=
  exists a b, ratio_of rep x a b /\ q = phi a / phi b.
Let ph0 a : (phi a == 0) = (a == 0) := phi_eq0 inj a.

Lemma frep_arg x q : frep x q -> arg x q.
Proof. by move=> [a [b [xa xb [b0 _ _] ->]]]; exists a, b; split=> //; split=> //; apply/eqP. Qed.
Lemma fgives_arg c q : gives p frep c q -> gives p arg c q.
Proof. by move=> h; apply: ensures_mono h _ => z; exact: frep_arg. Qed.
Lemma ratio_arg x a b : ratio_of rep x a b -> arg x (phi a / phi b).
Proof. by exists a, b. Qed.

Lemma f_reduce x q : arg x q -> gives p frep (fractions_reduce A x) q.
Proof. by move=> [a [b [[xa xb /eqP b0] ->]]]; exact: (fractions_reduce_ok hA inj xa xb b0). Qed.

Lemma f_mul x u y v : arg x u -> arg y v -> gives p frep (fractions_mul A x y) (u * v).
Proof.
move=> [a [b [[xa xb /eqP b0] ->]]] [c [d [[yc yd /eqP d0] ->]]].
apply: ensures_bind (mul_ok hS xa yc) _ => n nE.
apply: ensures_bind (mul_ok hS xb yd) _ => t tE.
apply: f_reduce; exists (a * c), (b * d); split.
  by split=> //; apply/eqP; rewrite mulf_neq0.
by rewrite mulf_div !rmorphM.
Qed.

Lemma f_add x u y v : arg x u -> arg y v -> gives p frep (fractions_add A x y) (u + v).
Proof.
move=> [a [b [[xa xb b0] ->]]] [c [d [[yc yd d0] ->]]].
have /eqP bn := b0; have /eqP dn := d0.
apply: (@ensures_bind _ _ _ _ _ (fun b' => b' = (b == d))) (equals_ok hD xb yd) _ => r ->.
apply: (@ensures_bind _ _ _ _ _ (fun e => arg e (phi a / phi b + phi c / phi d))); last first.
  by move=> e he; exact: (f_reduce he).
case: eqVneq => bd.
  apply: ensures_bind (add_ok hC xa yc) _ => n nE; apply: ensures_ret.
  by exists (a + c), b; split=> //; rewrite -bd rmorphD mulrDl.
apply: ensures_bind (mul_ok hS xa yd) _ => n1 n1E.
apply: ensures_bind (mul_ok hS xb yc) _ => n2 n2E.
apply: ensures_bind (add_ok hC n1E n2E) _ => n nE.
apply: ensures_bind (mul_ok hS xb yd) _ => t tE; apply: ensures_ret.
exists (a * d + b * c), (b * d); split; first by split=> //; apply/eqP; rewrite mulf_neq0.
by rewrite addf_div ?ph0 // rmorphD !rmorphM [phi b * phi c]mulrC.
Qed.

Lemma f_neg x u : arg x u -> gives p arg (fractions_neg A x) (- u).
Proof.
move=> [a [b [[xa xb b0] ->]]]; apply: ensures_bind (neg_ok hB xa) _ => n nE.
by apply: ensures_ret; exists (- a), b; split=> //; rewrite rmorphN mulNr.
Qed.

Lemma f_inv x a b : ratio_of rep x a b ->
  (a <> 0 -> gives p arg (fractions_inv A x) (phi b / phi a)) /\
  (a = 0 -> panics (fractions_inv A x)).
Proof.
move=> [xa xb /eqP b0]; split=> [a0|a0].
  have /eqP an := a0.
  apply: ensures_bind (is_zero_ok hC xa) _ => z ->; apply: ensures_assert_bind => //.
  apply: ensures_bind (associate_coef_ok hi xa an) _ => u ua.
  apply: ensures_bind (is_one_ok hM ua) _ => r ->.
  case: eqVneq => [u1|u1] /=; first by apply: ensures_ret; exists b, a.
  apply: ensures_bind (mul_ok hS xb ua) _ => n' n'a.
  apply: ensures_bind (mul_ok hS xa ua) _ => d' d'b.
  have un : acoef AS a != 0.
    by have uu := acoef_unit AS an; apply: contraTneq uu => ->; rewrite unitr0.
  apply: ensures_ret; exists (b * acoef AS a), (a * acoef AS a); split.
    by split=> //; apply/eqP; rewrite mulf_neq0.
  by rewrite !rmorphM -mulf_div divff ?mulr1 // ph0.
apply: panics_ensures (is_zero_ok hC xa) _ => z ->.
by apply: panics_assert_bind; rewrite a0 eqxx.
Qed.

Lemma f_ntimes n x u : Z.le 0 n -> arg x u ->
  gives p frep (ntimes (fractions_cmonoid A) n x) (u *+ Z.to_nat n).
Proof.
move=> n0 xu; rewrite -npow_mulrn.
apply: (@ntimes_arg _ _ _ frep arg _ _ (@addrA _) (@add0r _) (@addr0 _)) => //.
- by move=> y v z w /frep_arg; exact: f_add.
- by move=> y v yv; apply: fgives_arg; exact: f_add.
- exact: (frac_zero hA).
Qed.

Lemma f_try_inv x a b : ratio_of rep x a b -> ensures p (fractions_try_inv A x) (fun o =>
  if o is Some y then a <> 0 /\ frep y (phi b / phi a) else a = 0).
Proof.
move=> [xa xb b0].
apply: ensures_bind (ensures_notM (is_zero_ok hC xa)) _ => r ->.
case: eqVneq => a0; first exact: ensures_ret.
have h : arg (x.2, x.1) (phi b / phi a) by exists b, a; split=> //; split=> //; apply/eqP.
by apply: ensures_bind (f_reduce h) _ => y yE; apply: ensures_ret; split=> //; apply/eqP.
Qed.

Lemma reduce_ok : reduce_correct p AS rep (fractions_reduce A).
Proof.
split=> [x a b xab|x a xa x0].
  case: (xab) => _ _ /eqP b0.
  exact: (gives_frac inj b0 (f_reduce (ratio_arg xab)) (erefl _)).
apply: panics_ensures (is_zero_ok hC x0) _ => z ->.
by apply: panics_assert_bind; rewrite eqxx.
Qed.

Lemma arg_ratio c q n d : d != 0 -> gives p arg c q -> q = phi n / phi d ->
  ratio_gives p rep c n d.
Proof.
move=> d0 h qE; apply: ensures_mono h _ => z [a [b [zab qE']]].
exists a, b; split=> //; case: zab => _ _ /eqP b0.
by apply/(ratioE inj _ _ b0 d0); rewrite -qE' qE.
Qed.

Lemma fractions_any : fractions_args_correct p AS rep cfg (ReducedFractions cfg A).
Proof.
move=> x a b y c d xab ycd.
have [xa xb /eqP b0] := xab; have [yc yd /eqP d0] := ycd.
have xu := ratio_arg xab; have yv := ratio_arg ycd.
have bd0 : b * d != 0 by rewrite mulf_neq0.
have pb : phi b != 0 by rewrite ph0.
have pd : phi d != 0 by rewrite ph0.
have addE : phi a / phi b + phi c / phi d = phi (a * d + c * b) / phi (b * d).
  by rewrite addf_div // rmorphD !rmorphM.
have subE : phi a / phi b - phi c / phi d = phi (a * d - c * b) / phi (b * d).
  by rewrite -mulNr addf_div // rmorphB !rmorphM mulNr.
have mulE : phi a / phi b * (phi c / phi d) = phi (a * c) / phi (b * d).
  by rewrite mulf_div !rmorphM.
have hadd : fgives (fractions_add A x y) (a * d + c * b) (b * d).
  exact: (gives_frac inj bd0 (f_add xu yv)).
have hmul : fgives (fractions_mul A x y) (a * c) (b * d).
  exact: (gives_frac inj bd0 (f_mul xu yv)).
have [xi xi0] := f_inv xab; have [yi yi0] := f_inv ycd.
split.
  split=> //; apply: (gives_frac inj bd0 (q := phi a / phi b - phi c / phi d)) => //.
  apply: ensures_bind (f_neg yv) _ => z zE; rewrite addrC; exact: f_add.
split.
  split=> //; apply: (gives_frac inj bd0 (q := phi a / phi b - phi c / phi d)) => //.
  apply: ensures_bind (f_neg yv) _ => z zE; exact: f_add.
split.
  split.
  - by apply: (gives_frac inj b0 (f_add xu xu)); rewrite rmorphD mulrDl.
  - by apply: (gives_frac inj _ (f_mul xu xu)); rewrite ?mulf_neq0 // mulf_div !rmorphM.
  - by apply: (arg_ratio b0 (f_neg xu)); rewrite rmorphN mulNr.
  - by apply: (arg_ratio b0 (f_neg xu)); rewrite rmorphN mulNr.
split.
  by move=> n n0; apply: (gives_frac inj b0 (f_ntimes n0 xu)); rewrite rmorphMn mulrnAl.
split.
  move=> n gn; apply: (gives_frac inj b0 (q := phi (zmul a n) / phi b)) => //.
  apply: ensures_bind (ztimes_ok hB gn xa) _ => z zE; apply: f_reduce.
  by exists (zmul a n), b; split=> //; split=> //; apply/eqP.
split.
  split=> //.
  - by move=> a0; apply: (arg_ratio _ (xi a0)) => //; exact/eqP.
  - move=> c0; have /eqP cn := c0.
    apply: (gives_frac inj _ (q := phi a / phi b * (phi d / phi c))).
    + by rewrite mulf_neq0.
    + by apply: ensures_bind (yi c0) _ => z zE; exact: f_mul.
    + by rewrite mulf_div !rmorphM.
  - by move=> c0; apply: panics_bind; exact: yi0.
split.
  apply: ensures_mono (f_try_inv xab) _ => -[z [a0 zE]|//]; split=> //.
  have [e [f [zef /esym qE]]] := rep_fof zE; exists e, f; split=> //.
  case: (zef) => _ _ /eqP f0 _ _; have /eqP an := a0.
  by move: qE => /(ratioE inj _ _ f0 an); rewrite mulrC.
split.
  apply: ensures_mono (ensures_notM (is_zero_ok hC xa)) _ => r ->.
  by split=> [/eqP|/eqP].
move=> a0 n gn; have /eqP an := a0; have o0 := oner_neq0 R.
have hz Q c' : ensures p c' Q ->
    ensures p (let! r := is_zero (fractions_cmonoid A) x in
               if r then zero (fractions_cmonoid A) else c') Q.
  move=> h; apply: (@ensures_bind _ _ _ _ _ (fun r => r = false)) => [|r -> //].
  apply: (@ensures_bind _ _ _ _ _ (fun z => frep z 0)) (frac_zero hA _) _ => z [e [f [ze _ [fn _ _] zq]]].
  have e0 : e = 0.
    by apply/eqP; rewrite -ph0; move/esym/eqP: zq; rewrite mulf_eq0 invr_eq0 !ph0 (negbTE fn) orbF.
  apply: (@ensures_bind _ _ _ _ _ (fun r => r = (a == e))) (equals_ok hD xa ze) _ => r ->.
  by rewrite e0 (negbTE an); apply: ensures_ret.
have hp : gives p frep (fpower (ReducedFractions cfg A) n x) (zpow *%R 1 GRing.inv (phi a / phi b) n).
  apply: hz; apply: (@gpower_arg _ _ _ frep arg _ _ (@mulrA _) (@mul1r _) (@mulr1 _)) => //.
  - by move=> z v t w /frep_arg; exact: f_mul.
  - by move=> z v zv; apply: fgives_arg; exact: f_mul.
  - exact: (frac_one hA).
  - move=> _; apply: ensures_bind (f_try_inv xab) _ => -[z [_ zE]|//].
    by apply: ensures_ret; rewrite invf_div; exact: frep_arg.
case: n gn hp => [|k|k] gn hp.
- by apply: (gives_frac inj o0 hp); rewrite rmorph1 divr1.
- by apply: (gives_frac inj _ hp); rewrite ?expf_neq0 //= npow_expr exprMn exprVn !rmorphX.
- by apply: (gives_frac inj _ hp); rewrite ?expf_neq0 //= npow_expr invf_div exprMn exprVn !rmorphX.
Qed.
End Frac.
