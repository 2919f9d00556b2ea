(** * PFourier.v -- the inverse Fourier transform undoes the Fourier transform. *)

From Coq Require Import ZArith Lia List.
From mathcomp Require Import all_ssreflect all_algebra ssrZ zify.
From Verif Require Import Rust Traits MInts MConstr Wp Spec PropSpec RingSpec PDefaults NumSpec.
From Verif Require Import PLaws FourierSpec.

Set Implicit Arguments.
Unset Strict Implicit.
Unset Printing Implicit Defensive.

Import GRing.Theory.
Local Open Scope ring_scope.

Section Math.
Variable F : fieldType.

Lemma root_order_neq0 n (g : F) : n.-primitive_root g -> n%:R != 0 :> F.
Proof.
move=> hg; have n0 := prim_order_gt0 hg; apply/negP => nz.
have [p hp] := natf0_char n0 nz; have pp := charf_prime hp.
have pn : (p %| n)%N by rewrite (dvdn_charf hp).
have h : g ^+ (n %/ p) == 1.
  suff : (g ^+ (n %/ p) - 1) ^+ p == 0 by rewrite expf_eq0 subr_eq0 => /andP[].
  rewrite -(Frobenius_autE hp) rmorphB rmorph1 /= Frobenius_autE -exprM divnK //.
  by rewrite (prim_expr_order hg) subrr.
move: h; rewrite -(prim_order_dvd hg) => /dvdn_leq h.
have : (0 < n %/ p)%N by rewrite divn_gt0 ?prime_gt0 // dvdn_leq.
move=> /h; rewrite leqNgt ltn_Pdiv //; exact: prime_gt1.
Qed.

Lemma geometric n (g : F) : n.-primitive_root g -> forall l i, (l < n)%N -> (i < n)%N ->
  \sum_(j < n) (g ^+ l * g^-1 ^+ i) ^+ j = if l == i then n%:R else 0.
Proof.
move=> hg l i ln ni; have gn := prim_expr_order hg.
have g0 : g != 0.
  by apply/eqP => g0; move: gn (prim_order_gt0 hg); rewrite g0 expr0n; case: (n) => //= m /eqP; rewrite eq_sym oner_eq0.
have zE : (g ^+ l * g^-1 ^+ i == 1) = (l == i).
  rewrite exprVn -(inj_eq (mulIf (expf_neq0 i g0))) mul1r -mulrA mulVf ?expf_neq0 // mulr1.
  by rewrite (eq_prim_root_expr hg) !modn_small.
have [li|z1] := boolP (l == i).
  have /eqP -> : g ^+ l * g^-1 ^+ i == 1 by rewrite zE.
  by under eq_bigr do rewrite expr1n; rewrite sumr_const card_ord.
apply: (mulfI (_ : g ^+ l * g^-1 ^+ i - 1 != 0)); first by rewrite subr_eq0 zE.
have zn : (g ^+ l * g^-1 ^+ i) ^+ n = 1.
  rewrite exprMn -!exprM [(l * n)%N]mulnC [(i * n)%N]mulnC !exprM gn exprVn gn invr1.
  by rewrite !expr1n mulr1.
by rewrite -subrX1 zn subrr mulr0.
Qed.

Definition transform (g : F) (us : seq F) : seq F :=
  [seq (Poly us).[g ^+ i] | i <- iota 0 (size us)].

Lemma size_transform g us : size (transform g us) = size us.
Proof. by rewrite size_map size_iota. Qed.

Lemma inverse_math n (g : F) us : n.-primitive_root g -> size us = n ->
  [seq u / n%:R | u <- transform g^-1 (transform g us)] = us.
Proof.
move=> hg su; have n0 := root_order_neq0 hg.
have st : size (transform g us) = n by rewrite size_transform.
apply: (@eq_from_nth _ 0); first by rewrite size_map !size_transform.
rewrite size_map size_transform st => i ni.
rewrite (nth_map 0); last by rewrite size_transform st.
rewrite (nth_map 0%N); last by rewrite size_iota st.
rewrite nth_iota ?st // add0n.
have sP (s : seq F) : (size (Poly s) <= size s)%N by exact: size_Poly.
rewrite (horner_coef_wide _ (sP _)) st.
apply: (mulIf n0); rewrite divfK //.
transitivity (\sum_(j < n) \sum_(l < n) us`_l * (g ^+ l * g^-1 ^+ i) ^+ j).
  apply: eq_bigr => j _; rewrite coef_Poly (nth_map 0%N) ?size_iota ?su // nth_iota ?su // add0n.
  rewrite (horner_coef_wide _ (sP _)) su mulr_suml; apply: eq_bigr => l _.
  by rewrite coef_Poly -mulrA exprMn -!exprM mulnC.
rewrite exchange_big /=.
under eq_bigr => l _ do rewrite -mulr_sumr geometric //.
rewrite (bigD1 (Ordinal ni)) //= eqxx big1 ?addr0 // => l.
by rewrite -val_eqE /= => /negbTE ->; rewrite mulr0.
Qed.
End Math.

Section Calls.
Variables (cfg : Cfg) (p : Prop) (E : Type) (F : fieldType) (rep : E -> F -> Prop) (A : FieldAlg E).
Hypothesis hF : field_alg_spec cfg p rep A.
Let hR := id_ring_ok (eu_idom_ok (fi_eucl_ok hF)).

Lemma value_at_ok w b v us : rep w b -> Forall2 rep v us -> gives p rep (value_at A w v) (Poly us).[b].
Proof.
move=> wb; elim=> {v us} [|x u v us xu _ IH] /=.
  by rewrite horner0; have := zero_ok (ri_cm_ok hR).
rewrite cons_poly_def hornerMXaddC.
apply: ensures_bind IH _ => s sE.
have hm : gives p rep (mul A s w) ((Poly us).[b] * b) by have := mul_ok (mo_sg_ok (ri_mon_ok hR)) sE wb.
apply: ensures_bind hm _ => t tE.
by have := add_ok (ri_cm_ok hR) tE xu.
Qed.

Lemma mapM_gives (T S B : Type) (R : T -> S -> Prop) (Q : B -> F -> Prop) (f : T -> M B) (h : S -> F) xs ys :
  (forall x y, R x y -> ensures p (f x) (fun z => Q z (h y))) -> Forall2 R xs ys ->
  ensures p (mapM f xs) (fun zs => Forall2 Q zs (map h ys)).
Proof.
move=> hf; elim=> {xs ys} [|x y xs ys xy _ IH] /=; first by apply: ensures_ret; constructor.
apply: ensures_bind (hf _ _ xy) _ => z zE; apply: ensures_bind IH _ => zs zsE.
by apply: ensures_ret; constructor.
Qed.

Lemma zexp_nat (u : F) i : zexp u (Z.of_nat i) = u ^+ i.
Proof. by case: i => [|i] //=; rewrite SuccNat2Pos.id_succ. Qed.
Lemma zmul_nat (u : F) i : zmul u (Z.of_nat i) = u *+ i.
Proof. by case: i => [|i] //=; rewrite SuccNat2Pos.id_succ. Qed.

Lemma good_less n i : (i <= n)%N -> good_isize cfg (Z.of_nat n) -> good_isize cfg (Z.of_nat i).
Proof.
rewrite /good_isize /is_isize /in_i /imin /imax => hi.
by move: (Z.pow 2 _) => P [] /andP[/Z.leb_le h1 /Z.leb_le h2] h3; split; [apply/andP; split; apply/Z.leb_le|]; lia.
Qed.

Lemma iota_same n m : Forall2 (fun i j => i = j /\ (i < m + n)%N) (iota m n) (iota m n).
Proof.
elim: n m => [|n IH] m /=; constructor; first by rewrite -addSnnS leq_addr.
by have := IH m.+1; rewrite addSnnS.
Qed.

Lemma dft_ok g b v us : good_isize cfg (Z.of_nat (size v)) -> rep g b -> b != 0 -> Forall2 rep v us ->
  ensures p (dft A g v) (fun w => Forall2 rep w (transform b us)).
Proof.
move=> gs gb b0 hv; have sv : size v = size us by exact: (reps_size hv).
rewrite /transform -sv; apply: (mapM_gives (R := fun i j => i = j /\ (i < 0 + size v)%N)); last exact: iota_same.
move=> i _ [<- hi]; have gi := good_less (ltnW hi) gs.
have hp : gives p rep (fpower A (Z.of_nat i) g) (b ^+ i).
  by have := fpower_ok (fi_fi_ok hF) gi gb b0; rewrite zexp_nat.
by apply: ensures_bind hp _ => w wE; exact: value_at_ok.
Qed.

Lemma inverse_dft_ok g b v us : good_isize cfg (Z.of_nat (size v)) -> rep g b ->
  (size v).-primitive_root b -> Forall2 rep v us ->
  ensures p (inverse_dft A g v) (fun w => Forall2 rep w [seq u / (size v)%:R | u <- transform b^-1 us]).
Proof.
move=> gs gb hb hv; have n0 := root_order_neq0 hb.
have b0 : b != 0.
  apply/eqP => b0; move: (prim_expr_order hb) (prim_order_gt0 hb); rewrite b0 expr0n.
  by case: (size v) => //= m /eqP; rewrite eq_sym oner_eq0.
have hi : gives p rep (finv A g) b^-1 by have := finv_ok (fi_fi_ok hF) gb b0.
apply: ensures_bind hi _ => h hE.
apply: ensures_bind (dft_ok gs hE _ hv) _ => [|u uE]; first by rewrite invr_eq0.
have hn : gives p rep (int A (Z.of_nat (size v))) (size v)%:R.
  by have := int_ok (ri_ur_ok hR) gs; rewrite zmul_nat.
apply: ensures_bind hn _ => n nE; apply: (mapM_gives (R := rep)) uE => x y xy.
by have := fdiv_ok (fi_fi_ok hF) xy nE n0.
Qed.

(** The inverse undoes the transform. *)
Lemma round_trip g b v us : good_isize cfg (Z.of_nat (size v)) -> rep g b ->
  (size v).-primitive_root b -> Forall2 rep v us ->
  ensures p (let! w := dft A g v in inverse_dft A g w) (fun z => Forall2 rep z us).
Proof.
move=> gs gb hb hv; have sv : size v = size us by exact: (reps_size hv).
have b0 : b != 0.
  apply/eqP => b0; move: (prim_expr_order hb) (prim_order_gt0 hb); rewrite b0 expr0n.
  by case: (size v) => //= m /eqP; rewrite eq_sym oner_eq0.
apply: ensures_bind (dft_ok gs gb b0 hv) _ => w wE.
have sw : size w = size v by rewrite (reps_size wE) size_transform.
rewrite -sw in gs hb; apply: ensures_mono (inverse_dft_ok gs gb hb wE) _ => z.
by rewrite inverse_math // sw sv.
Qed.
End Calls.
