(** * PTowerEx.v -- a tower: GF(4) over GF(2) and GF(16) over GF(4). *)

From Coq Require Import ZArith List.
From mathcomp Require Import all_ssreflect all_algebra ssrZ zify.
From Verif Require Import Rust Traits MInts MConstr Wp Spec RingSpec.
From Verif Require Import PIntsZ PInts POrders Quotient PQuot PModular PPoly TowerSpec PTower.

Set Implicit Arguments.
Unset Strict Implicit.
Unset Printing Implicit Defensive.

Import GRing.Theory.
Local Open Scope ring_scope.

(** A monic quadratic without roots is irreducible. *)
Section Quadratic.
Variables (F : fieldType) (a b : F).
Definition quadratic : {poly F} := 'X^2 + a *: 'X + b%:P.
Lemma quadraticE : quadratic = Poly [:: b; a; 1].
Proof.
apply/polyP => i; rewrite coef_Poly !coefD coefXn coefZ coefX coefC.
by case: i => [|[|[|i]]] //=; rewrite ?mulr0 ?mulr1 ?addr0 ?add0r // nth_nil.
Qed.
Lemma polyseq_quadratic : polyseq quadratic = [:: b; a; 1].
Proof. by rewrite quadraticE (@PolyK _ 0) //= oner_neq0. Qed.
Lemma size_quadratic : size quadratic = 3%N.
Proof. by rewrite polyseq_quadratic. Qed.
Lemma quadratic_irreducible : (forall u : F, u * u + a * u + b != 0) ->
  @irreducible_elt (poly_idomainType F) quadratic.
Proof.
move=> h; apply: irreducible_poly_elt; apply: cubic_irreducible.
  by rewrite size_quadratic.
move=> u; apply/negP => /rootP; rewrite !hornerE => /eqP.
by rewrite (negbTE (h u)).
Qed.
Hypothesis hab : forall u : F, u * u + a * u + b != 0.
Definition quadratic_modulus : irr_modulus (poly_idomainType F) :=
  let h := quadratic_irreducible hab in
  @IrrModulus (poly_idomainType F)
    (@Modulus (poly_idomainType F) quadratic (let: And3 h _ _ := h in h)
       (let: And3 _ h _ := h in h)) h.
Lemma quadratic_of E (rep : E -> F -> Prop) x y z : rep x b -> rep y a -> rep z 1 ->
  poly_of rep [:: x; y; z] (mval quadratic_modulus : {poly F}).
Proof. by move=> hx hy hz; rewrite /poly_of /= polyseq_quadratic; repeat constructor. Qed.
End Quadratic.

(** x^2 + x + 1 over GF(2) *)
Lemma gf4_noroot : forall u : [fieldType of F2], u * u + 1 * u + 1 != 0.
Proof. by case=> -[|[|]]. Qed.
Definition gf4_modulus := quadratic_modulus gf4_noroot.
Definition gf4 := qfield_fieldType (poly_estruct [fieldType of F2]) gf4_modulus.
Definition F4 cfg : FieldAlg (seq bool) := QuotientField cfg (PolyEucl BB) [:: true; true; true].
Definition gf4_rep : seq bool -> gf4 -> Prop :=
  @qf_rep (seq bool) (poly_idomainType [fieldType of F2]) (poly_of bb_rep) (poly_estruct _)
    gf4_modulus.

Lemma gf4_tower cfg : finite_field cfg gf4_rep (F4 cfg) 4.
Proof.
have -> : 4%N = (2 ^ (size (mval gf4_modulus : {poly [fieldType of F2]})).-1)%N.
  by rewrite /= size_quadratic.
apply: FF_extension; first exact: FF_BB.
exact: quadratic_of.
Qed.

(** The class of x. *)
Definition gf4_x : gf4 := qpi (poly_estruct [fieldType of F2]) gf4_modulus ('X : {poly [fieldType of F2]}).
Lemma gf4_xE : gf4_x * gf4_x + gf4_x + 1 = 0.
Proof.
pose q := qpi_rmorphism (poly_estruct [fieldType of F2]) gf4_modulus.
have -> : gf4_x * gf4_x + gf4_x + 1 = q ('X * 'X + 'X + 1) by rewrite !rmorphD rmorphM rmorph1.
apply/qpi_eq0; exists 1; rewrite mul1r /= /quadratic scale1r expr2; by [].
Qed.
Lemma gf4_x_rep : gf4_rep [:: false; true] gf4_x.
Proof.
rewrite /gf4_rep /qf_rep.
have -> : qval gf4_x = 'X :> {poly [fieldType of F2]}.
  have := @erem_small [fieldType of F2] gf4_modulus 'X.
  by rewrite size_polyX /= size_quadratic => /eqP.
by rewrite /poly_of polyseqX; repeat constructor.
Qed.
Lemma gf4_two : 1 + 1 = 0 :> gf4.
Proof.
pose q := qpi_rmorphism (poly_estruct [fieldType of F2]) gf4_modulus.
have -> : 1 + 1 = q (1 + 1) by rewrite rmorphD rmorph1.
have -> : 1 + 1 = 0 :> {poly [fieldType of F2]}; last by rewrite rmorph0.
by apply/polyP => i; rewrite coefD !coefC; case: i => [|i] //=; exact: val_inj.
Qed.

(** y^2 + y + x over GF(4) *)
Lemma gf16_noroot : forall u : gf4, u * u + 1 * u + gf4_x != 0.
Proof.
move=> u; apply/eqP; rewrite mul1r => h.
have [_ /enumerated_fermat f4] := finite_field_ok (gf4_tower (mkCfg true true 64)).
have two (v : gf4) : v + v = 0 by rewrite -[v]mulr1 -mulrDr gf4_two mulr0.
have neg (v : gf4) : - v = v by apply/eqP; rewrite eq_sym -addr_eq0 two.
have uE : u * u = u + gf4_x.
  by apply/eqP; rewrite -subr_eq0 neg addrA h.
have := f4 u; rewrite (exprM u 2 2) !expr2 uE.
have -> : (u + gf4_x) * (u + gf4_x) = u * u + gf4_x * gf4_x.
  rewrite mulrDr !mulrDl [gf4_x * u]mulrC.
  by rewrite addrA -[u * u + _ + _]addrA two addr0.
rewrite uE -addrA => /eqP; rewrite -subr_eq0 addrAC subrr add0r => /eqP h2.
have := gf4_xE; rewrite [gf4_x * gf4_x + _]addrC h2 add0r => /eqP.
by rewrite oner_eq0.
Qed.
Definition gf16_modulus := quadratic_modulus gf16_noroot.
Definition gf16 := qfield_fieldType (poly_estruct gf4) gf16_modulus.
Definition F16 cfg : FieldAlg (seq (seq bool)) :=
  QuotientField cfg (PolyEucl (F4 cfg)) [:: [:: false; true]; [:: true]; [:: true]].
Definition gf16_rep : seq (seq bool) -> gf16 -> Prop :=
  @qf_rep (seq (seq bool)) (poly_idomainType gf4) (poly_of gf4_rep) (poly_estruct _)
    gf16_modulus.
Lemma gf16_tower cfg : finite_field cfg gf16_rep (F16 cfg) 16.
Proof.
have -> : 16%N = (4 ^ (size (mval gf16_modulus : {poly gf4})).-1)%N.
  by rewrite /= size_quadratic.
apply: FF_extension; first exact: gf4_tower.
have h1 : gf4_rep [:: true] 1.
  by rewrite /gf4_rep /qf_rep qval1 /poly_of polyseq1; repeat constructor.
by apply: quadratic_of => //; exact: gf4_x_rep.
Qed.

(** The field with four elements in the towers of any depth. *)
Lemma gf4_field cfg p : tower_field cfg p gf4_rep (F4 cfg).
Proof. by apply: TF_quotient; [exact/TE_poly/TF_BB|exact: quadratic_of]. Qed.
