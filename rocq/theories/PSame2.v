(** * PSame2.v -- quotients by associated moduli, and finite fields of given size. *)

From Coq Require Import ZArith Znumtheory Lia List.
From mathcomp Require Import all_ssreflect all_fingroup all_solvable all_algebra finfield.
From mathcomp Require Import ssrZ zify.
From Verif Require Import Rust RustFacts Traits MInts MConstr Spec Wp ModSpec NumSpec RingSpec TowerSpec ParSpec SameSpec.
From Verif Require Import PDefaults PIntsZ PInts POrders Quotient PQuot PModular PPoly PTower PCount PCount3 PFF PFinite.
From Verif Require Import PPar PPar2 PPar3 PPar4 PPar5 PSame.

Set Implicit Arguments.
Unset Strict Implicit.
Unset Printing Implicit Defensive.

Import GRing.Theory.
Local Open Scope ring_scope.

(** ** One finite field inside another *)
Section Embed.
Variables (K1 K2 : finFieldType) (j : nat).
Hypothesis card : #|K2| = (#|K1| ^ j)%N.

Lemma card_prime (K : finFieldType) r : r \in [char K] -> exists2 d, (0 < d)%N & #|K| = (r ^ d)%N.
Proof.
move=> rK; have pr := charf_prime rK; exists (logn r #|K|); last first.
  have := card_pgroup (abelem_pgroup (fin_ring_char_abelem rK)).
  by rewrite cardsT.
have := card_pgroup (abelem_pgroup (fin_ring_char_abelem rK)); rewrite cardsT => kE.
rewrite lt0n; apply/negP => /eqP d0; have := finRing_gt1 K.
by rewrite kE d0.
Qed.

Lemma same_char r : r \in [char K1] -> r \in [char K2].
Proof.
move=> r1; have [r' pr' r2] := finCharP K2.
have [d1 d1p c1] := card_prime r1; have [d2 d2p c2] := card_prime r2.
have : (r' %| r ^ (d1 * j))%N by rewrite expnM -c1 -card c2 dvdn_exp.
rewrite Euclid_dvdX // => /andP[rr _].
have := dvdn_prime2 pr' (charf_prime r1); rewrite rr => /esym/eqP e.
by rewrite -e.
Qed.

Lemma embed : exists phi : K1 -> K2, rmorphism phi.
Proof.
have [p pp p1] := finCharP K1; have p2 := same_char p1; have hq := prime_Z pp.
have q1 : ((Z.to_nat (Z.of_nat p))%:R : K1) = 0 by rewrite Nat2Z.id; exact: charf0.
have q2 : ((Z.to_nat (Z.of_nat p))%:R : K2) = 0 by rewrite Nat2Z.id; exact: charf0.
have /cyclicP[g gE] := field_unit_group_cyclic [group of [set: {unit K1}]].
have xgen (u : K1) : u != 0 -> exists i, u = (val g) ^+ i.
  rewrite -unitfE => uu.
  have : FinRing.unit K1 uu \in [set: {unit K1}] by rewrite inE.
  rewrite gE => /cycleP[i ig]; exists i.
  by have := congr1 val ig; rewrite /= FinRing.val_unitX.
have [m [f [h fK hK]]] := finite_field_modulus hq q1 xgen.
set P := qfield_fieldType Z_eucl (prime_field hq) in m f h fK hK *.
pose Q := qfield_fieldType (poly_estruct P) m.
pose mp : {poly P} := mval m.
have fermatQ (u : Q) i : u ^+ (#|K1| ^ i) = u.
  apply: (can_inj fK); rewrite rmorphX /=; elim: i => [|i IH]; first by rewrite expn0 expr1.
  by rewrite expnSr exprM IH expf_card.
have mdvd : mp %| 'X^#|K2| - 'X.
  have : dvds (mp : poly_idomainType P) ('X^#|K2| - 'X).
    apply/(qpi_eq0 (poly_estruct P) m).
    by rewrite rmorphB rmorphX card; have := fermatQ (qpi (poly_estruct P) m 'X) j => ->; rewrite subrr.
  by move=> [c ->]; rewrite dvdp_mull.
pose i2 : {rmorphism P -> K2} := RMorphism (prime_in_is_rmorphism hq q2).
have sm : (1 < size mp)%N.
  have [m0 mu _] := imodP m; rewrite ltn_neqAle size_poly_gt0 m0 andbT eq_sym.
  apply: contra mu => /size_poly1P[e e0 me].
  by rewrite poly_unitE [mval m]me size_polyC e0 coefC /= unitfE.
have [y my] : exists y : K2, root (map_poly i2 mp) y.
  have d2 : map_poly i2 mp %| \prod_(x : K2) ('X - x%:P).
    by rewrite -finField_genPoly -(map_polyXn i2) -(map_polyX i2) -rmorphB dvdp_map.
  have [mk] := dvdp_prod_XsubC d2; set rs := mask _ _ => e.
  have : (1 < size (\prod_(x <- rs) ('X - x%:P))%R)%N by rewrite -(eqp_size e) size_map_poly.
  rewrite size_prod_XsubC ltnS; case: rs e => // y rs e _; exists y.
  by rewrite (eqp_root e) root_prod_XsubC inE eqxx.
pose ev : {rmorphism poly_idomainType P -> K2} := RMorphism (peval_is_rmorphism hq q2 y).
have fm : ev (mval m) = 0 by exact/eqP.
have hl := @qlift_is_rmorphism _ (poly_estruct P) m K2 ev fm.
pose l : {rmorphism Q -> K2} := RMorphism (hl : rmorphism (qlift ev : Q -> K2)).
pose h' : {rmorphism K1 -> Q} := RMorphism (can2_rmorphism fK hK).
by exists (l \o h'); exact: (rmorphismP [rmorphism of l \o h']).
Qed.
End Embed.

Lemma embed_fields (F1 F2 : fieldType) (s1 : seq F1) (s2 : seq F2) j :
  uniq s1 -> (forall u, u \in s1) -> uniq s2 -> (forall u, u \in s2) ->
  size s2 = (size s1 ^ j)%N -> exists phi : {rmorphism F1 -> F2}, True.
Proof.
move=> u1 h1 u2 h2 sz.
have hc : #|fin_field u2 h2| = (#|fin_field u1 h1| ^ j)%N by rewrite !fin_card.
have [phi hphi] := embed hc.
by exists (RMorphism (hphi : @GRing.RMorphism.class_of F1 F2 phi)).
Qed.

(** ** Equivalent relations *)
Section Equivalent.
Variables (ok : Z -> Prop) (E1 E2 : Type) (R R' : E1 -> E2 -> Prop).
Hypothesis RR : forall x y, R x y <-> R' x y.

Lemma option_par_iff o1 o2 : option_par R o1 o2 -> option_par R' o1 o2.
Proof. by case: o1 o2 => [a|] [b|] //= /RR. Qed.
Lemma pair_par_iff z1 z2 : pair_par R z1 z2 -> pair_par R' z1 z2.
Proof. by move=> [/RR ? /RR ?]. Qed.
Lemma triple_par_iff z1 z2 : triple_par R z1 z2 -> triple_par R' z1 z2.
Proof. by move=> [/pair_par_iff ? /RR ?]. Qed.
Local Ltac conv :=
  repeat match goal with
  | |- forall x y x' y', R' x x' -> R' y y' -> _ => move=> ? ? ? ? /RR ? /RR ?
  | |- forall x x', R' x x' -> _ => move=> ? ? /RR ?
  | |- _ => move=> ?
  end.
Lemma ring_par_iff (A : RingAlg E1) (B : RingAlg E2) : ring_alg_par ok R A B -> ring_alg_par ok R' A B.
Proof.
move=> [[[d1 d2] [g1 g2 g3] [m1 m2 m3 m4]] [c1 c2 c3 c4 c5 c6] [a1 a2 a3 a4 a5] [u1]].
have RRl x y : R x y -> R' x y by move/RR.
split; first split; split; unfold par1, par2, par1b, par2b, par1o in *; conv; auto;
  by apply: par_mono; last (exact: RRl || exact: option_par_iff); eauto.
Qed.
Lemma field_par_iff (A : FieldAlg E1) (B : FieldAlg E2) : field_alg_par ok R A B -> field_alg_par ok R' A B.
Proof.
move=> [[[r [i1 i2 i3 i4 i5]] [e1 e2 e3 e4 e5 e6 e7 e8]] [f1 f2 f3]].
have RRl x y : R x y -> R' x y by move/RR.
split; last (split; unfold par1, par2 in *; conv; by apply: par_mono; last exact: RRl; eauto).
split; last (split; unfold par1, par2, par2b, par2p, par2t in *; conv; auto;
  by apply: par_mono; last (exact: RRl || exact: pair_par_iff || exact: triple_par_iff); eauto).
split; first exact: ring_par_iff.
split.
- by move=> x y x' y' /RR hx /RR hy; apply: par_mono (i1 _ _ _ _ hx hy) option_par_iff.
- by move=> x y x' y' /RR hx /RR hy; exact: i2.
- by move=> x y x' y' /RR hx /RR hy; exact: i3.
- by move=> x x' /RR hx; apply: par_mono (i4 _ _ hx) RRl.
- by move=> x x' /RR hx; apply: par_mono (i5 _ _ hx) RRl.
Qed.
End Equivalent.

(** ** Towers of finite fields *)
Section Towers.
Variable c : Cfg.
Local Notation ok := (ModSpec.usual_isize c).

Lemma bb_settled : field_alg_par ok eq BB BB.
Proof.
have hadd : par2 eq (fun x y => ret (xorb x y)) (fun x y => ret (xorb x y)).
  by move=> x y _ _ <- <-; exact: par_ret.
have hz : alike eq (ret false) (ret false) by exact: par_ret.
have hd : par1 eq (fun _ => ret false) (fun _ => ret false) by move=> *; exact: par_ret.
have ht n : par1 eq (fun x => ret (x && ~~ (Z.rem n 2 =? 0)%Z)) (fun x => ret (x && ~~ (Z.rem n 2 =? 0)%Z)).
  by move=> x _ <-; exact: par_ret.
have ho : alike eq (ret true) (ret true) by exact: par_ret.
have hR : ring_alg_par ok eq two_ring two_ring.
  split; [split|..]; split=> //; try by (move=> x y _ _ <- <- || move=> x _ <-); exact: par_ret.
  - by move=> [] _ <-; exact: par_ret.
  - by move=> n n0; apply: par_ntimes.
  - by move=> n okn; exact: ht.
  - by move=> n okn; apply: par_int => //; exact: ht.
apply: par_field_alg => //; split.
- by move=> [] _ <-; [exact: par_ret|exact: par_panic].
- by move=> x [] _ _ <- <-; [exact: par_ret|exact: par_panic].
- by move=> n _ x _ <-; exact: par_ret.
Qed.

Lemma tower_settled E F rep A k : @finite_field c E F rep A k -> field_alg_par ok eq A A.
Proof.
elim=> {E F rep A k}.
- exact: bb_settled.
- by move=> q hq; apply: par_quotient_field => //; exact: zz_settled.
- by move=> w q hq w4 _ _; apply: par_quotient_field => //; exact: ci_settled.
- move=> E F rep A k m modulo _ IH hm.
  apply: (field_par_iff (R := vec_par eq)); first exact: vec_par_eq.
  by apply: par_quotient_field; [exact: par_poly_eucl|exact/vec_par_eq].
Qed.

(** Each of them implements the Euclidean methods by the ones of fields. *)
Lemma tower_shape E F rep A k : @finite_field c E F rep A k ->
  exists (A' : RingAlg E) (I : Field E), A = field_alg A' I.
Proof.
by elim=> *; [exists two_ring, two_field|eexists; eexists; reflexivity..].
Qed.

Section Pair.
Variables (E1 E2 : Type) (F1 F2 : fieldType) (rep1 : E1 -> F1 -> Prop) (rep2 : E2 -> F2 -> Prop).
Variables (A1 : FieldAlg E1) (A2 : FieldAlg E2) (k1 k2 : nat).
Hypotheses (h1 : finite_field c rep1 A1 k1) (h2 : finite_field c rep2 A2 k2).
Local Notation mem1 := (fun x => exists u, rep1 x u).
Local Notation mem2 := (fun y => exists v, rep2 y v).

Lemma transported_pairs (phi : F1 -> F2) : injective phi ->
  pairs_off mem1 mem2 (transported rep1 rep2 phi).
Proof.
move=> inj; have [_ s1 i1] := finite_field_members h1; have [_ s2 i2] := finite_field_members h2.
have f1 := finite_field_fun h1; have f2 := finite_field_fun h2.
split.
- by move=> x y [u xu yu]; split; [exists u|exists (phi u)].
- by move=> x [u xu]; have [y yu] := s2 (phi u); exists y, u.
- by move=> x y y' [u xu yu] [v xv yv]; apply: (i2 _ _ (phi u)) => //; rewrite (f1 _ _ _ xu xv).
- move=> x x' y [u xu yu] [v xv yv]; apply: (i1 _ _ u) => //.
  by rewrite (inj _ _ (f2 _ _ _ yu yv)).
Qed.

Lemma any_embedding (phi : {rmorphism F1 -> F2}) :
  field_alg_par ok (transported rep1 rep2 phi) A1 A2.
Proof.
have c1 := finite_field_contract h1; have c2 := finite_field_contract h2.
have s1 := tower_settled h1; have s2 := tower_settled h2.
have [B1 [I1 e1]] := tower_shape h1; have [B2 [I2 e2]] := tower_shape h2.
by move: c1 c2 s1 s2; rewrite e1 e2; exact: same_fields.
Qed.

Lemma towers_embed j : k2 = (k1 ^ j)%N -> exists R : E1 -> E2 -> Prop,
  [/\ pairs_off mem1 mem2 R, field_alg_par ok R A1 A2 & j = 1%N -> exhausts mem2 R].
Proof.
move=> kk; have [_ [_ _ [t1 [u1 z1 m1]]]] := finite_field_ok h1.
have [_ [_ _ [t2 [u2 z2 m2]]]] := finite_field_ok h2.
have [phi _] : exists phi : {rmorphism F1 -> F2}, True.
  by apply: (embed_fields (j := j) u1 m1 u2 m2); rewrite z1 z2.
exists (transported rep1 rep2 phi); have inj : injective phi by exact: fmorph_inj.
split; [exact: transported_pairs|exact: any_embedding|move=> j1 y [v yv]].
have : v \in map phi t1.
  have um : uniq (map phi t1) by rewrite map_inj_uniq.
  have sz : (size t2 <= size (map phi t1))%N by rewrite size_map z1 z2 kk j1 expn1.
  by have [_ ->] := uniq_min_size um (fun v _ => m2 v) sz; rewrite ?m2.
case/mapP=> u _ vE; have [_ sur _] := finite_field_members h1; have [x xu] := sur u.
by exists x, u; rewrite -?vE.
Qed.
End Pair.
End Towers.
