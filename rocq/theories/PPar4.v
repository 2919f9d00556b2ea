(** * PPar4.v -- what it means to do alike, and structures that do. *)

From Coq Require Import ZArith Lia.
From mathcomp Require Import all_ssreflect.
From Verif Require Import Rust Traits MInts MConstr Wp ModSpec ParSpec PPar PPar2 PPar3.

Set Implicit Arguments.
Unset Strict Implicit.
Unset Printing Implicit Defensive.

Local Notation par := (@alike _ _).

(** ** In terms of what the calls do *)
Section Alike.
Variables (A B : Type).

Lemma alike_sym (R : A -> B -> Prop) m1 m2 : alike R m1 m2 -> alike (fun w v => R v w) m2 m1.
Proof. by case. Qed.
Lemma alike_returns (R : A -> B -> Prop) m1 m2 v : alike R m1 m2 -> returns m1 v ->
  exists2 w, returns m2 w & R v w.
Proof. by move=> [h _] [n rv]; have := h n; rewrite rv. Qed.
Lemma alike_panics (R : A -> B -> Prop) m1 m2 : alike R m1 m2 -> panics m1 -> panics m2.
Proof. by move=> [h _] [n pm]; have := h n; rewrite pm. Qed.
Lemma alike_diverges (R : A -> B -> Prop) m1 m2 : alike R m1 m2 -> diverges m1 -> diverges m2.
Proof.
move=> [_ h] d k; have := h k; case: (m2 k) => // [v [w rw _]|[n pm]].
  by case: (returns_diverges rw d).
by have := pm n (leqnn n); rewrite d.
Qed.
End Alike.

Lemma alike_calls A B (R : A -> B -> Prop) m1 m2 : alike R m1 m2 ->
  [/\ (forall v, returns m1 v -> exists2 w, returns m2 w & R v w),
      (forall w, returns m2 w -> exists2 v, returns m1 v & R v w),
      (panics m1 <-> panics m2) & (diverges m1 <-> diverges m2)].
Proof.
move=> h; have h' := alike_sym h; split.
- by move=> v; exact: alike_returns h.
- by move=> w; exact: alike_returns h'.
- by split; [exact: alike_panics h|exact: alike_panics h'].
- by split; [exact: alike_diverges h|exact: alike_diverges h'].
Qed.

(** ** Calls that are known to return *)
Section Settled.
Variables (A B : Type) (R : A -> B -> Prop).

Lemma settled_done T (m : M T) k v w : par eq m m -> returns m w -> m k = Done v -> v = w.
Proof. by move=> [h _] rw E; have := h k; rewrite E => -[u ru ->]; exact: returns_det ru rw. Qed.
Lemma settled_panicked T (m : M T) k w : par eq m m -> returns m w -> m k = Panicked -> False.
Proof. by move=> [h _] rw E; have := h k; rewrite E => pm; exact: returns_panics rw pm. Qed.
Lemma par_returns m1 m2 v w : par eq m1 m1 -> par eq m2 m2 -> returns m1 v -> returns m2 w ->
  R v w -> par R m1 m2.
Proof.
move=> s1 s2 r1 r2 Rvw; split=> k.
  case E: (m1 k) => [x||] //; first by rewrite (settled_done s1 r1 E); exists w.
  by case: (settled_panicked s1 r1 E).
case E: (m2 k) => [x||] //; first by rewrite (settled_done s2 r2 E); exists v.
by case: (settled_panicked s2 r2 E).
Qed.
Lemma par_ensures m1 m2 (P : A -> Prop) (Q : B -> Prop) : par eq m1 m1 -> par eq m2 m2 ->
  ensures False m1 P -> ensures False m2 Q -> (forall v w, P v -> Q w -> R v w) -> par R m1 m2.
Proof.
move=> s1 s2 /ensures_False[v [rv Pv]] /ensures_False[w [rw Qw]] h.
exact: par_returns s1 s2 rv rw (h _ _ Pv Qw).
Qed.
Lemma par_panics m1 m2 : par eq m1 m1 -> par eq m2 m2 -> panics m1 -> panics m2 -> par R m1 m2.
Proof.
move=> [s1 _] [s2 _] p1 p2; split=> k; [have := s1 k|have := s2 k].
  by case: (m1 k) => // v [w rw]; case: (returns_panics rw p1).
by case: (m2 k) => // v [w rw]; case: (returns_panics rw p2).
Qed.
End Settled.

(** ** Numbers do the same twice *)
Section Numbers.
Variable ok : Z -> Prop.

Local Ltac const := apply: par_const => k; rewrite /=; repeat case: ifP => // _.
Local Ltac subst_all := repeat intro; repeat match goal with H : _ = _ |- _ => subst end.

Lemma vec_par_eq T (v w : seq T) : vec_par eq v w <-> v = w.
Proof.
split=> [|<-]; last by elim: v.
by elim: v w => [|x v IH] [|y w] //= [-> /IH->].
Qed.
Lemma par_option_eq T (m : M (option T)) : par eq m m -> par (option_par eq) m m.
Proof. by move=> h; apply: par_mono h _ => v _ <-; case: v. Qed.
Lemma par_pair_eq T (m : M (T * T)) : par eq m m -> par (pair_par eq) m m.
Proof. by move=> h; apply: par_mono h _ => v _ <-. Qed.
Lemma par_divisible_eq T (f : T -> T -> M bool) : (forall x y, par eq (f x y) (f x y)) ->
  par2b eq f f.
Proof. by move=> h x y _ _ <- <-. Qed.

Lemma eucl_par_eq T z o ze i m s (q : T -> T -> M (T * T)) :
  par1b eq z z -> par eq o o -> par eq ze ze -> par1b eq i i -> par2 eq m m -> par2 eq s s ->
  par2p eq q q -> forall red, par2b eq red red ->
  let quo := default_quo q in let rem := default_rem q in
  let gcd := default_gcd z rem in
  eucl_par eq (mkEuclideanDomain q quo rem red gcd (default_lcm z m quo gcd)
      (default_extended_gcd z o ze m s q) (default_relative_primes i gcd))
    (mkEuclideanDomain q quo rem red gcd (default_lcm z m quo gcd)
      (default_extended_gcd z o ze m s q) (default_relative_primes i gcd)).
Proof.
move=> hz ho hze hi hm hs hq red hr quo rem gcd.
have hquo := par_quo hq; have hrem := par_rem hq; have hg := par_gcd hz hrem.
split=> //.
- exact: (par_lcm hz hm hquo hg).
- exact: (par_extended_gcd hz ho hze hm hs hq).
- exact: (par_relative_primes hi hg).
Qed.

Lemma zz_settled : eucl_alg_par ok eq ZZ ZZ.
Proof.
have hz : par1b eq (is_zero ZZ) (is_zero ZZ) by subst_all; const.
have hd : par2b eq (divisible ZZ) (divisible ZZ).
  by subst_all; apply: par_const => k; rewrite /= /integers_divisible; case: ifP.
split; last first.
  apply: eucl_par_eq => //; try by subst_all; const.
    move=> x y _ _ <- <-; apply: par_pair_eq; apply: par_bind (par_assert _) _ => _ _ _.
    by const.
  by move=> x y _ _ <- <-; rewrite /integers_reduced; const.
split; last first.
  split=> //.
  - move=> x y _ _ <- <-; apply: par_option_eq; apply: par_bind (par_assert _) _ => _ _ _.
    by const.
  - exact: par_associates hd.
  - by move=> x _ <-; rewrite /= /integers_associate_repr; const.
  - by move=> x _ <-; apply: par_bind (par_assert _) _ => _ _ _; const.
split.
- split; [by split; subst_all; const|by split; subst_all; const|].
  split; try by subst_all; const.
  move=> x _ <-; apply: par_option_eq; rewrite /= /integers_try_inv.
  by apply: par_bind (par_ret (erefl _)) _ => b _ <-; const.
- by split; subst_all; const.
- by split; subst_all; const.
- by split; subst_all; const.
Qed.

Section Checked.
Variables (c : Cfg) (w : Z).
Local Notation A := (CheckedInts c w).

Lemma unwrap_settled T (o : option T) : par eq (unwrap o) (unwrap o).
Proof. by apply: par_const; case: o. Qed.
Local Ltac steps := repeat first
  [ apply: par_bind (par_assert _) _ => _ _ _
  | apply: par_bind (unwrap_settled _) _ => ? _ <-
  | apply: par_bind (par_prim _ _ _) _ => ? _ <-
  | exact: unwrap_settled | exact: par_prim
  | exact: par_ret
  | apply: par_if => _ ].

Lemma ci_settled : eucl_alg_par ok eq A A.
Proof.
have hadd : par2 eq (add A) (add A) by subst_all; rewrite /= /checked_ints_add; steps.
have hmul : par2 eq (mul A) (mul A) by subst_all; rewrite /= /checked_ints_mul; steps.
have hneg : par1 eq (neg A) (neg A) by subst_all; rewrite /= /checked_ints_neg; steps.
have hsub : par2 eq (sub A) (sub A) by subst_all; rewrite /=; steps.
have hz : par1b eq (is_zero A) (is_zero A) by subst_all; const.
have htd : par2o eq (try_div A) (try_div A).
  by move=> x y _ _ <- <-; apply: par_option_eq; rewrite /= /checked_ints_try_div; steps.
have hd : par2b eq (divisible A) (divisible A) := par_divisible hz htd.
have hzt n : par1 eq (ztimes A n) (ztimes A n).
  by subst_all; rewrite /= /checked_ints_ztimes; steps.
split; last first.
  apply: eucl_par_eq => //; try by subst_all; const.
    by move=> x y _ _ <- <-; apply: par_pair_eq; rewrite /checked_ints_quo_rem; steps.
  by move=> x y _ _ <- <-; rewrite /checked_ints_reduced; steps.
split; last first.
  split=> //.
  - exact: par_associates hd.
  - by move=> x _ <-; rewrite /= /checked_ints_associate_repr; apply: par_if => _; steps; exact: hneg.
  - by move=> x _ <-; rewrite /= /checked_ints_associate_coef; steps.
split.
- split; [by split; subst_all; const| |].
    by split=> //; subst_all; exact: hmul.
  split; try by subst_all; const.
  move=> x _ <-; apply: par_option_eq; rewrite /= /checked_ints_try_inv.
  by apply: par_bind (par_ret (erefl _)) _ => b _ <-; const.
- split=> //; try by subst_all; const.
    by subst_all; exact: hadd.
  move=> n _; apply: par_ntimes => //; first by const.
  by subst_all; exact: hadd.
- by split=> //; apply: par_sub_assign.
- split=> n _ ; apply: par_int; last by const.
  exact: hzt.
Qed.
End Checked.
End Numbers.

(** ** Residues *)
Local Arguments rr_contains {cfg p k A} _ {x} _.
Local Arguments rr_is_zero {cfg p k A} _ {x} _.
Local Arguments rr_is_one {cfg p k A} _ {x} _.
Local Arguments rr_double {cfg p k A} _ {x} _.
Local Arguments rr_neg {cfg p k A} _ {x} _.
Local Arguments rr_neg_assign {cfg p k A} _ {x} _.
Local Arguments rr_square {cfg p k A} _ {x} _.
Local Arguments rr_try_inv {cfg p k A} _ {x} _.
Local Arguments rr_invertible {cfg p k A} _ {x} _.
Local Arguments rr_equals {cfg p k A} _ {x y} _ _.
Local Arguments rr_add {cfg p k A} _ {x y} _ _.
Local Arguments rr_add_assign {cfg p k A} _ {x y} _ _.
Local Arguments rr_sub {cfg p k A} _ {x y} _ _.
Local Arguments rr_sub_assign {cfg p k A} _ {x y} _ _.
Local Arguments rr_mul {cfg p k A} _ {x y} _ _.
Local Arguments rr_mul_assign {cfg p k A} _ {x y} _ _.
Local Arguments rr_zero {cfg p k A} _.
Local Arguments rr_one {cfg p k A} _.
Local Arguments rr_ntimes {cfg p k A} _ {n x} _ _.
Local Arguments rr_ztimes {cfg p k A} _ {n x} _ _.
Local Arguments rr_int {cfg p k A} _ {n} _.
Local Arguments rf_ring {cfg p k A} _.
Local Arguments rf_inv {cfg p k A} _ {x} _ _.
Local Arguments rf_inv_zero {cfg p k A} _.
Local Arguments rf_power {cfg p k A} _ {n x} _ _ _ _.
Local Arguments rf_power_neg {cfg p k A} _ {n x} _ _ _ _.
Local Arguments rf_div {cfg p k A} _ {x y} _ _ _.
Local Arguments rf_div_zero {cfg p k A} _ {x} _.
Section Residues.
Variables (c : Cfg) (k : Z) (k2 : Z.le 2 k).
Local Notation ok := (usual_isize c).
Local Notation R := (same_residue k).

Let modk x : residue_z k (Z.modulo x k).
Proof. by apply: Z.mod_pos_bound; lia. Qed.
Let Rmod x v w : v = Z.modulo x k -> w = Z.modulo x k -> R v w.
Proof. by move=> -> ->; split. Qed.

Lemma inverse_unique x y z : residue_z k y -> residue_z k z ->
  Z.modulo (x * y) k = 1%Z -> Z.modulo (x * z) k = 1%Z -> y = z.
Proof.
move=> hy hz xy xz; rewrite -(Z.mod_small y k) // -(Z.mod_small z k) //.
have -> : Z.modulo y k = Z.modulo (y * (x * z)) k.
  by rewrite Z.mul_mod ?xz ?Z.mul_1_r ?Z.mod_mod //; lia.
have -> : Z.modulo z k = Z.modulo (z * (x * y)) k.
  by rewrite Z.mul_mod ?xy ?Z.mul_1_r ?Z.mod_mod //; lia.
by congr Z.modulo; ring.
Qed.

Lemma residue_rings (A1 A2 : RingAlg Z) :
  residue_ring c False k A1 -> residue_ring c False k A2 ->
  ring_alg_par ok eq A1 A1 -> ring_alg_par ok eq A2 A2 -> ring_alg_par ok R A1 A2.
Proof.
move=> h1 h2 s1 s2; have [[D1 S1 O1] C1 G1 U1] := s1; have [[D2 S2 O2] C2 G2 U2] := s2.
split.
- split.
  + split.
      move=> x _ [<- hx]; apply: (par_ensures _ _ (rr_contains h1 hx) (rr_contains h2 hx)).
      - exact: contains_par D1 _ _ erefl. - exact: contains_par D2 _ _ erefl.
      by move=> v w -> ->.
    move=> x y _ _ [<- hx] [<- hy].
    apply: (par_ensures _ _ (rr_equals h1 hx hy) (rr_equals h2 hx hy)).
    - exact: equals_par D1 _ _ _ _ erefl erefl. - exact: equals_par D2 _ _ _ _ erefl erefl.
    by move=> v w -> ->.
  + split.
    * move=> x y _ _ [<- hx] [<- hy].
      apply: (par_ensures _ _ (rr_mul h1 hx hy) (rr_mul h2 hx hy)).
      - exact: mul_par S1 _ _ _ _ erefl erefl. - exact: mul_par S2 _ _ _ _ erefl erefl.
      by move=> v w; exact: Rmod.
    * move=> x y _ _ [<- hx] [<- hy].
      apply: (par_ensures _ _ (rr_mul_assign h1 hx hy) (rr_mul_assign h2 hx hy)).
      - exact: mul_assign_par S1 _ _ _ _ erefl erefl. - exact: mul_assign_par S2 _ _ _ _ erefl erefl.
      by move=> v w; exact: Rmod.
    * move=> x _ [<- hx]; apply: (par_ensures _ _ (rr_square h1 hx) (rr_square h2 hx)).
      - exact: square_par S1 _ _ erefl. - exact: square_par S2 _ _ erefl.
      by move=> v w; exact: Rmod.
  + split.
    * apply: (par_ensures _ _ (rr_one h1) (rr_one h2)).
      - exact: one_par O1. - exact: one_par O2.
      by move=> v w -> ->; split=> //; split; lia.
    * move=> x _ [<- hx]; apply: (par_ensures _ _ (rr_is_one h1 hx) (rr_is_one h2 hx)).
      - exact: is_one_par O1 _ _ erefl. - exact: is_one_par O2 _ _ erefl.
      by move=> v w -> ->.
    * move=> x _ [<- hx]; apply: (par_ensures _ _ (rr_try_inv h1 hx) (rr_try_inv h2 hx)).
      - by apply: par_mono (try_inv_par O1 (erefl x)) _ => -[v|] [w|] //= ->.
      - by apply: par_mono (try_inv_par O2 (erefl x)) _ => -[v|] [w|] //= ->.
      case=> [v|] [w|] //=.
      + by move=> [hv e] [hw e']; split=> //; exact: inverse_unique hv hw e e'.
      + by move=> [_ e] /(_ v).
      + by move=> /(_ w) h [_ e].
    * move=> x _ [<- hx]; apply: (par_ensures _ _ (rr_invertible h1 hx) (rr_invertible h2 hx)).
      - exact: invertible_par O1 _ _ erefl. - exact: invertible_par O2 _ _ erefl.
      by move=> v w e e'; apply/idP/idP => h; [apply/e'/e|apply/e/e'].
- split.
  + apply: (par_ensures _ _ (rr_zero h1) (rr_zero h2)).
    - exact: zero_par C1. - exact: zero_par C2.
    by move=> v w -> ->; split=> //; split; lia.
  + move=> x _ [<- hx]; apply: (par_ensures _ _ (rr_is_zero h1 hx) (rr_is_zero h2 hx)).
    - exact: is_zero_par C1 _ _ erefl. - exact: is_zero_par C2 _ _ erefl.
    by move=> v w -> ->.
  + move=> x y _ _ [<- hx] [<- hy].
    apply: (par_ensures _ _ (rr_add h1 hx hy) (rr_add h2 hx hy)).
    - exact: add_par C1 _ _ _ _ erefl erefl. - exact: add_par C2 _ _ _ _ erefl erefl.
    by move=> v w; exact: Rmod.
  + move=> x y _ _ [<- hx] [<- hy].
    apply: (par_ensures _ _ (rr_add_assign h1 hx hy) (rr_add_assign h2 hx hy)).
    - exact: add_assign_par C1 _ _ _ _ erefl erefl. - exact: add_assign_par C2 _ _ _ _ erefl erefl.
    by move=> v w; exact: Rmod.
  + move=> x _ [<- hx]; apply: (par_ensures _ _ (rr_double h1 hx) (rr_double h2 hx)).
    - exact: double_par C1 _ _ erefl. - exact: double_par C2 _ _ erefl.
    by move=> v w; exact: Rmod.
  + move=> n n0 x _ [<- hx]; apply: (par_ensures _ _ (rr_ntimes h1 n0 hx) (rr_ntimes h2 n0 hx)).
    - exact: ntimes_par C1 _ n0 _ _ erefl. - exact: ntimes_par C2 _ n0 _ _ erefl.
    by move=> v w; exact: Rmod.
- split.
  + move=> x _ [<- hx]; apply: (par_ensures _ _ (rr_neg h1 hx) (rr_neg h2 hx)).
    - exact: neg_par G1 _ _ erefl. - exact: neg_par G2 _ _ erefl.
    by move=> v w; exact: Rmod.
  + move=> x _ [<- hx]; apply: (par_ensures _ _ (rr_neg_assign h1 hx) (rr_neg_assign h2 hx)).
    - exact: neg_assign_par G1 _ _ erefl. - exact: neg_assign_par G2 _ _ erefl.
    by move=> v w; exact: Rmod.
  + move=> x y _ _ [<- hx] [<- hy].
    apply: (par_ensures _ _ (rr_sub h1 hx hy) (rr_sub h2 hx hy)).
    - exact: sub_par G1 _ _ _ _ erefl erefl. - exact: sub_par G2 _ _ _ _ erefl erefl.
    by move=> v w; exact: Rmod.
  + move=> x y _ _ [<- hx] [<- hy].
    apply: (par_ensures _ _ (rr_sub_assign h1 hx hy) (rr_sub_assign h2 hx hy)).
    - exact: sub_assign_par G1 _ _ _ _ erefl erefl. - exact: sub_assign_par G2 _ _ _ _ erefl erefl.
    by move=> v w; exact: Rmod.
  + move=> n okn x _ [<- hx]; apply: (par_ensures _ _ (rr_ztimes h1 okn hx) (rr_ztimes h2 okn hx)).
    - exact: ztimes_par G1 _ okn _ _ erefl. - exact: ztimes_par G2 _ okn _ _ erefl.
    by move=> v w; exact: Rmod.
- split=> n okn; apply: (par_ensures _ _ (rr_int h1 okn) (rr_int h2 okn)).
  - exact: int_par U1 _ okn. - exact: int_par U2 _ okn.
  by move=> v w; exact: Rmod.
Qed.

Variables (B1 B2 : EuclAlg Z) (m1 m2 : Z).
Hypotheses (s1 : eucl_alg_par ok eq B1 B1) (s2 : eucl_alg_par ok eq B2 B2).

Lemma quotient_rings :
  residue_ring c False k (QuotientRing c B1 m1) -> residue_ring c False k (QuotientRing c B2 m2) ->
  ring_alg_par ok R (QuotientRing c B1 m1) (QuotientRing c B2 m2).
Proof.
move=> h1 h2; apply: residue_rings => //.
  exact: (par_quotient_ring c s1 (erefl m1)).
exact: (par_quotient_ring c s2 (erefl m2)).
Qed.

Lemma quotient_fields :
  residue_field c False k (QuotientField c B1 m1) ->
  residue_field c False k (QuotientField c B2 m2) ->
  field_alg_par ok R (QuotientField c B1 m1) (QuotientField c B2 m2).
Proof.
move=> h1 h2.
have f1 := par_quotient_field c s1 (erefl m1); have f2 := par_quotient_field c s2 (erefl m2).
have hR : ring_alg_par ok R (quotient_field_ring c B1 m1) (quotient_field_ring c B2 m2).
  by apply: residue_rings (rf_ring h1) (rf_ring h2) _ _; [exact: f1|exact: f2].
have hI : par1 R (finv (QuotientField c B1 m1)) (finv (QuotientField c B2 m2)).
  move=> x _ [<- hx]; have i1 := finv_par f1 (erefl x); have i2 := finv_par f2 (erefl x).
  case: (Z.eq_dec x 0) => [x0|x0].
    by apply: par_panics => //; rewrite x0; [exact: rf_inv_zero h1|exact: rf_inv_zero h2].
  apply: (par_ensures i1 i2 (rf_inv h1 hx x0) (rf_inv h2 hx x0)) => v w [hv e] [hw e'].
  by split=> //; exact: inverse_unique hv hw e e'.
apply: par_field_alg => //; split=> //.
  by apply: par_fdiv; [exact: mul_par hR|exact: hI].
move=> n okn; apply: par_fpower (okn) => //.
- exact: hR.
- exact: is_zero_par hR.
- exact: zero_par hR.
Qed.
End Residues.

(** ** Bits and residues modulo 2 *)
Section Bits.
Variables (c : Cfg) (B : EuclAlg Z) (m : Z).
Local Notation ok := (usual_isize c).
Local Notation R := bit_residue.
Local Notation Q := (QuotientField c B m).
Hypotheses (s : eucl_alg_par ok eq B B) (hQ : residue_field c False 2 Q).

Lemma par_ensures1 T1 T2 (S : T1 -> T2 -> Prop) (v : T1) (m2 : M T2) (P : T2 -> Prop) :
  par eq m2 m2 -> ensures False m2 P -> (forall w, P w -> S v w) -> par S (ret v) m2.
Proof.
move=> s2 h hP; apply: (par_ensures (P := eq v)) s2 _ h _ => //; first exact: par_ret.
  exact: ensures_ret.
by move=> _ w <-; exact: hP.
Qed.
Let bit b : residue_z 2 (Z.b2z b).
Proof. by case: b. Qed.
Let bit_cases w : residue_z 2 w -> w = 0%Z \/ w = 1%Z.
Proof. by rewrite /residue_z; lia. Qed.
Let f := par_quotient_field c s (erefl m).

Lemma bits_ring : ring_alg_par ok R two_ring Q.
Proof.
have h := rf_ring hQ; have [[D S O] C G U] : ring_alg_par ok eq Q Q := f.
have hz : par R (ret false) (zero Q).
  by apply: (par_ensures1 _ (rr_zero h)); [exact: zero_par C|move=> w ->].
have ho : par R (ret true) (one Q).
  by apply: (par_ensures1 _ (rr_one h)); [exact: one_par O|move=> w ->].
have hadd : par2 R (fun x y => ret (xorb x y)) (add_assign Q).
  move=> x y _ _ -> ->; apply: (par_ensures1 _ (rr_add_assign h (bit x) (bit y))).
    exact: add_assign_par C _ _ _ _ erefl erefl.
  by move=> w ->; case: x y => [] [].
have hd : par1 R (fun _ => ret false) (double Q).
  move=> x _ ->; apply: (par_ensures1 _ (rr_double h (bit x))).
    exact: double_par C _ _ erefl.
  by move=> w ->; case: x.
have ht n : ok n -> par1 R (fun x => ret (x && ~~ (Z.rem n 2 =? 0)%Z)) (ztimes Q n).
  move=> okn x _ ->; apply: (par_ensures1 _ (rr_ztimes h okn (bit x))).
    exact: ztimes_par G _ okn _ _ erefl.
  move=> w ->; rewrite /R; case: x; last by rewrite Z.mul_0_r.
  rewrite Z.mul_1_r Zmod_odd; have -> : (Z.rem n 2 =? 0)%Z = ~~ Z.odd n.
    rewrite -Z.negb_even negbK; apply/idP/idP => [/Z.eqb_eq /Z.rem_divide[]|].
    - by lia.
    - by move=> a ->; rewrite Z.even_mul orbT.
    by move=> /Z.even_spec[a ->]; apply/Z.eqb_eq; rewrite Z.mul_comm Z.rem_mul.
  by case: (Z.odd n).
split.
- split.
  + split.
      move=> x _ ->; apply: (par_ensures1 _ (rr_contains h (bit x))).
        exact: contains_par D _ _ erefl.
      by move=> w ->.
    move=> x y _ _ -> ->; apply: (par_ensures1 _ (rr_equals h (bit x) (bit y))).
      exact: equals_par D _ _ _ _ erefl erefl.
    by move=> w ->; case: x y => [] [].
  + split.
    * move=> x y _ _ -> ->; apply: (par_ensures1 _ (rr_mul h (bit x) (bit y))).
        exact: mul_par S _ _ _ _ erefl erefl.
      by move=> w ->; case: x y => [] [].
    * move=> x y _ _ -> ->; apply: (par_ensures1 _ (rr_mul_assign h (bit x) (bit y))).
        exact: mul_assign_par S _ _ _ _ erefl erefl.
      by move=> w ->; case: x y => [] [].
    * move=> x _ ->; apply: (par_ensures1 _ (rr_square h (bit x))).
        exact: square_par S _ _ erefl.
      by move=> w ->; case: x.
  + split=> //.
    * move=> x _ ->; apply: (par_ensures1 _ (rr_is_one h (bit x))).
        exact: is_one_par O _ _ erefl.
      by move=> w ->; case: x.
    * have e (x : bool) : (if x then ret (Some true) else ret None) = ret (if x then Some true else None).
        by case: x.
      move=> x _ ->; rewrite [try_inv _ x]e.
      apply: (par_ensures1 _ (rr_try_inv h (bit x))).
        by apply: par_mono (try_inv_par O (erefl (Z.b2z x))) _ => -[v|] [w|] //= ->.
      case: x => [] [w|] //=; first by move=> [hw]; case/bit_cases: hw => ->.
      + by move=> /(_ 1%Z).
      + by move=> [_].
    * move=> x _ ->; apply: (par_ensures1 _ (rr_invertible h (bit x))).
        exact: invertible_par O _ _ erefl.
      by move=> w /= e; apply/idP/idP; case: x e => /= e // t; by [apply/e|case/e: t].
- split=> //.
  + move=> x _ ->; apply: (par_ensures1 _ (rr_is_zero h (bit x))).
      exact: is_zero_par C _ _ erefl.
    by move=> w ->; case: x.
  + by move=> n n0; apply: par_ntimes.
- split=> //.
  + move=> x _ ->; apply: (par_ensures1 _ (rr_neg h (bit x))).
      exact: neg_par G _ _ erefl.
    by move=> w ->; case: x.
  + move=> x _ ->; apply: (par_ensures1 _ (rr_neg_assign h (bit x))).
      exact: neg_assign_par G _ _ erefl.
    by move=> w ->; case: x.
  + move=> x y _ _ -> ->; apply: (par_ensures1 _ (rr_sub h (bit x) (bit y))).
      exact: sub_par G _ _ _ _ erefl erefl.
    by move=> w ->; case: x y => [] [].
  + move=> x y _ _ -> ->; apply: (par_ensures1 _ (rr_sub_assign h (bit x) (bit y))).
      exact: sub_assign_par G _ _ _ _ erefl erefl.
    by move=> w ->; case: x y => [] [].
- by split=> n okn; apply: par_int => //; exact: ht.
Qed.

Lemma bits_field : field_alg_par ok R BB Q.
Proof.
have h := rf_ring hQ; have hR := bits_ring; have [_ F] := f.
apply: par_field_alg => //; split.
- move=> [] _ ->.
    apply: (par_ensures1 (v := true) _ (rf_inv hQ (bit true) _)) => //.
      exact: finv_par F _ _ erefl.
    by move=> w [hw]; case/bit_cases: hw => ->.
  apply: par_panics; last exact: rf_inv_zero hQ.
  - by apply: par_const.
  - exact: finv_par F _ _ erefl.
  - by exists 0.
- move=> x [] _ _ -> ->.
    apply: (par_ensures1 (v := x) _ (rf_div hQ (bit x) (bit true) _)) => //.
      exact: fdiv_par F _ _ _ _ erefl erefl.
    move=> w [hw /=]; rewrite Z.mul_1_r Z.mod_small // => ->; by [].
  apply: par_panics; last exact: (rf_div_zero hQ (bit x)).
  - by apply: par_const.
  - exact: fdiv_par F _ _ _ _ erefl erefl.
  - by exists 0.
- move=> n okn [] _ ->.
    have sp := fpower_par F okn (erefl (Z.b2z true)).
    case: (Z_lt_le_dec n 0) => n0.
      apply: (par_ensures1 (v := true) sp (rf_power_neg hQ n0 okn (bit true) _)) => //.
      move=> w [hw] /=; rewrite Z.pow_1_l; last by lia.
      by rewrite Z.mul_1_r Z.mod_small // => ->.
    apply: (par_ensures1 (v := true) sp (rf_power hQ n0 okn (bit true) _)) => //.
    by move=> w -> /=; rewrite Z.pow_1_l.
  apply: (@par_bind _ _ _ _ (fun a b : bool => b) _ (ret true) _ (fun _ => ret false)).
    apply: (par_ensures1 _ (rr_is_zero h (bit false))) => [|w ->] //.
    exact: is_zero_par (ri_cmonoid_par f) _ _ erefl.
  by move=> a [] // _; exact: zero_par (ri_cmonoid_par hR).
Qed.
End Bits.
