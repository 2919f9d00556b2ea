(** * PMinor.v -- the entries met in an elimination are quotients of minors. *)

From Coq Require Import ZArith Lia.
From mathcomp Require Import all_ssreflect all_fingroup all_algebra zify.
From Verif Require Import RingTac MatFacts FitSpec.

Set Implicit Arguments.
Unset Strict Implicit.
Unset Printing Implicit Defensive.

Import GRing.Theory.
Local Open Scope ring_scope.

Section Sub.
Variables (R : comRingType) (n : nat) (C : Type).
Implicit Types (X T : 'I_n -> C -> R).

Definition fadd (i j : 'I_n) (e : R) X : 'I_n -> C -> R :=
  fun a b => if a == j then X j b + X i b * e else X a b.
Definition fscale (i : 'I_n) (e : R) X : 'I_n -> C -> R :=
  fun a b => if a == i then X i b * e else X a b.
Definition fperm (s : 'S_n) X : 'I_n -> C -> R := fun a b => X (s a) b.
End Sub.

Section Prp.
Variables (F : fieldType) (n : nat) (C : Type).
Implicit Types (X T : 'I_n -> C -> F).

(** The minors of [X] containing the first [k] rows are those of [T] over [c]. *)
Definition prop (k : nat) (c : F) X T : Prop :=
  forall m (f : 'I_m -> 'I_n) (g : 'I_m -> C), injective f ->
    (forall i : 'I_n, (i < k)%N -> exists a, f a = i) ->
    c * \det (sub f g X) = \det (sub f g T).

Lemma prop_ext k c X X' T T' : (forall a b, X a b = X' a b) -> (forall a b, T a b = T' a b) ->
  prop k c X T -> prop k c X' T'.
Proof.
move=> eX eT h m f g hf hk; have -> : sub f g X' = sub f g X by apply/matrixP => a b; rewrite !mxE.
by have -> : sub f g T' = sub f g T; [apply/matrixP => a b; rewrite !mxE|exact: h].
Qed.

Lemma prop_refl X : prop 0 1 X X.
Proof. by move=> m f g _ _; rewrite mul1r. Qed.

Lemma prop_mono k k' c X T : (k <= k')%N -> prop k c X T -> prop k' c X T.
Proof. by move=> kk h m f g hf hk; apply: h => // i ik; apply: hk; exact: leq_trans kk. Qed.

Lemma prop_add k c X T (i j : 'I_n) e : (i < k)%N -> i != j -> prop k c X T ->
  prop k c (fadd i j e X) T.
Proof.
move=> ik ij h m f g hf hk; rewrite -(h m f g hf hk); congr (_ * _).
have [a fa] := hk i ik.
case: (pickP (fun b => f b == j)) => [b /eqP fb|no].
  rewrite -(@det_radd _ _ a b e (sub f g X)); last first.
    by apply: contraNneq ij => ab; rewrite -fa -fb ab.
  congr (\det _); apply/matrixP => x y; rewrite !mxE /fadd -fb (inj_eq hf).
  by case: eqP => // _; rewrite fa.
by congr (\det _); apply/matrixP => x y; rewrite !mxE /fadd no.
Qed.

Lemma prop_scale k c X T (i : 'I_n) e : (i < k)%N -> e != 0 -> prop k c X T ->
  prop k (c / e) (fscale i e X) T.
Proof.
move=> ik e0 h m f g hf hk; rewrite -(h m f g hf hk).
have [a fa] := hk i ik.
have -> : sub f g (fscale i e X) = rscale a e (sub f g X).
  apply/matrixP => x y; rewrite !mxE /fscale -fa (inj_eq hf).
  by case: eqP => // ->.
by rewrite det_rscale mulrA divfK.
Qed.

Lemma prop_perm k c X T (s : 'S_n) : (forall i : 'I_n, (i < k)%N -> s i = i) ->
  prop k c X T -> prop k c (fperm s X) (fperm s T).
Proof.
move=> hs h m f g hf hk.
have e Y : sub f g (fperm s Y) = sub (s \o f) g Y by apply/matrixP => x y; rewrite !mxE.
rewrite !e; apply: h; first by apply: inj_comp => //; exact: perm_inj.
by move=> i ik; have [a fa] := hk i ik; exists a; rewrite /= fa hs.
Qed.

Variable col : 'I_n -> C.

(** The first [k] columns are upper unitriangular. *)
Definition funi k X : Prop :=
  (forall a b : 'I_n, (b < k)%N -> (b < a)%N -> X a (col b) = 0) /\
  (forall a : 'I_n, (a < k)%N -> X a (col a) = 1).

Definition w k (kn : (k <= n)%N) : 'I_k -> 'I_n := widen_ord kn.
Lemma w_inj k (kn : (k <= n)%N) : injective (w kn).
Proof. by move=> a b /(congr1 val) /= h; apply: val_inj. Qed.
Lemma w_onto k (kn : (k <= n)%N) (i : 'I_n) : (i < k)%N -> exists a, w kn a = i.
Proof. by move=> ik; exists (Ordinal ik); apply: val_inj. Qed.

Lemma prop_lead k (kn : (k <= n)%N) c X T : funi k X -> prop k c X T ->
  c = \det (sub (w kn) (col \o w kn) T).
Proof.
move=> [h1 h2] h; rewrite -(h _ _ _ (@w_inj _ kn) (w_onto kn)).
rewrite det_unitri ?mulr1 //.
  by move=> a b bk ba; rewrite mxE /=; apply: h1 => //=; exact: ltn_ord.
by move=> a; rewrite mxE /=; apply: h2 => /=; exact: ltn_ord.
Qed.

(** rows 0, ..., k-1, a *)
Definition brow k (kn : (k <= n)%N) (a : 'I_n) (x : 'I_k.+1) : 'I_n :=
  if unlift ord_max x is Some y then w kn y else a.
Definition bcol k (kn : (k <= n)%N) (z : C) (x : 'I_k.+1) : C :=
  if unlift ord_max x is Some y then col (w kn y) else z.

Lemma prop_below k (kn : (k <= n)%N) c X T (a : 'I_n) z : funi k X -> prop k c X T -> (k <= a)%N ->
  c * X a z = \det (sub (brow kn a) (bcol kn z) T).
Proof.
move=> [h1 h2] h ka; rewrite -h; first last.
- by move=> i ik; exists (lift ord_max (Ordinal ik)); rewrite /brow liftK; apply: val_inj.
- move=> x y; rewrite /brow; case: unliftP => [x' ->|->]; case: unliftP => [y' ->|->] //.
  + by move=> /w_inj ->.
  + by move=> e; have := ltn_ord x'; have /= := congr1 val e; lia.
  + by move=> e; have := ltn_ord y'; have /= := congr1 val e; lia.
congr (_ * _); rewrite -det_tr det_trig.
  rewrite big_ord_recr /= big1 ?mul1r; last first.
    move=> i _; rewrite !mxE /brow /bcol (_ : widen_ord _ i = lift ord_max i) ?liftK.
      by apply: h2 => /=; exact: ltn_ord.
    by apply: val_inj; rewrite [RHS]lift_max.
  by rewrite !mxE /brow /bcol unlift_none.
apply/is_trig_mxP => i j ij; rewrite !mxE /brow /bcol.
case: (unliftP ord_max j) => [j' ej|ej]; case: (unliftP ord_max i) => [i' ei|ei] //.
- by apply: h1 => /=; [exact: ltn_ord|move: ij; rewrite ei ej !lift_max].
- by move: ij; rewrite ei ej lift_max /= => h0; have := ltn_ord j'; rewrite ltnNge (ltnW h0).
- by apply: h1 => /=; [exact: ltn_ord|exact: leq_trans ka].
- by move: ij; rewrite ei ej ltnn.
Qed.

(** The first [k] columns are those of the identity. *)
Definition fidc k X : Prop := forall a b : 'I_n, (b < k)%N -> X a (col b) = (a == b)%:R.
Lemma fidc_uni k X : fidc k X -> funi k X.
Proof.
move=> h; split=> [a b bk ba|a ak]; rewrite h ?eqxx //.
by rewrite (_ : (a == b) = false) //; apply/eqP => e; rewrite e ltnn in ba.
Qed.

(** column [a] is replaced by [z] *)
Definition rcol k (kn : (k <= n)%N) (a : 'I_n) (z : C) (x : 'I_k) : C :=
  if w kn x == a then z else col (w kn x).

Lemma prop_above k (kn : (k <= n)%N) c X T (a : 'I_n) z : fidc k X -> prop k c X T -> (a < k)%N ->
  c * X a z = \det (sub (w kn) (rcol kn a z) T).
Proof.
move=> h1 h ak; rewrite -(h _ _ _ (@w_inj _ kn) (w_onto kn)); congr (_ * _).
set a' : 'I_k := Ordinal ak; have wa : w kn a' = a by exact: val_inj.
rewrite (expand_det_row _ a') (bigD1 a') //= big1 ?addr0; last first.
  move=> b ba; rewrite mxE wa /rcol -wa (inj_eq (@w_inj _ kn)) (negbTE ba).
  rewrite h1 ?(inj_eq (@w_inj _ kn)); last by rewrite /= ltn_ord.
  by rewrite eq_sym (negbTE ba) mul0r.
rewrite mxE /rcol wa eqxx /cofactor addnn -signr_odd odd_double expr0 mul1r.
rewrite (_ : row' _ _ = 1%:M) ?det1 ?mulr1 //.
apply/matrixP => x y; rewrite !mxE /rcol -wa (inj_eq (@w_inj _ kn)).
rewrite (_ : (lift a' y == a') = false); last by rewrite eq_sym (negbTE (neq_lift _ _)).
rewrite h1; last exact: (ltn_ord (lift a' y)).
by rewrite (inj_eq (@w_inj _ kn)) (inj_eq (@lift_inj _ _)).
Qed.

(** ** Quotients of minors *)
Definition ratio (T : 'I_n -> C -> F) (q : F) : Prop :=
  exists m (f : 'I_m -> 'I_n) (g : 'I_m -> C) m' (f' : 'I_m' -> 'I_n) (g' : 'I_m' -> C),
    [/\ q = \det (sub f g T) / \det (sub f' g' T), \det (sub f' g' T) != 0,
        injective f & injective f'].

Lemma ratio_perm T s q : ratio (fperm s T) q -> ratio T q.
Proof.
move=> [m [f [g [m' [f' [g' [-> h h1 h2]]]]]]].
have e x (p : 'I_x -> 'I_n) r Y : sub p r (fperm s Y) = sub (s \o p) r Y.
  by apply/matrixP => u v; rewrite !mxE.
rewrite !e in h *; exists m, (s \o f), g, m', (s \o f'), g'; split=> //.
  by apply: inj_comp => //; exact: perm_inj.
by apply: inj_comp => //; exact: perm_inj.
Qed.

Lemma ratio_lead k c X T : (k <= n)%N -> funi k X -> prop k c X T -> ratio T c.
Proof.
move=> kn h1 h; exists k, (w kn), (col \o w kn), 0%N, (fun x => w (leq0n n) x), (fun x => col (w (leq0n n) x)).
have -> : \det (sub (fun x => w (leq0n n) x) (fun x => col (w (leq0n n) x)) T) = 1.
  by rewrite det_mx00.
rewrite divr1 oner_neq0 (prop_lead kn h1 h); split=> //; exact: w_inj.
Qed.
Lemma ratio_below k c X T (a : 'I_n) z : (k <= n)%N -> c != 0 -> funi k X -> prop k c X T ->
  (k <= a)%N -> ratio T (X a z).
Proof.
move=> kn c0 h1 h ka; exists k.+1, (brow kn a), (bcol kn z), k, (w kn), (col \o w kn).
rewrite -(prop_lead kn h1 h) -(prop_below kn z h1 h ka) mulrC mulKf //; split=> //; last exact: w_inj.
move=> x y; rewrite /brow; case: unliftP => [x' ->|->]; case: unliftP => [y' ->|->] //.
+ by move=> /w_inj ->.
+ by move=> e; have := ltn_ord x'; have /= := congr1 val e; lia.
+ by move=> e; have := ltn_ord y'; have /= := congr1 val e; lia.
Qed.
Lemma brow_inj k (kn : (k <= n)%N) (a : 'I_n) : (k <= a)%N -> injective (brow kn a).
Proof.
move=> ka x y; rewrite /brow; case: unliftP => [x' ->|->]; case: unliftP => [y' ->|->] //.
+ by move=> /w_inj ->.
+ by move=> e; have := ltn_ord x'; have /= := congr1 val e; lia.
+ by move=> e; have := ltn_ord y'; have /= := congr1 val e; lia.
Qed.
(** The quotient of two entries as well. *)
Lemma ratio_quot k c X T (a a' : 'I_n) z z' : (k <= n)%N -> c != 0 -> funi k X -> prop k c X T ->
  (k <= a)%N -> (k <= a')%N -> X a' z' != 0 -> ratio T (X a z / X a' z').
Proof.
move=> kn c0 h1 h ka ka' nz; exists k.+1, (brow kn a), (bcol kn z), k.+1, (brow kn a'), (bcol kn z').
rewrite -(prop_below kn z h1 h ka) -(prop_below kn z' h1 h ka') mulf_neq0 //.
split=> //; [|exact: brow_inj|exact: brow_inj].
by rewrite invfM mulrACA divff ?mul1r.
Qed.
Lemma ratio_any k c X T (a : 'I_n) z : (k <= n)%N -> c != 0 -> fidc k X -> prop k c X T ->
  ratio T (X a z).
Proof.
move=> kn c0 h1 h; case: (leqP k a) => ka; first exact: ratio_below (fidc_uni h1) h ka.
exists k, (w kn), (rcol kn a z), k, (w kn), (col \o w kn).
rewrite -(prop_lead kn (fidc_uni h1) h) -(prop_above kn z h1 h ka) mulrC mulKf //.
by split=> //; exact: w_inj.
Qed.
End Prp.
