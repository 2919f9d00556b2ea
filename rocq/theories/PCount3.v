(** * PCount3.v -- the groups of units: how many there are, and their orders. *)

From Coq Require Import ZArith Znumtheory Lia List FinFun.
From mathcomp Require Import all_ssreflect all_fingroup all_solvable all_algebra ssrZ zify.
From Verif Require Import Rust Traits MInts MConstr Wp Spec PropSpec RingSpec ModSpec NumSpec.
From Verif Require Import TowerSpec MemberSpec CountSpec.
From Verif Require Import PGroups PIntsZ PInts ZFacts Quotient PQuot PModProps PMember PVec PMat PMatProps PPerm POrdProps.
From Verif Require Import PTower PCount PCount2.

Set Implicit Arguments.
Unset Strict Implicit.
Unset Printing Implicit Defensive.

Import GRing.Theory.

(** ** Units of a finite monoid *)
Section Units.
Variables (cfg : Cfg) (E : Type) (V : eqType) (rep : E -> V -> Prop).
Variables (op : V -> V -> V) (e : V) (A : MonoidAlg E).
Hypotheses (opA : associative op) (op1x : left_id e op) (opx1 : right_id e op).
Hypothesis hA : monoid_alg_spec False rep op e A.
Hypothesis inj : forall x y u, rep x u -> rep y u -> x = y.

Lemma units_lagrange k :
  has_members (fun x => exists u, rep x u /\ exists v, inverse_of op e u v) k ->
  good_isize cfg (Z.of_nat k) ->
  forall x u, rep x u -> (exists v, inverse_of op e u v) ->
  gives False rep (gpower (MultiplicativeGroup cfg A) (Z.of_nat k) x) e.
Proof.
move=> hk gk x u xu uu.
have rfun : forall x u v, rep x u -> rep x v -> u = v := dom_fun (mo_dom_ok hA).
have hM := mo_mo_ok hA.
have [xs [nd lk hin]] := hk.
have [us h] : exists us, Forall2 rep xs us.
  have : forall y, In y xs -> exists v, rep y v by move=> y /hin[v [yv _]]; exists v.
  elim: (xs) => [|y ys IH] hm; first by exists [::].
  have [v yv] := hm y (or_introl erefl).
  by have [|us h] := IH; [move=> z zi; apply: hm; right|exists (v :: us); constructor].
have mem y v : rep y v -> (exists w, inverse_of op e v w) -> v \in us.
  move=> yv vv; have : In y xs by apply/hin; exists v.
  elim: h => [|z w ys ws zw _ IH] //= [zy|/IH]; last by rewrite inE => ->; rewrite orbT.
  by rewrite inE (rfun y v w) ?eqxx // -zy.
pose inv v := nth e us (find (fun w => (op v w == e) && (op w v == e)) us).
have invE y v : rep y v -> (exists w, inverse_of op e v w) -> inverse_of op e v (inv v).
  move=> yv vv; have : has (fun w => (op v w == e) && (op w v == e)) us.
    have [[[z|] [_ hz]]|[[]]] := try_inv_ok hM yv; last by case: vv => w /hz.
    have [w zw [h1 h2]] := hz; apply/hasP; exists w; last by rewrite h1 h2 !eqxx.
    by apply: mem zw _; exists v.
  by move/(nth_find e)/andP => [/eqP h1 /eqP h2].
(* only the represented units matter for [inv] *)
have hG : group_alg_spec cfg False (unit_rep rep op e) op e inv (MultiplicativeGroup cfg A).
  have hS := mo_sg_ok hA.
  have hinv y v : unit_rep rep op e y v ->
      gives False (unit_rep rep op e) (multiplicative_inv A y) (inv v).
    move=> [yv [w vw]]; apply: ensures_bind (try_inv_ok hM yv) _ => -[z [t zt vt]|]; last first.
      by move/(_ _ vw).
    have iv := invE y v yv (ex_intro _ _ vw).
    apply: ensures_ret; split; last by exists v; apply: inverse_sym.
    by rewrite (inverse_uniq opA op1x opx1 iv vt).
  split; first split.
  - split=> /=.
    + by move=> y v w [yv _] [yw _]; exact: rfun yv yw.
    + move=> y v [yv hv]; apply: ensures_mono (invertible_ok hM yv) _ => b hb.
      exact/hb.
    + by move=> y v z w [yv _] [zw _]; exact: equals_ok (mo_dom_ok hA) _ _ _ _ yv zw.
  - split=> /=.
    + by move=> y v z w [yv hv] [zw hw]; apply: unit_rep_op => //; exact: (mul_ok hS).
    + by move=> y v z w [yv hv] [zw hw]; apply: unit_rep_op => //; exact: (mul_assign_ok hS).
    + by move=> y v [yv hv]; apply: unit_rep_op => //; exact: (square_ok hS).
  - split=> /=.
    + apply: ensures_mono (one_ok hM) _ => y ye; split=> //; exists e; exact: inverse_one.
    + by move=> y v [yv _]; exact: (is_one_ok hM).
    + move=> y v [yv hv]; apply: ensures_mono (try_inv_ok hM yv) _ => -[z [w zw vw]|//].
      by exists w => //; split=> //; exists v; apply: inverse_sym.
    + by move=> y v [yv hv]; apply: ensures_ret.
  - split=> /=; first exact: hinv.
    move=> n y v gn yv; apply: (@PDefaults.default_gpower_ok _ _ _ _ _ _ opA op1x opx1) (yv) => //=.
    + by move=> a b c d [ab hb] [cd hd]; apply: unit_rep_op => //; exact: (mul_assign_ok hS).
    + by move=> a b [ab hb]; apply: unit_rep_op => //; exact: (square_ok hS).
    + apply: ensures_mono (one_ok hM) _ => a ae; split=> //; exists e; exact: inverse_one.
    + exact: hinv.
have := group_lagrange hG _ opA op1x _ hk gk (conj xu uu).
move=> h2; apply: ensures_mono (h2 _ _) _ => [y z v [yv _] [zv _]|y v [yv vv]|y [ye _]] //.
- exact: inj yv zv.
- by case: (invE y v yv vv).
Qed.
End Units.

(** ** Units modulo an integer *)
Lemma totient_size n : size [seq d <- iota 0 n | coprime n d] = totient n.
Proof.
rewrite totient_count_coprime size_filter -sum1_count big_mkcond /=.
by rewrite /index_iota subn0; apply: eq_bigr => d _; case: coprime.
Qed.

Lemma Zgcd_gcdn (a b : nat) : Z.gcd (Z.of_nat a) (Z.of_nat b) = Z.of_nat (gcdn a b).
Proof. lia. Qed.

Lemma coprime_Z (a b : nat) : coprime a b <-> Z.gcd (Z.of_nat b) (Z.of_nat a) = Zpos xH.
Proof. rewrite Zgcd_gcdn gcdnC /coprime; lia. Qed.

Lemma units_count k : Z.le 1 k ->
  has_members (fun x => (Z.le 0 x /\ Z.lt x k) /\ Z.gcd x k = Zpos xH) (totient (Z.to_nat k)).
Proof.
move=> k1; rewrite -totient_size.
exists [seq Z.of_nat d | d <- [seq d <- iota 0 (Z.to_nat k) | coprime (Z.to_nat k) d]]; split.
- apply: Injective_map_NoDup; first by move=> a b; lia.
  set s := filter _ _; have: uniq s by rewrite filter_uniq ?iota_uniq.
  elim: s => [|x s IH] /=; first by constructor.
  move=> /andP[xs us]; constructor; last exact: IH.
  move=> h; case/negP: xs; elim: s h {IH us} => //= y s IH [->|/IH h]; rewrite inE ?eqxx //.
  by rewrite h orbT.
- by rewrite map_length.
- have inP (s : seq nat) y : In y s <-> y \in s.
    elim: s => //= z s IH; rewrite inE; split=> [[->|/IH ->]|/orP[/eqP->|/IH]]; rewrite ?eqxx ?orbT //.
      by left.
    by right.
  move=> x; rewrite in_map_iff; split=> [[d [<- /inP]]|[[h1 h2] h3]].
    rewrite mem_filter mem_iota => /andP[/coprime_Z]; rewrite Z2Nat.id; last lia.
    by move=> -> hd; split=> //; lia.
  exists (Z.to_nat x); split; first lia.
  apply/inP; rewrite mem_filter mem_iota; apply/andP; split; last lia.
  by apply/coprime_Z; rewrite !Z2Nat.id //; lia.
Qed.

Section Modular.
Variables (cfg : Cfg) (m : Z).
Hypothesis m2 : Z.le 2 (Z.abs m).
Local Notation k := (Z.abs m).
Local Notation A := (QuotientRing cfg ZZ m).

Lemma modular_unit_member x : unit_member cfg A x <->
  (Z.le 0 x /\ Z.lt x k) /\ Z.gcd x m = Zpos xH.
Proof.
have m0 : m <> Z0 by lia.
have [h1 _ _ _] := @modular_decides cfg False 2 m m0 (Z.le_refl _).
have hr := zz_quotient cfg m2.
rewrite -(Z.gcd_abs_r x m) /unit_member (decides_accepted h1 (x := x) I).
split=> -[rx hx]; split=> //.
  have [[b [rb hb]]|[[]]] := @rr_invertible _ _ _ _ hr _ rx; apply/hb.
  exact: returns_det rb hx.
by have [[b [rb hb]]|[[]]] := @rr_invertible _ _ _ _ hr _ rx; move/hb: hx => be; rewrite /accepted /= -be.
Qed.

Lemma modular_units_count : has_members (unit_member cfg A) (totient (Z.to_nat k)).
Proof.
have k1 : Z.le 1 k by lia.
apply: has_members_iff (units_count k1) => x.
by rewrite modular_unit_member Z.gcd_abs_r.
Qed.

Lemma euler x : unit_member cfg A x -> good_isize cfg (Z.of_nat (totient (Z.to_nat k))) ->
  returns (gpower (MultiplicativeGroup cfg A) (Z.of_nat (totient (Z.to_nat k))) x) (Zpos xH).
Proof.
move=> ux gk; have m0 : m <> Z0 by lia.
have hA := @QuotientRing_ok cfg False Z _ zz_rep _ _ ZZ (ZZ_ok cfg False) (z_modulus m2) m erefl.
have hM := ri_mon_ok hA; have hr := zz_quotient cfg m2.
have inj : forall y z (u : quot Z_eucl (z_modulus m2)), q_rep zz_rep y u -> q_rep zz_rep z u -> y = z.
  by rewrite /q_rep /zz_rep => y z u -> ->.
have acc y : accepted A y -> exists u : quot Z_eucl (z_modulus m2), q_rep zz_rep y u.
  have [h1 _ _ _] := @modular_decides cfg False 2 m m0 (Z.le_refl _).
  move/(decides_accepted h1 (x := y) I) => hy.
  have hc : erem Z_eucl (y : [idomainType of Z]) (z_modulus m2) == y.
    by apply/eqP; exact: (proj2 (zrem_self _ _ m0)).
  by exists (Quot hc).
have uE y : unit_member cfg A y <-> exists u : quot Z_eucl (z_modulus m2), q_rep zz_rep y u /\
    exists v, inverse_of *%R 1%R u v.
  split=> [[hy iy]|[u [yu uu]]].
    have [u yu] := acc y hy; exists u; split=> //.
    have [[b [rb hb]]|[[]]] := invertible_ok (mo_mo_ok hM) yu; apply/hb.
    exact: returns_det rb iy.
  split.
    by have [[b [rb hb]]|[[]]] := contains_ok (mo_dom_ok hM) yu; rewrite /accepted -hb.
  have [[b [rb hb]]|[[]]] := invertible_ok (mo_mo_ok hM) yu; rewrite /accepted /=.
  by move/hb: uu => <-.
have hk := has_members_iff uE modular_units_count.
have [u [xu uu]] := proj1 (uE x) ux.
have := units_lagrange (@mulrA _) (@mul1r _) (@mulr1 _) hM inj hk gk xu uu.
case=> [[y [ry y1]]|[[]]].
have [[z [rz z1]]|[[]]] := one_ok (mo_mo_ok hM).
have [[t [rt t1]]|[[]]] := @rr_one _ _ _ _ hr.
rewrite -t1 -(returns_det rz rt) (inj _ _ _ z1 y1); exact: ry.
Qed.
End Modular.

(** ** Invertible matrices *)
Section FinField.
Variables (F : fieldType) (s : seq F) (us : uniq s) (hs : forall u, u \in s).
Local Open Scope group_scope.

Lemma fin_can : cancel (fun u : F => index u s) (nth 0%R s).
Proof. by move=> u; rewrite nth_index. Qed.
Definition fin_countMixin := CanCountMixin fin_can.
Definition fin_countType := Eval hnf in CountType F fin_countMixin.
Definition fin_finMixin := @UniqFinMixin fin_countType s us (fun u => hs u).
Definition fin_finType := Eval hnf in FinType fin_countType fin_finMixin.
Definition fin_field : finFieldType :=
  @FinRing.Field.pack F F (GRing.Field.class F) id fin_finType fin_finMixin id.
Lemma fin_card : #|fin_field| = size s.
Proof. by rewrite cardT enumT unlock. Qed.

Lemma GL_orderE q n :
  (q ^ 'C(n, 2) * \prod_(1 <= i < n.+1) (q ^ i - 1) = GL_order q n)%N.
Proof.
rewrite /GL_order -(big_mkord xpredT (fun i => (q ^ n - q ^ i)%N)).
transitivity (\prod_(0 <= i < n) (q ^ i * (q ^ (n - i) - 1)))%N; last first.
  rewrite !big_nat; apply: eq_bigr => i /andP[_ lt]; rewrite mulnBr muln1 -expnD.
  by rewrite addnC subnK // ltnW.
rewrite big_split /= -expn_sum triangular_sum; congr (_ * _)%N.
rewrite big_add1 /= big_nat_rev /= !big_nat; apply: eq_bigr => i /andP[_ lt].
by rewrite add0n -subSn // subSS.
Qed.

Lemma GL_list n : exists t : seq 'M[F]_n,
  [/\ uniq t, size t = GL_order (size s) n & forall M, (M \in t) = (M \in unitmx)].
Proof.
case: n => [|n].
  exists [:: 1%:M%R]; split=> //; first by rewrite /GL_order big_ord0.
  by move=> M; rewrite inE (_ : M = 1%:M%R) ?eqxx ?unitmx1 //; apply/matrixP => -[].
exists [seq val u | u <- enum 'GL_n.+1[fin_field]]; split.
- rewrite map_inj_uniq; first exact: enum_uniq.
  exact: val_inj.
- by rewrite size_map -cardE card_GL // fin_card GL_orderE.
- move=> M; apply/mapP/idP => [[u _ ->]|h]; first exact: (valP u).
  have h' : (M : 'M[fin_field]_n.+1) \is a GRing.unit by [].
  by exists (FinRing.unit _ h') => //; rewrite mem_enum inE.
Qed.
End FinField.

Section Matrices.
Variables (cfg : Cfg) (E : Type) (F : fieldType) (rep : E -> F -> Prop) (A : FieldAlg E).
Variables (q n : nat).
Hypothesis hA : finite_field cfg rep A q.
Hypothesis hc : Z.le 2 (ptr_bits cfg).
Local Notation mof := (@matrix_of n E F rep).
Local Notation G := (MultiplicativeGroup cfg (MatrixRing cfg A n)).

Let hF : field_alg_spec cfg False rep A := finite_field_contract hA.
Let hM := ri_mon_ok (MatrixRing_ok hF n hc).

Lemma matrix_of_fun x (N T : 'M[F]_n) : mof x N -> mof x T -> N = T.
Proof. by move=> h1 h2; exact: (dom_fun (mo_dom_ok hM)) h1 h2. Qed.

Lemma Forall2_rep_inj (x y : seq E) r : Forall2 rep x r -> Forall2 rep y r -> x = y.
Proof.
have [_ _ inj] := finite_field_members hA.
move=> h; elim: h y => [|a u v r' au _ IH] y h2; first by inversion h2.
by inversion h2 as [|b u' w r'' bu hw]; subst; rewrite (inj _ _ _ au bu) (IH w).
Qed.

Lemma matrix_of_inj x y (N : 'M[F]_n) : mof x N -> mof y N -> x = y.
Proof. by move=> /mrep_vec h1 /mrep_vec h2; exact: Forall2_rep_inj h1 h2. Qed.

Lemma matrix_of_surj (N : 'M[F]_n) : exists x, mof x N.
Proof.
have [_ surj _] := finite_field_members hA.
have all_r r : exists xs, Forall2 rep xs r.
  elim: r => [|u r [xs h]]; first by exists [::].
  by have [x xu] := surj u; exists (x :: xs); constructor.
have [f hf] : exists x, vec_rep rep x (mvec N) by exact: all_r.
by exists f; apply/mrep_vec.
Qed.

Lemma GL_member x : (exists2 N, mof x N & N \in unitmx) <->
  (exists N, mof x N) /\ accepted G x.
Proof.
have h N : mof x N -> accepted G x <-> N \in unitmx.
  move=> xN; have [_ [[b [rb hb]]|[[]]]] := matrix_inverse hF hc xN.
  rewrite /accepted /= -hb; split=> [/(returns_det rb)|<-] //.
split=> [[N xN uN]|[[N xN] ax]]; last by exists N => //; apply/(h N xN).
by split; [exists N|apply/(h N xN)].
Qed.

Lemma GL_count : has_members (fun x => (exists N, mof x N) /\ accepted G x) (GL_order q n).
Proof.
have [_ [_ _ [s [us sk hs]]]] := finite_field_ok hA.
have [t [ut st ht]] := GL_list us hs n.
have := members_count matrix_of_fun matrix_of_inj (fun N _ => matrix_of_surj N) ut.
rewrite st sk; apply: has_members_iff => x; rewrite -GL_member.
by split=> -[N xN]; exists N; rewrite // -?ht // ht.
Qed.

Lemma GL_lagrange x : (exists N, mof x N) -> accepted G x ->
  good_isize cfg (Z.of_nat (GL_order q n)) ->
  gives False mof (gpower G (Z.of_nat (GL_order q n)) x) 1%:M%R.
Proof.
move=> [N xN] ax gk.
have uP (T : 'M[F]_n) : (exists S : 'M[F]_n, inverse_of mulmx 1%:M%R T S) <-> T \in unitmx.
  by rewrite mat_unitP unitmxE unitfE.
have uE y : ((exists T, mof y T) /\ accepted G y) <->
    exists T, mof y T /\ exists S, inverse_of mulmx 1%:M%R T S.
  by rewrite -GL_member; split=> [[T yT /uP uT]|[T [yT /uP uT]]]; exists T.
have := units_lagrange (@mulmxA _ _ _ _ _) (@mul1mx _ _ _) (@mulmx1 _ _ _) hM matrix_of_inj
  (has_members_iff uE GL_count) gk xN; apply.
have [T xT uT] : exists2 T, mof x T & T \in unitmx by apply/GL_member; split=> //; exists N.
by apply/uP; rewrite (matrix_of_fun xN xT).
Qed.
End Matrices.

(** ** Permutations *)
Lemma permutations_lagrange cfg n v : accepted (Permutations cfg n) v ->
  good_isize cfg (Z.of_nat n`!) ->
  returns (gpower (Permutations cfg n) (Z.of_nat n`!) v) (iota 0 n).
Proof.
move=> /permutation_accepted[s vs] gk.
have [_ [h2 [h3 _]]] := permutation_bijective n.
have uE w : accepted (Permutations cfg n) w <-> exists s : 'S_n, permutation_of w s.
  exact: permutation_accepted.
have hk := has_members_iff uE (permutations_accepted cfg n).
have := group_lagrange (Permutations_ok cfg False n) h3 (@mulgA _) (@mul1g _) (fun _ u _ => mulVg u) hk gk vs.
case=> [[w [rw w1]]|[[]]]; suff <- : w = iota 0 n by [].
by apply: h3 w1 _; split; [rewrite size_iota|move=> i; rewrite nth_iota // perm1].
Qed.

(** ** Finite additive groups *)
Lemma additive_lagrange cfg (E : Type) (V : zmodType) (rep : E -> V -> Prop)
    (A : AbelianAlg E) k : abelian_alg_spec cfg False rep A ->
  (forall x y u, rep x u -> rep y u -> x = y) ->
  has_members (fun x => exists u, rep x u) k -> good_isize cfg (Z.of_nat k) ->
  forall x u, rep x u -> gives False rep (gpower (AdditiveGroup cfg A) (Z.of_nat k) x) 0%R.
Proof.
move=> hA inj hk gk x u xu.
exact: (group_lagrange (additive_group_ok hA) inj (@addrA V) (@add0r V) (fun _ v _ => addNr v) hk gk xu).
Qed.
