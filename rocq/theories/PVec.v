(** * PVec.v -- VectorAlgebra is the pointwise power of its base. *)

From Coq Require Import ZArith Lia List.
From mathcomp Require Import all_ssreflect all_algebra zify.
From Verif Require Import Rust Traits MInts MConstr RingTac Wp Spec PDefaults PEucl.
From Verif Require Import POrders.

Set Implicit Arguments.
Unset Strict Implicit.
Unset Printing Implicit Defensive.

Import GRing.Theory.
Local Open Scope ring_scope.

(** The vector [v] lists the values of the function [f]. *)
Definition vec_rep (n : nat) (E : Type) (V : eqType) (rep : E -> V -> Prop)
    (v : seq E) (f : {ffun 'I_n -> V}) : Prop :=
  reps rep v [seq f i | i <- enum 'I_n].

(** Pointwise operation, pointwise order. *)
Definition pointwise (n : nat) (V : Type) (op : V -> V -> V)
    (f g : {ffun 'I_n -> V}) : {ffun 'I_n -> V} := [ffun i => op (f i) (g i)].
Definition pointwise_le (n : nat) (V : Type) (le : rel V)
    (f g : {ffun 'I_n -> V}) : bool := [forall i, le (f i) (g i)].

Section Listing.
Variable n : nat.

Definition vs (V : Type) (f : {ffun 'I_n -> V}) : seq V := [seq f i | i <- enum 'I_n].

Lemma size_vs V (f : {ffun 'I_n -> V}) : size (vs f) = n.
Proof. by rewrite size_map size_enum_ord. Qed.

Lemma nth_vs V (f : {ffun 'I_n -> V}) (i : 'I_n) x0 : nth x0 (vs f) i = f i.
Proof. by rewrite (nth_map i) ?size_enum_ord // nth_ord_enum. Qed.

Lemma vs_inj V : injective (@vs V).
Proof. by move=> f g fg; apply/ffunP => i; rewrite -(nth_vs f i (f i)) fg nth_vs. Qed.

Lemma vs_map V W (g : V -> W) (f : {ffun 'I_n -> V}) :
  map g (vs f) = vs [ffun i => g (f i)].
Proof. by rewrite -map_comp; apply: eq_map => i; rewrite ffunE. Qed.

Lemma vs_map2 U V W (g : U -> V -> W) (f : {ffun 'I_n -> U}) (h : {ffun 'I_n -> V}) :
  map2 g (vs f) (vs h) = vs [ffun i => g (f i) (h i)].
Proof.
rewrite /map2 /vs zip_map -map_comp.
by apply: eq_map => i; rewrite /= ffunE.
Qed.

Lemma vs_const V (a : V) : nseq n a = vs [ffun => a].
Proof.
apply: (@eq_from_nth _ a) => [|i]; rewrite size_nseq ?size_vs // => ni.
by rewrite (nth_vs _ (Ordinal ni)) ffunE nth_nseq ni.
Qed.

Lemma all_vs V (P : pred V) (f : {ffun 'I_n -> V}) : all P (vs f) = [forall i, P (f i)].
Proof.
rewrite all_map; apply/allP/forallP => [h i|h i _]; last exact: h.
by apply: h; rewrite mem_enum.
Qed.

Lemma all2_vs U V (P : U -> V -> bool) (f : {ffun 'I_n -> U}) (h : {ffun 'I_n -> V}) :
  all2 P (vs f) (vs h) = [forall i, P (f i) (h i)].
Proof.
have -> (s : seq U) (t : seq V) : size s = size t ->
  all2 P s t = all (fun x => P x.1 x.2) (zip s t).
  by elim: s t => [|a s IH] [|b t] //= [/IH ->].
  rewrite /vs zip_map all_map; apply/allP/forallP => [h' i|h' i _]; last exact: h'.
  by apply: h'; rewrite mem_enum.
by rewrite !size_vs.
Qed.

Lemma vs_surj V (s : seq V) : size s = n -> exists f, s = vs f.
Proof.
move=> sn; have hi (i : 'I_n) : (i < size s)%N by rewrite sn.
exists [ffun i : 'I_n => tnth (in_tuple s) (Ordinal (hi i))].
case: s sn hi => [|x0 s] sn hi.
  by apply: esym; apply: size0nil; rewrite size_vs -sn.
apply: (@eq_from_nth _ x0) => [|i si]; first by rewrite size_vs.
have ii : (i < n)%N by rewrite -sn.
by rewrite (nth_vs _ (Ordinal ii)) ffunE (tnth_nth x0).
Qed.
End Listing.

Lemma Forall2_nthP A B (R : A -> B -> Prop) s t a0 b0 :
  Forall2 R s t <-> size s = size t /\ forall i, (i < size s)%N -> R (nth a0 s i) (nth b0 t i).
Proof.
split=> [h|[sz h]]; last by apply: (@reps_nthP _ _ R a0 b0) => // i; rewrite -sz; exact: h.
split; first exact: (reps_size h).
by move=> i; rewrite (reps_size h) => si; exact: (@reps_nth _ _ R a0 b0).
Qed.

(** A vector representing through an existential. *)
Lemma reps_exists E V W (rep : E -> W -> Prop) (R : V -> W -> Prop) v s :
  reps (fun x a => exists2 w, rep x w & R a w) v s ->
  exists2 t, reps rep v t & Forall2 R s t.
Proof.
elim=> [|x a {}v {}s [w xw aw] _ [t vt st]].
  by exists [::]; [exact: reps_nil|exact: Forall2_nil].
by exists (w :: t); [exact: reps_cons|exact: Forall2_cons].
Qed.

Section Vector.
Variables (cfg : Cfg) (p : Prop) (E : Type) (n : nat).

Section Generic.
Variables (V : eqType) (rep : E -> V -> Prop).
Local Notation vrep := (@vec_rep n E V rep).

Lemma vrep_size v f : vrep v f -> size v = n.
Proof. by move/reps_size; rewrite size_vs. Qed.

Lemma len1 (v : seq E) f T (m : M T) Q : vrep v f -> ensures p m Q ->
  ensures p (do! assert_len1 n v in m) Q.
Proof. by move=> vf; apply: ensures_assert_bind; rewrite (vrep_size vf). Qed.
Lemma len2 (v u : seq E) f g T (m : M T) Q : vrep v f -> vrep u g -> ensures p m Q ->
  ensures p (do! assert_len2 n v u in m) Q.
Proof. by move=> vf ug; apply: ensures_assert_bind; rewrite (vrep_size vf) (vrep_size ug) eqxx. Qed.

Lemma v_map2 ml op v f u g :
  (forall x u y v, rep x u -> rep y v -> gives p rep (ml x y) (op u v)) ->
  vrep v f -> vrep u g ->
  ensures p (do! assert_len2 n v u in map2M ml v u) (fun w => vrep w (pointwise op f g)).
Proof.
move=> h vf ug; apply: (len2 vf ug).
by rewrite /vec_rep -[map _ _]/(vs _) -vs_map2; exact: (ensures_map2M vf ug h).
Qed.
Lemma v_map ml op v f :
  (forall x u, rep x u -> gives p rep (ml x) (op u)) ->
  vrep v f ->
  ensures p (do! assert_len1 n v in mapM ml v) (fun w => vrep w [ffun i => op (f i)]).
Proof.
move=> h vf; apply: (len1 vf).
by rewrite /vec_rep -[map _ _]/(vs _) -vs_map; exact: (ensures_mapM vf h).
Qed.
Lemma v_all (P : pred V) ml v f :
  (forall x u, rep x u -> answers p (ml x) (P u)) ->
  vrep v f ->
  answers p (do! assert_len1 n v in allM ml v) [forall i, P (f i)].
Proof. by move=> h vf; apply: (len1 vf); rewrite -all_vs; exact: (ensures_allM vf h). Qed.
Lemma v_all2 (P : rel V) ml v f u g :
  (forall x u y v, rep x u -> rep y v -> answers p (ml x y) (P u v)) ->
  vrep v f -> vrep u g ->
  answers p (do! assert_len2 n v u in all2M ml v u) [forall i, P (f i) (g i)].
Proof.
move=> h vf ug; apply: (len2 vf ug); rewrite -all2_vs.
by apply: (ensures_all2M vf ug _ h); rewrite !size_vs.
Qed.
Lemma v_const (m : M E) a : gives p rep m a ->
  gives p vrep (let! x := m in ret (vector_diagonal n x)) [ffun => a].
Proof.
move=> h; apply: ensures_bind h _ => x xa; apply: ensures_ret.
by rewrite /vec_rep -[map _ _]/(vs _) -vs_const; exact: reps_nseq.
Qed.

Lemma ffun_eqE (f g : {ffun 'I_n -> V}) : [forall i, f i == g i] = (f == g).
Proof.
by apply/forallP/eqP => [h|-> i //]; apply/ffunP => i; apply/eqP; exact: h.
Qed.

Lemma vec_domain (A : Domain E) : domain_spec p rep A ->
  domain_spec p vrep (vector_domain n A).
Proof.
move=> hA; split=> /=.
- by move=> x u v xu xv; apply: vs_inj; exact: (reps_fun (dom_fun hA) xu xv).
- move=> x v xv; rewrite (vrep_size xv) eqxx /=.
  have := ensures_allM (P := xpredT) xv (contains_ok hA).
  by rewrite all_predT.
- move=> x u y v xu yv; rewrite -ffun_eqE.
  by apply: v_all2 => //; exact: equals_ok hA.
Qed.

Lemma vec_contains_exact (A : Domain E) : contains_exact p rep A ->
  contains_exact p vrep (vector_domain n A).
Proof.
move=> hA v /=; case: eqVneq => /= [sv|sv]; last first.
  by apply: ensures_ret; split=> // -[f /vrep_size svn]; rewrite svn eqxx in sv.
have h : ensures p (allM (contains A) v) (fun b => b <-> exists s, reps rep v s).
  elim: v {sv} => [|x v IH] /=.
    by apply: ensures_ret; split=> // _; exists [::]; exact: reps_nil.
  apply: ensures_bind (hA x) _ => -[] hx; last first.
    by apply: ensures_ret; split=> // -[s vs]; inversion vs; apply: hx.2; eexists; eassumption.
  apply: ensures_mono IH _ => b hb; split.
    move=> /hb [s vs]; have [a xa] := hx.1 isT.
    by exists (a :: s); exact: reps_cons.
  by move=> [s vs]; apply/hb; inversion vs; eexists; eassumption.
apply: ensures_mono h _ => b ->; split=> [[s vsE]|[f vf]]; last by exists (vs f).
have [f fE] : exists f : {ffun 'I_n -> V}, s = vs f.
  by apply: vs_surj; rewrite -(reps_size vsE).
by exists f; rewrite /vec_rep -[map _ _]/(vs f) -fE.
Qed.

Section Mult.
Variables (op : V -> V -> V) (e : V).

Lemma vec_semigroup (A : Semigroup E) : semigroup_spec p rep op A ->
  semigroup_spec p vrep (pointwise op) (vector_semigroup n A).
Proof.
move=> hA; split=> /=.
- by move=> x u y v xu yv; apply: v_map2 => //; exact: mul_ok hA.
- by move=> x u y v xu yv; apply: v_map2 => //; exact: mul_assign_ok hA.
- move=> x u xu; have := v_map (square_ok hA) xu; exact.
Qed.

Lemma pointwise_inverse (f g : {ffun 'I_n -> V}) :
  inverse_of (pointwise op) [ffun => e] f g <->
  forall i, inverse_of op e (f i) (g i).
Proof.
split=> [[/ffunP h1 /ffunP h2] i|h].
  by have := h1 i; have := h2 i; rewrite !ffunE => ? ?; split.
by split; apply/ffunP => i; rewrite !ffunE; case: (h i).
Qed.

Lemma vec_try_inv_loop (A : Monoid E) : monoid_spec p rep op e A ->
  forall xs s acc t0, reps rep xs s -> reps rep acc t0 ->
  ensures p (vector_try_inv_loop A xs acc) (fun o => match o with
    | Some w => exists2 t, reps rep w (t0 ++ t) & Forall2 (inverse_of op e) s t
    | None => exists2 a, List.In a s & forall b, ~ inverse_of op e a b
    end).
Proof.
move=> hA xs s acc t0 xss; elim: xss acc t0 => [|x a {}xs {}s xa _ IH] acc t0 ht /=.
  by apply: ensures_ret; exists [::]; [rewrite cats0|exact: Forall2_nil].
apply: ensures_bind (try_inv_ok hA xa) _ => -[y [b yb ab]|na]; last first.
  by apply: ensures_ret; exists a => //; left.
apply: ensures_mono (IH _ _ (reps_rcons ht yb)) _ => -[w [t wt st]|[c cs hc]].
  by exists (b :: t); [rewrite -cat_rcons|exact: Forall2_cons].
by exists c => //; right.
Qed.

Lemma In_vs (f : {ffun 'I_n -> V}) a : List.In a (vs f) -> exists i, a = f i.
Proof. by move/in_map_iff => [i [<- _]]; exists i. Qed.

Lemma vec_monoid (A : Monoid E) : monoid_spec p rep op e A ->
  monoid_spec p vrep (pointwise op) [ffun => e] (vector_monoid n A).
Proof.
move=> hA; split=> /=.
- exact: v_const (one_ok hA).
- move=> x u xu; have := v_all (is_one_ok hA) xu.
  rewrite -(ffun_eqE u) (eq_forallb (_ : _ =1 (fun i => u i == [ffun => e] i))) // => i.
  by rewrite ffunE.
- move=> x u xu; apply: (len1 xu).
  apply: ensures_mono (vec_try_inv_loop hA xu (reps_nil rep)) _ => -[w [t wt ut]|[a ua ha]].
    have [g tg] : exists g : {ffun 'I_n -> V}, t = vs g.
      by apply: vs_surj; have := reps_size ut; rewrite size_vs.
    subst t; exists g => //; apply/pointwise_inverse => i.
    have /(Forall2_nthP _ _ _ (u i) (g i)) [_ /(_ i)] := ut.
    by rewrite nth_vs -/(vs u) nth_vs size_vs; apply.
  move=> v /pointwise_inverse h; have [i ai] := In_vs ua.
  by apply: (ha (v i)); rewrite ai.
- move=> x u xu; apply: (len1 xu).
  have h : forall xs s, reps rep xs s ->
    ensures p (allM (invertible A) xs) (fun b =>
      if b then exists t, Forall2 (inverse_of op e) s t
      else exists2 a, List.In a s & forall b, ~ inverse_of op e a b).
    move=> xs s; elim=> [|y a {}xs {}s ya _ IH] /=.
      by apply: ensures_ret; exists [::]; exact: Forall2_nil.
    apply: ensures_bind (invertible_ok hA ya) _ => -[] hy; last first.
      apply: ensures_ret; exists a; first by left.
      by move=> b ab; apply: notF; apply: hy.2; exists b.
    apply: ensures_mono IH _ => -[[t st]|[c cs hc]]; last by exists c => //; right.
    by have [b ab] := hy.1 isT; exists (b :: t); exact: Forall2_cons.
  apply: ensures_mono (h _ _ xu) _ => -[[t ut]|[a ua ha]]; split=> //.
    move=> _; have [g tg] : exists g : {ffun 'I_n -> V}, t = vs g.
      by apply: vs_surj; have := reps_size ut; rewrite size_vs.
    subst t; exists g; apply/pointwise_inverse => i.
    have /(Forall2_nthP _ _ _ (u i) (g i)) [_ /(_ i)] := ut.
    by rewrite nth_vs -/(vs u) nth_vs size_vs; apply.
  case=> v /pointwise_inverse hv; have [i ai] := In_vs ua.
  by case: (ha (v i)); rewrite ai.
Qed.

Lemma vec_monoid_alg (A : MonoidAlg E) : monoid_alg_spec p rep op e A ->
  monoid_alg_spec p vrep (pointwise op) [ffun => e] (vector_monoid_alg n A).
Proof.
by move=> [h1 h2 h3]; split; [exact: vec_domain|exact: vec_semigroup|exact: vec_monoid].
Qed.

Hypotheses (opA : associative op) (op1x : left_id e op) (opx1 : right_id e op).

Lemma pointwiseA : associative (@pointwise n V op).
Proof. by move=> f g h; apply/ffunP => i; rewrite !ffunE opA. Qed.
Lemma pointwise1x : left_id [ffun => e] (@pointwise n V op).
Proof. by move=> f; apply/ffunP => i; rewrite !ffunE op1x. Qed.
Lemma pointwisex1 : right_id [ffun => e] (@pointwise n V op).
Proof. by move=> f; apply/ffunP => i; rewrite !ffunE opx1. Qed.

Lemma vec_group inv (A : GroupAlg E) : group_alg_spec cfg p rep op e inv A ->
  group_alg_spec cfg p vrep (pointwise op) [ffun => e]
    (fun f => [ffun i => inv (f i)]) (vector_group cfg n A).
Proof.
move=> [hM hG]; have hM' := vec_monoid_alg hM.
have hi x u : vrep x u ->
  gives p vrep (do! assert_len1 n x in mapM (ginv A) x) [ffun i => inv (u i)].
  by move=> xu; exact: (v_map (ginv_ok hG) xu).
split=> //; split=> //= m x u gm xu.
apply: (default_gpower_ok pointwiseA pointwise1x pointwisex1) => //.
- exact: mul_assign_ok (mo_sg_ok hM').
- exact: square_ok (mo_sg_ok hM').
- exact: one_ok (mo_mo_ok hM').
- exact: hi.
Qed.

Lemma vec_cmonoid (A : CommMonoid E) : cmonoid_spec p rep op e A ->
  cmonoid_spec p vrep (pointwise op) [ffun => e] (vector_cmonoid n A).
Proof.
move=> hA.
have hz := v_const (zero_ok hA).
have ha x u y v : vrep x u -> vrep y v ->
  gives p vrep (do! assert_len2 n x y in map2M (add_assign A) x y) (pointwise op u v).
  by move=> xu yv; apply: v_map2 => //; exact: add_assign_ok hA.
have hd x u : vrep x u ->
  gives p vrep (do! assert_len1 n x in mapM (double A) x) (pointwise op u u).
  by move=> xu; have := v_map (double_ok hA) xu.
split=> //=.
- move=> x u xu; have := v_all (is_zero_ok hA) xu.
  rewrite -(ffun_eqE u) (eq_forallb (_ : _ =1 (fun i => u i == [ffun => e] i))) // => i.
  by rewrite ffunE.
- by move=> x u y v xu yv; apply: v_map2 => //; exact: add_ok hA.
- move=> m x u m0 xu.
  by apply: (default_ntimes_ok pointwiseA pointwise1x pointwisex1 (rep := vrep)) => //.
Qed.
End Mult.

Section Order.
Variable le : rel V.

Lemma vec_laws : order_laws rep le -> order_laws vrep (@pointwise_le n V le).
Proof.
move=> h; split.
- by move=> u; apply/forallP => i; exact: le_refl h _.
- move=> u v w /forallP h1 /forallP h2; apply/forallP => i.
  exact: (le_trans h (h1 i) (h2 i)).
- move=> x u y v xu yv /forallP h1 /forallP h2; apply/ffunP => i.
  case: x xu => [xu|x0 x xu].
    by have := reps_size xu; rewrite size_vs => n0; have := ltn_ord i; rewrite -[X in (_ < X)%N]n0.
  have ii (w : {ffun 'I_n -> V}) : (i < size (vs w))%N by rewrite size_vs.
  have := reps_nth x0 (u i) xu (ii u); have := reps_nth x0 (u i) yv (ii v).
  rewrite -/(vs u) -/(vs v) !nth_vs => h3 h4.
  exact: (le_anti h h4 h3).
Qed.

Lemma vec_order (A : OrderAlg E) : order_alg_spec p rep le A ->
  order_alg_spec p vrep (@pointwise_le n V le) (vector_order n A).
Proof.
move=> [hD hO hL]; have hD' := vec_domain hD; split=> //; last exact: vec_laws.
apply: order_default; first exact: equals_ok hD'.
by move=> x u y v xu yv; apply: v_all2 => //; exact: leq_ok hO.
Qed.

Lemma vec_bounded top bot (A : BoundedOrder E) : bounded_spec p rep le top bot A ->
  bounded_spec p vrep (@pointwise_le n V le) [ffun => top] [ffun => bot]
    (vector_bounded n A).
Proof.
have hn x (u : {ffun 'I_n -> V}) (i : 'I_n) : vrep x u -> exists y, rep y (u i).
  move=> xu; case: x xu => [xu|x0 x xu].
    by have := reps_size xu; rewrite size_vs => n0; have := ltn_ord i; rewrite -[X in (_ < X)%N]n0.
  have ii : (i < size (vs u))%N by rewrite size_vs.
  by have := reps_nth x0 (u i) xu ii; rewrite -/(vs u) nth_vs => h; eexists; exact: h.
move=> hA; split=> /=.
- exact: v_const (omax_ok hA).
- exact: v_const (omin_ok hA).
- move=> x u xu; apply/forallP => i; rewrite ffunE.
  by have [y yu] := hn _ _ i xu; exact: (top_ok hA yu).
- move=> x u xu; apply/forallP => i; rewrite ffunE.
  by have [y yu] := hn _ _ i xu; exact: (bot_ok hA yu).
Qed.

Lemma pointwise_glb (f g h : {ffun 'I_n -> V}) :
  (forall i, is_glb le (f i) (g i) (h i)) -> is_glb (@pointwise_le n V le) f g h.
Proof.
move=> H; split=> [||d /forallP h1 /forallP h2]; apply/forallP => i; case: (H i) => // a b c.
exact: c.
Qed.
Lemma pointwise_lub (f g h : {ffun 'I_n -> V}) :
  (forall i, is_lub le (f i) (g i) (h i)) -> is_lub (@pointwise_le n V le) f g h.
Proof.
move=> H; split=> [||d /forallP h1 /forallP h2]; apply/forallP => i; case: (H i) => // a b c.
exact: c.
Qed.

(** Operations specified by a relation. *)
Lemma v_map2_ex ml (R : V -> V -> V -> Prop) v f u g :
  (forall x u y v, rep x u -> rep y v ->
     ensures p (ml x y) (fun z => exists2 w, rep z w & R u v w)) ->
  vrep v f -> vrep u g ->
  ensures p (do! assert_len2 n v u in map2M ml v u)
    (fun z => exists2 w, vrep z w & forall i, R (f i) (g i) (w i)).
Proof.
move=> h vf ug; apply: (len2 vf ug).
have h' : ensures p (map2M ml v u) (fun z => reps (fun z ab => exists2 w, rep z w &
    R ab.1 ab.2 w) z (map2 pair (vs f) (vs g))).
  by apply: (ensures_map2M vf ug) => x a y b xa yb; exact: h.
apply: ensures_mono h' _ => z /reps_exists [t zt].
rewrite vs_map2 => ft; have [w tw] : exists w : {ffun 'I_n -> V}, t = vs w.
  by apply: vs_surj; have := reps_size ft; rewrite size_vs.
subst t; exists w => // i.
have /(Forall2_nthP _ _ _ (f i, g i) (w i)) [_ /(_ i)] := ft.
by rewrite !nth_vs size_vs ffunE; apply.
Qed.
Lemma v_map_ex ml (R : V -> V -> Prop) v f :
  (forall x u, rep x u -> ensures p (ml x) (fun z => exists2 w, rep z w & R u w)) ->
  vrep v f ->
  ensures p (do! assert_len1 n v in mapM ml v)
    (fun z => exists2 w, vrep z w & forall i, R (f i) (w i)).
Proof.
move=> h vf; apply: (len1 vf).
have h' : ensures p (mapM ml v) (fun z => reps (fun z a => exists2 w, rep z w &
    R a w) z (map id (vs f))).
  by apply: (ensures_mapM vf) => x a xa; exact: h.
apply: ensures_mono h' _ => z /reps_exists [t zt].
rewrite map_id => ft; have [w tw] : exists w : {ffun 'I_n -> V}, t = vs w.
  by apply: vs_surj; have := reps_size ft; rewrite size_vs.
subst t; exists w => // i.
have /(Forall2_nthP _ _ _ (f i) (w i)) [_ /(_ i)] := ft.
by rewrite !nth_vs size_vs; apply.
Qed.

Lemma vec_lattice (A : LatticeAlg E) : lattice_alg_spec p rep le A ->
  lattice_alg_spec p vrep (@pointwise_le n V le) (VectorLattice n A).
Proof.
move=> [hO hL]; split; first exact: vec_order.
split=> /= x u y v xu yv.
- apply: ensures_mono (v_map2_ex (meet_ok hL) xu yv) _ => z [w zw hw].
  by exists w => //; exact: pointwise_glb.
- apply: ensures_mono (v_map2_ex (join_ok hL) xu yv) _ => z [w zw hw].
  by exists w => //; exact: pointwise_lub.
Qed.

Lemma VectorBoolean_ok top bot (A : BooleanAlg E) :
  boolean_alg_spec p rep le top bot A ->
  boolean_alg_spec p vrep (@pointwise_le n V le) [ffun => top] [ffun => bot]
    (VectorBoolean n A).
Proof.
move=> [h1 h2 h3]; split; [exact: vec_lattice|exact: vec_bounded|].
split=> /= x u xu; apply: ensures_mono (v_map_ex (bnot_ok h3) xu) _ => z [w zw hw].
exists w => //; split; [apply: pointwise_glb => i|apply: pointwise_lub => i];
  by rewrite ffunE; case: (hw i).
Qed.
End Order.
End Generic.

Section Ring.
Variables (V : zmodType) (rep : E -> V -> Prop).
Local Notation vrep := (@vec_rep n E V rep).

Lemma vec_cmonoid_add (A : CommMonoid E) : cmonoid_spec p rep +%R 0 A ->
  cmonoid_spec p vrep +%R 0 (vector_cmonoid n A).
Proof. exact: (vec_cmonoid (@addrA V) (@add0r V) (@addr0 V)). Qed.

Lemma vec_abelian (A : AbelianAlg E) : abelian_alg_spec cfg p rep A ->
  abelian_alg_spec cfg p vrep (vector_abelian_alg cfg n A).
Proof.
move=> [hD hC hA]; have hC' := vec_cmonoid_add hC; split=> //; first exact: vec_domain.
have hn x u : vrep x u -> gives p vrep (do! assert_len1 n x in mapM (neg A) x) (- u).
  by move=> xu; have := v_map (neg_ok hA) xu.
have hp : @pointwise n V (fun a b => a - b) =2 (fun f g => f - g).
  by move=> f g; apply/ffunP => i; rewrite !ffunE.
split=> //=.
- by move=> x u xu; have := v_map (neg_assign_ok hA) xu.
- by move=> x u y v xu yv; have := v_map2 (sub_ok hA) xu yv; rewrite hp.
- by move=> x u y v xu yv; have := v_map2 (sub_assign_ok hA) xu yv; rewrite hp.
- by move=> m x u gm xu; exact: default_ztimes_ok.
Qed.

Lemma zmul_ffun (f : {ffun 'I_n -> V}) m i : zmul f m i = zmul (f i) m.
Proof. by case: m => [|k|k] /=; rewrite ?ffunE ?ffunMnE. Qed.

Lemma VectorRing_ok op e (A : RingAlg E) : ring_alg_spec cfg p rep op e A ->
  ring_alg_spec cfg p vrep (pointwise op) [ffun => e] (VectorRing cfg n A).
Proof.
move=> [hM hC hA hU].
have hA' : abelian_alg_spec cfg p rep (ring_abelian A).
  by split=> //; exact: mo_dom_ok hM.
have [_ hC' hA''] := vec_abelian hA'.
split=> //; first exact: vec_monoid_alg.
split=> /= m gm; have := v_const (int_ok hU gm).
by rewrite (_ : [ffun => zmul e m] = zmul [ffun => e] m) //; apply/ffunP => i; rewrite zmul_ffun !ffunE.
Qed.
End Ring.

(** Vectors of the wrong length are rejected with a panic. *)
Lemma assert_len1_panics T (v : seq E) (m : M T) : size v != n ->
  panics (do! assert_len1 n v in m).
Proof. by move=> h; apply: panics_assert_bind. Qed.
Lemma assert_len2_panics T (v u : seq E) (m : M T) : (size v != n) || (size u != n) ->
  panics (do! assert_len2 n v u in m).
Proof. by move=> h; apply: panics_assert_bind; rewrite negb_and. Qed.
End Vector.
