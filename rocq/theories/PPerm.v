(** * PPerm.v -- Permutations is the symmetric group. *)

From Coq Require Import ZArith Lia List.
From mathcomp Require Import all_ssreflect all_fingroup zify.
From Verif Require Import Rust Traits MInts MConstr Wp Spec PDefaults.

Set Implicit Arguments.
Unset Strict Implicit.
Unset Printing Implicit Defensive.

(** The vector lists the images of [0 .. n-1]. *)
Definition perm_rep (n : nat) (v : seq nat) (s : 'S_n) : Prop :=
  size v = n /\ forall i : 'I_n, nth 0 v i = s i.

Section Perm.
Variables (cfg : Cfg) (p : Prop) (n : nat).
Local Notation rep := (@perm_rep n).
Implicit Types (v u w : seq nat) (s t : 'S_n).

Lemma perm_rep_list v s : rep v s <-> v = [seq val (s i) | i <- enum 'I_n].
Proof.
split=> [[sv h]|->]; last first.
  split=> [|i]; first by rewrite size_map size_enum_ord.
  by rewrite (nth_map i) ?size_enum_ord // nth_ord_enum.
apply: (@eq_from_nth _ 0) => [|i]; first by rewrite sv size_map size_enum_ord.
rewrite sv => ni.
by rewrite (nth_map (Ordinal ni)) ?size_enum_ord // (nth_ord_enum (Ordinal ni) (Ordinal ni)) /= -(h (Ordinal ni)).
Qed.

Lemma perm_rep_fun v s t : rep v s -> rep v t -> s = t.
Proof. by move=> [_ h1] [_ h2]; apply/permP => i; apply: val_inj; rewrite /= -h1 -h2. Qed.

Lemma perm_rep_inj v u s : rep v s -> rep u s -> v = u.
Proof. by move=> /perm_rep_list -> /perm_rep_list ->. Qed.

Lemma perm_rep_lt v s a : rep v s -> a \in v -> (a < n)%N.
Proof. by move=> /perm_rep_list -> /mapP[i _ ->]; exact: ltn_ord. Qed.

Lemma perm_rep_uniq v s : rep v s -> uniq v.
Proof.
move=> /perm_rep_list ->; rewrite map_inj_uniq ?enum_uniq //.
exact: inj_comp val_inj perm_inj.
Qed.

(** A list of [n] distinct numbers below [n] is a permutation. *)
Lemma perm_repP v : (exists s, rep v s) <-> [/\ size v = n, uniq v & all (fun a => a < n) v].
Proof.
split=> [[s vs]|[sv uv /allP av]].
  split; [by case: vs|exact: perm_rep_uniq vs|].
  by apply/allP => a /(perm_rep_lt vs).
have lt (i : 'I_n) : (nth 0 v i < n)%N by apply: av; rewrite mem_nth // sv.
have inj : injective (fun i : 'I_n => Ordinal (lt i)).
  move=> i j /(congr1 val) /= /eqP; rewrite nth_uniq ?sv //.
  by move/eqP/val_inj.
by exists (perm inj); split=> // i; rewrite permE.
Qed.

(** ** contains *)

Lemma all_notin_cons a (seen v : seq nat) :
  all (fun b => b \notin a :: seen) v = (a \notin v) && all (fun b => b \notin seen) v.
Proof.
elim: v => [|b v IH] //=; rewrite IH !inE !negb_or [a == b]eq_sym.
by rewrite -!andbA; congr andb; rewrite andbCA.
Qed.

(** What the loop computes: it stops at the first repeated entry, and panics at
    the first entry out of range. *)
Lemma perm_contains_loop_ok v (seen : seq nat) (used : seq bool) :
  size used = n -> (forall i, (i < n)%N -> nth false used i = (i \in seen)) ->
  all (fun a => a < n) v ->
  perm_contains_loop v used = ret (uniq v && all (fun a => a \notin seen) v).
Proof.
elim: v seen used => [|a v IH] seen used su hu //= /andP[an av].
rewrite (vgetE false) ?su // bind_ret hu //.
case: ifP => ain /=; first by rewrite andbF.
rewrite (vsetE false) ?su // bind_ret (IH (a :: seen)) //.
- by congr ret; rewrite all_notin_cons; case: (uniq v); case: (a \in v).
- by rewrite size_set_nth su; apply/maxn_idPr.
- by move=> i ni; rewrite nth_set_nth /= inE; case: eqVneq => //= _; exact: hu.
Qed.

Lemma perm_contains_in_range v : all (fun a => a < n) v ->
  perm_contains n v = ret ((size v == n) && uniq v).
Proof.
move=> av; rewrite /perm_contains; case: eqVneq => //= sv.
rewrite (@perm_contains_loop_ok v [::]) ?size_nseq //.
  by rewrite (eq_all (a2 := xpredT)) ?all_predT ?andbT.
by move=> i ni; rewrite nth_nseq ni.
Qed.

Lemma perm_contains_loop_panics v (seen : seq nat) (used : seq bool) v1 a v2 :
  size used = n -> (forall i, (i < n)%N -> nth false used i = (i \in seen)) ->
  v = v1 ++ a :: v2 -> (n <= a)%N -> all (fun a => a < n) v1 -> uniq v1 ->
  all (fun a => a \notin seen) v1 -> panics (perm_contains_loop v used).
Proof.
elim: v1 v seen used => [|b v1 IH] v seen used su hu -> na /=.
  by move=> _ _ _; apply: panics_bind; apply: vget_panics; rewrite su.
move=> /andP[bn v1n] /andP[bv1 uv1] /andP[bs v1s].
rewrite (vgetE false) ?su // bind_ret hu // (negbTE bs).
rewrite (vsetE false) ?su // bind_ret.
apply: (IH _ (b :: seen)) => //.
- by rewrite size_set_nth su; apply/maxn_idPr.
- by move=> i ni; rewrite nth_set_nth /= inE; case: eqVneq => //= _; exact: hu.
- apply/allP => c cv; rewrite inE negb_or (allP v1s) // andbT.
  by apply: contraNneq bv1 => <-.
Qed.

Lemma perm_contains_panics v v1 a v2 : size v = n -> v = v1 ++ a :: v2 ->
  (n <= a)%N -> all (fun a => a < n) v1 -> uniq v1 -> panics (perm_contains n v).
Proof.
move=> sv vE na v1n uv1; rewrite /perm_contains sv eqxx.
apply: (@perm_contains_loop_panics v [::] _ v1 a v2) => //; first by rewrite size_nseq.
  by move=> i ni; rewrite nth_nseq ni.
exact/allP.
Qed.

(** On any input: the correct answer, or a panic. *)
Lemma perm_contains_loop_sound v (seen : seq nat) (used : seq bool) :
  size used = n -> (forall i, (i < n)%N -> nth false used i = (i \in seen)) ->
  ensures True (perm_contains_loop v used) (fun b =>
    b = [&& uniq v, all (fun a => a \notin seen) v & all (fun a => a < n) v]).
Proof.
elim: v seen used => [|a v IH] seen used su hu /=; first exact: ensures_ret.
case: (ltnP a n) => an; last first.
  by right; split=> //; apply: panics_bind; apply: vget_panics; rewrite su.
rewrite (vgetE false) ?su // bind_ret hu //.
case: ifP => ain /=; first by apply: ensures_ret; rewrite andbF.
rewrite (vsetE false) ?su // bind_ret.
apply: ensures_mono (IH (a :: seen) _ _ _) _.
- by rewrite size_set_nth su; apply/maxn_idPr.
- by move=> i ni; rewrite nth_set_nth /= inE; case: eqVneq => //= _; exact: hu.
by move=> b ->; rewrite all_notin_cons; case: (uniq v); case: (a \in v).
Qed.

Lemma perm_contains_exact : contains_exact True rep (perm_domain n).
Proof.
move=> v /=; rewrite /perm_contains; case: eqVneq => /= sv; last first.
  by apply: ensures_ret; split=> // -[s [sv' _]]; rewrite sv' eqxx in sv.
apply: ensures_mono (@perm_contains_loop_sound v [::] _ _ _) _.
- by rewrite size_nseq.
- by move=> i ni; rewrite nth_nseq ni.
move=> b ->; apply: iff_trans (iff_sym (perm_repP v)).
rewrite (eq_all (a1 := fun a => a \notin [::]) (a2 := xpredT)) // all_predT /=.
by split=> [/andP[]|[]] // _ -> ->.
Qed.

Lemma perm_domain_ok : domain_spec p rep (perm_domain n).
Proof.
split=> /=.
- exact: perm_rep_fun.
- move=> v s vs; have [sv uv av] := (perm_repP v).1 (ex_intro _ s vs).
  by rewrite perm_contains_in_range // sv eqxx uv; apply: ensures_ret.
- move=> v s u t vs ut; apply: ensures_ret; apply/eqP/eqP => [vu|st].
    by apply: perm_rep_fun vs _; rewrite vu.
  by apply: perm_rep_inj vs _; rewrite st.
Qed.

(** ** The group operations *)

Lemma debug_len_ok v (Q : unit -> Prop) : size v = n -> Q tt ->
  ensures p (debug_len cfg n v) Q.
Proof. by move=> sv q; apply: ensures_debug => //; apply: ensures_ret; rewrite sv eqxx. Qed.

Lemma perm_mul_loop_ok v u w i : size u = n -> all (fun a => a < n) v ->
  (i + size v <= size w)%N ->
  perm_mul_loop i v u w = ret (take i w ++ map (nth 0 u) v ++ drop (i + size v) w).
Proof.
move=> su; elim: v i w => [|a v IH] i w /=.
  by move=> _ _; rewrite addn0 cat_take_drop.
move=> /andP[an av] iw; have iw' : (i < size w)%N by lia.
rewrite (vgetE 0) ?su // bind_ret (vsetE 0) // bind_ret IH //.
  congr ret; rewrite (take_nth 0) ?size_set_nth; last by lia.
  rewrite nth_set_nth /= eqxx cat_rcons; congr (_ ++ _ :: _ ++ _).
    apply: (@eq_from_nth _ 0); rewrite !size_takel ?size_set_nth //; try lia.
    by move=> k ki; rewrite !nth_take // nth_set_nth /= ltn_eqF.
  apply: (@eq_from_nth _ 0); rewrite !size_drop size_set_nth; first by lia.
  by move=> k _; rewrite !nth_drop nth_set_nth /= gtn_eqF ?addSnnS //; lia.
by rewrite size_set_nth; lia.
Qed.

Lemma perm_compose v s u t : rep v s -> rep u t -> rep (map (nth 0 u) v) (s * t)%g.
Proof.
move=> [sv hv] [su hu]; split=> [|i]; first by rewrite size_map.
by rewrite (nth_map 0) ?sv // hv hu permM.
Qed.

Lemma perm_rep_all v s : rep v s -> all (fun a => a < n) v.
Proof. by move=> vs; apply/allP => a; exact: perm_rep_lt vs. Qed.

Lemma perm_mul_ok v s u t : rep v s -> rep u t -> gives p rep (perm_mul cfg n v u) (s * t)%g.
Proof.
move=> vs ut; have [sv _] := vs; have [su _] := ut.
apply: ensures_bind (debug_len_ok (Q := fun _ => True) sv I) _ => _ _.
apply: ensures_bind (debug_len_ok (Q := fun _ => True) su I) _ => _ _.
rewrite perm_mul_loop_ok ?size_nseq ?sv ?add0n //; last exact: perm_rep_all vs.
apply: ensures_ret; rewrite take0 drop_oversize ?size_nseq // cats0.
exact: perm_compose.
Qed.

Lemma perm_mul_assign_ok v s u t : rep v s -> rep u t ->
  gives p rep (perm_mul_assign cfg n v u) (s * t)%g.
Proof.
move=> vs ut; have [sv _] := vs; have [su _] := ut.
apply: ensures_bind (debug_len_ok (Q := fun _ => True) sv I) _ => _ _.
apply: ensures_bind (debug_len_ok (Q := fun _ => True) su I) _ => _ _.
have -> : mapM (vget u) v = ret (map (nth 0 u) v).
  have := perm_rep_all vs; elim: (v) => [|a w IH] //= /andP[an aw].
  by rewrite (vgetE 0) ?su // bind_ret IH.
by apply: ensures_ret; exact: perm_compose.
Qed.

Lemma perm_one_ok : gives p rep (perm_one n) 1%g.
Proof.
pose I k w := size w = n /\ forall i, (i < k)%N -> nth 0 w i = i.
have I0 : I 0 (nseq n 0) by rewrite /I size_nseq.
apply: ensures_mono (@ensures_for _ p 0 n _ _ I I0 _) _; last first.
  by rewrite add0n => w [sw h]; split=> // i; rewrite perm1 h.
move=> i w /andP[_]; rewrite add0n => ni [sw h].
rewrite (vsetE 0) ?sw //; apply: ensures_ret; split.
  by rewrite size_set_nth sw; apply/maxn_idPr.
move=> k; rewrite ltnS leq_eqVlt nth_set_nth /=.
by case: eqVneq => //= _; exact: h.
Qed.

Lemma perm_is_one_loop_ok v i : perm_is_one_loop i v = ret (v == iota i (size v)).
Proof.
elim: v i => [|a v IH] i //=; rewrite IH eqseq_cons [i == a]eq_sym.
by case: eqP.
Qed.

Lemma perm_is_one_ok v s : rep v s -> answers p (perm_is_one cfg n v) (s == 1%g).
Proof.
move=> vs; have [sv hv] := vs.
apply: ensures_bind (debug_len_ok (Q := fun _ => True) sv I) _ => _ _.
rewrite perm_is_one_loop_ok; apply: ensures_ret; apply/eqP/eqP => [vE|s1].
  by apply/permP => i; apply: val_inj; rewrite perm1 /= -hv vE sv nth_iota.
apply: (@eq_from_nth _ 0) => [|i]; rewrite ?size_iota // => iv.
rewrite nth_iota // add0n; move: iv; rewrite sv => ni.
by rewrite (hv (Ordinal ni)) s1 perm1.
Qed.

Lemma perm_inv_loop_ok v i w : size w = n -> uniq v -> all (fun a => a < n) v ->
  exists w', [/\ perm_inv_loop i v w = ret w', size w' = n,
    (forall k, (k < size v)%N -> nth 0 w' (nth 0 v k) = (i + k)%N) &
    forall a, a \notin v -> nth 0 w' a = nth 0 w a].
Proof.
elim: v i w => [|a v IH] i w sw /=; first by move=> _ _; exists w.
move=> /andP[av uv] /andP[an vn].
have sw' : size (set_nth 0 w a i) = n by rewrite size_set_nth sw; apply/maxn_idPr.
have [w' [h1 h2 h3 h4]] := IH i.+1 _ sw' uv vn.
exists w'; split=> //.
- by rewrite (vsetE 0) ?sw // bind_ret.
- move=> [|k] /=; first by rewrite h4 // nth_set_nth /= eqxx addn0.
  by move=> kv; rewrite h3 // addSnnS.
- move=> b; rewrite inE negb_or => /andP[ba bv].
  by rewrite h4 // nth_set_nth /= (negbTE ba).
Qed.

Lemma perm_try_inv_ok v s : rep v s ->
  ensures p (perm_try_inv cfg n v) (fun o => exists2 w, o = Some w & rep w s^-1%g).
Proof.
move=> vs; have [sv hv] := vs.
apply: ensures_bind (debug_len_ok (Q := fun _ => True) sv I) _ => _ _.
have sn : size (nseq n 0) = n by rewrite size_nseq.
have [w [-> sw h _]] := perm_inv_loop_ok 0 sn (perm_rep_uniq vs) (perm_rep_all vs).
rewrite bind_ret; apply: ensures_ret; exists w => //; split=> // i.
have -> : (i : nat) = nth 0 v (s^-1 i)%g by rewrite hv permKV.
by rewrite h ?sv // add0n.
Qed.

Lemma Permutations_ok : group_alg_spec cfg p rep mulg 1%g invg (Permutations cfg n).
Proof.
have hi v s : rep v s -> gives p rep (default_ginv (perm_try_inv cfg n) v) s^-1%g.
  move=> vs; apply: ensures_bind (perm_try_inv_ok vs) _ => _ [w -> wE].
  exact: ensures_unwrap.
split; first split.
- exact: perm_domain_ok.
- split=> /=; [exact: perm_mul_ok|exact: perm_mul_assign_ok|].
  by move=> v s vs; exact: perm_mul_ok.
- split=> /=; [exact: perm_one_ok|exact: perm_is_one_ok| |].
  + move=> v s vs; apply: ensures_mono (perm_try_inv_ok vs) _ => _ [w -> wE].
    by exists s^-1%g => //; split; rewrite ?mulgV ?mulVg.
  + move=> v s vs; apply: ensures_ret; split=> // _; exists s^-1%g.
    by split; rewrite ?mulgV ?mulVg.
- split=> //= k v s gk vs.
  apply: (default_gpower_ok (@mulgA _) (@mul1g _) (@mulg1 _)) => //.
  + by move=> *; exact: perm_mul_assign_ok.
  + by move=> *; exact: perm_mul_ok.
  + exact: perm_one_ok.
  + exact: hi.
Qed.
End Perm.
