(** * PTrans.v -- the methods of Permutations on arbitrary vectors. *)

From Coq Require Import ZArith Lia List.
From mathcomp Require Import all_ssreflect all_fingroup zify.
From Verif Require Import Rust Traits MInts MConstr Wp Spec PDefaults PPerm TransSpec.

Set Implicit Arguments.
Unset Strict Implicit.
Unset Printing Implicit Defensive.

Section Trans.
Variables (cfg : Cfg) (n : nat).
Implicit Types v u w : seq nat.
Local Notation ok := (length_passes cfg n).

Lemma debug_lenE v : debug_len cfg n v = if ok v then ret tt else panic.
Proof.
rewrite /debug_len /debug_assert /length_passes; by case: (debug_assertions cfg).
Qed.

Lemma panics_panic A : panics (@panic A).
Proof. by exists 0. Qed.

Lemma bind_panic A B (f : A -> M B) : panics (bind panic f).
Proof. by exists 0. Qed.

Lemma mul_loop_returns v u w i : positions (size u) v -> (i + size v <= size w)%N ->
  perm_mul_loop i v u w = ret (take i w ++ map (nth 0 u) v ++ drop (i + size v) w).
Proof. by move=> av iw; apply: (@perm_mul_loop_ok (size u)). Qed.

Lemma mul_loop_panics v u w i : (i <= size w)%N ->
  ~~ ((i + size v <= size w)%N && positions (size u) v) -> panics (perm_mul_loop i v u w).
Proof.
elim: v i w => [|a v IH] i w /= iw; first by rewrite addn0 iw.
case: (ltnP a (size u)) => au; last by move=> _; apply/panics_bind/vget_panics.
rewrite (vgetE 0) // bind_ret /=.
case: (ltnP i (size w)) => iw'; last by move=> _; apply/panics_bind/vset_panics.
rewrite (vsetE 0) // bind_ret => h.
have sw : size (set_nth 0 w i (nth 0 u a)) = size w by rewrite size_set_nth; apply/maxn_idPr.
by apply: IH; rewrite sw // addSnnS.
Qed.

Lemma mul_any v u :
  if [&& ok v, ok u, size v <= n & positions (size u) v]
  then returns (perm_mul cfg n v u) (then_ v u ++ nseq (n - size v) 0)
  else panics (perm_mul cfg n v u).
Proof.
rewrite /perm_mul !debug_lenE; case: (ok v) => /=; last exact: bind_panic.
rewrite bind_ret; case: (ok u) => /=; last exact: bind_panic.
rewrite bind_ret; case: ifP => [/andP[vn au]|/negbT h].
  rewrite mul_loop_returns ?size_nseq // take0 drop_nseq; exact: returns_ret.
by apply: mul_loop_panics; rewrite ?size_nseq.
Qed.

Lemma mapM_vget v u :
  if positions (size u) v then mapM (vget u) v = ret (then_ v u) else panics (mapM (vget u) v).
Proof.
elim: v => [|a v IH] //=; case: (ltnP a (size u)) => au /=; last first.
  by apply/panics_bind/vget_panics.
rewrite (vgetE 0) // bind_ret; case: ifP IH => _; first by move=> ->.
by move=> h; apply: panics_bind.
Qed.

Lemma mul_assign_any v u :
  if [&& ok v, ok u & positions (size u) v]
  then returns (perm_mul_assign cfg n v u) (then_ v u)
  else panics (perm_mul_assign cfg n v u).
Proof.
rewrite /perm_mul_assign !debug_lenE; case: (ok v) => /=; last exact: bind_panic.
rewrite bind_ret; case: (ok u) => /=; last exact: bind_panic.
rewrite bind_ret; have := mapM_vget v u; case: ifP => // _ ->; exact: returns_ret.
Qed.

Lemma one_any : returns (perm_one n) (iota 0 n).
Proof.
have [[w [rw /perm_rep_list wE]]|[//]] := @perm_one_ok False n.
suff <- : w = iota 0 n by [].
rewrite {}wE; apply: (@eq_from_nth _ 0); rewrite size_map size_enum_ord ?size_iota // => i ni.
rewrite (nth_map (Ordinal ni)) ?size_enum_ord // perm1 nth_iota //.
by rewrite (nth_ord_enum (Ordinal ni) (Ordinal ni)).
Qed.

Lemma is_one_any v :
  if ok v then returns (perm_is_one cfg n v) (v == iota 0 (size v))
  else panics (perm_is_one cfg n v).
Proof.
rewrite /perm_is_one debug_lenE; case: (ok v) => /=; last exact: bind_panic.
rewrite bind_ret perm_is_one_loop_ok; exact: returns_ret.
Qed.

(** The loop of try_inv, for the rest [v] of the vector. *)
Lemma inv_loop_any v i w : size w = n ->
  if positions n v then exists2 w', perm_inv_loop i v w = ret w' &
    size w' = n /\ forall a, (a < n)%N -> if a \in v then
      exists k, [/\ (k < size v)%N, nth 0 w' a = i + k, nth 0 v k = a &
        forall j, (k < j < size v)%N -> nth 0 v j <> a]
      else nth 0 w' a = nth 0 w a
  else panics (perm_inv_loop i v w).
Proof.
elim: v i w => [|b v IH] i w sw /=; first by exists w.
case: (ltnP b n) => bn /=; last by apply/panics_bind/vset_panics; rewrite sw.
rewrite (vsetE 0) ?sw // bind_ret.
have sw' : size (set_nth 0 w b i) = n by rewrite size_set_nth sw; apply/maxn_idPr.
have := IH i.+1 _ sw'; case: ifP => // _ [w' -> [s' h]]; exists w' => //; split=> // a an.
have := h a an; rewrite inE; case: ifP => av.
  rewrite orbT => -[k [kv wk vk hk]]; exists k.+1; split=> //=; first by rewrite wk addSnnS.
  by case=> [|j] //=; rewrite !ltnS; exact: hk.
rewrite orbF nth_set_nth /= => ->; case: eqVneq => // ab; exists 0; rewrite addn0; split=> //=.
by case=> // j /=; rewrite ltnS => jv e; rewrite -e mem_nth // in av.
Qed.

Lemma try_inv_any v :
  if ok v && positions n v
  then exists2 w, last_places n v w & returns (perm_try_inv cfg n v) (Some w)
  else panics (perm_try_inv cfg n v).
Proof.
rewrite /perm_try_inv debug_lenE; case: (ok v) => /=; last exact: bind_panic.
rewrite bind_ret; have := @inv_loop_any v 0 (nseq n 0) (size_nseq _ _).
case: ifP => _; last by move=> h; exact: panics_bind.
move=> [w -> [sw h]]; exists w; last by rewrite bind_ret; exact: returns_ret.
split=> // a an; have := h a an; case: ifP => _; last by rewrite nth_nseq an.
by move=> [k [kv -> vk hk]].
Qed.

Lemma inv_any v :
  if ok v && positions n v
  then exists2 w, last_places n v w & returns (default_ginv (perm_try_inv cfg n) v) w
  else panics (default_ginv (perm_try_inv cfg n) v).
Proof.
have := try_inv_any v; case: ifP => _; last by move=> h; exact: panics_bind.
move=> [w lw rw]; exists w => //; apply: returns_bind rw _; exact: returns_ret.
Qed.

Lemma any_vectors_ok : any_vectors cfg n (Permutations cfg n).
Proof.
split=> /=; try by move=> *; exact: returns_ret.
- exact: mul_any.
- exact: mul_assign_any.
- move=> v; have := mul_any v v; rewrite andbA andbb; exact.
- exact: one_any.
- exact: is_one_any.
- exact: try_inv_any.
- exact: inv_any.
Qed.

(** ** Transformations *)

Lemma trans_ok v : transformation n v -> ok v.
Proof. by case=> sv _; rewrite /length_passes sv eqxx implybT. Qed.

Lemma trans_nth v i : transformation n v -> (i < n)%N -> (nth 0 v i < n)%N.
Proof. by move=> [sv /allP av] ni; apply: av; rewrite mem_nth ?sv. Qed.

Lemma then_nth v u i : (i < size v)%N -> nth 0 (then_ v u) i = nth 0 u (nth 0 v i).
Proof. by move=> iv; rewrite (nth_map 0). Qed.

Lemma then_trans v u : transformation n v -> transformation n u -> transformation n (then_ v u).
Proof.
move=> tv tu; have [sv /allP av] := tv; split; first by rewrite size_map.
by apply/allP => a /mapP[b bv ->]; apply: trans_nth => //; apply: av.
Qed.

Lemma iota_trans : transformation n (iota 0 n).
Proof. by split; [rewrite size_iota|apply/allP => a; rewrite mem_iota]. Qed.

Lemma trans_mul v u : transformation n v -> transformation n u ->
  returns (perm_mul cfg n v u) (then_ v u) /\ returns (perm_mul_assign cfg n v u) (then_ v u).
Proof.
move=> tv tu; have := mul_any v u; have := mul_assign_any v u.
case: (tv) (tu) => sv av [su _]; rewrite !trans_ok // su av sv leqnn subnn cats0 /=.
by split.
Qed.

Lemma trans_try_inv v : transformation n v -> exists2 w, transformation n w &
  [/\ returns (perm_try_inv cfg n v) (Some w), returns (default_ginv (perm_try_inv cfg n) v) w &
      forall i, (i < n)%N -> nth 0 v (nth 0 w (nth 0 v i)) = nth 0 v i].
Proof.
move=> tv; have := try_inv_any v; case: (tv) => sv av; rewrite trans_ok // av /=.
move=> [w [sw h] rw]; exists w.
  split=> //; apply/(all_nthP 0) => a; rewrite sw => an; have := h a an.
  by case: ifP => [_ [+ _ _]|_ ->]; rewrite ?sv //; apply: leq_trans an.
split=> //; first by apply: returns_bind rw _; exact: returns_ret.
move=> i ni; have := h _ (trans_nth tv ni).
by rewrite mem_nth ?sv // => -[].
Qed.

(** Powers, by the general lemma on square and multiply. *)
Local Notation map_ := {ffun 'I_n -> 'I_n}.
Definition trans_rep v (f : map_) : Prop := size v = n /\ forall i : 'I_n, nth 0 v i = f i.
Definition map_then (f g : map_) : map_ := [ffun i => g (f i)].
Definition map_id : map_ := [ffun i => i].

Lemma trans_repP v : transformation n v -> exists f, trans_rep v f.
Proof.
move=> tv; have [sv _] := tv.
exists [ffun i : 'I_n => Ordinal (trans_nth tv (ltn_ord i))]; split=> // i.
by rewrite ffunE.
Qed.

Lemma rep_trans v f : trans_rep v f -> transformation n v.
Proof.
move=> [sv h]; split=> //; apply/(all_nthP 0) => i; rewrite sv => ni.
by rewrite (h (Ordinal ni)).
Qed.

Lemma map_thenA : associative map_then.
Proof. by move=> f g h; apply/ffunP => i; rewrite !ffunE. Qed.
Lemma map_id_then : left_id map_id map_then.
Proof. by move=> f; apply/ffunP => i; rewrite !ffunE. Qed.
Lemma map_then_id : right_id map_id map_then.
Proof. by move=> f; apply/ffunP => i; rewrite !ffunE. Qed.

Lemma then_rep v f u g : trans_rep v f -> trans_rep u g -> trans_rep (then_ v u) (map_then f g).
Proof.
move=> [sv hv] [su hu]; split=> [|i]; first by rewrite size_map.
by rewrite then_nth ?sv // hv hu ffunE.
Qed.

Lemma npow_map (f : map_) k i : npow map_then map_id f k i = iter k f i.
Proof.
rewrite /npow; elim: k i => [|k IH] i /=; first by rewrite ffunE.
by rewrite ffunE IH -iterSr.
Qed.

Lemma iter_rep v f k (i : 'I_n) : trans_rep v f -> iter k (nth 0 v) i = iter k f i.
Proof. by move=> [sv h]; elim: k => //= k ->; rewrite h. Qed.

Lemma trans_power v f u g k : trans_rep v f -> trans_rep u g ->
  returns (default_ginv (perm_try_inv cfg n) v) u -> good_isize cfg k ->
  exists2 w, trans_rep w (zpow map_then map_id (fun=> g) f k) &
    returns (gpower (Permutations cfg n) k v) w.
Proof.
move=> vf ug ru gk.
have mulok x f1 y f2 : trans_rep x f1 -> trans_rep y f2 ->
    gives False trans_rep (perm_mul_assign cfg n x y) (map_then f1 f2).
  move=> xf yf; left; exists (then_ x y); split; last exact: then_rep.
  by have [] := trans_mul (rep_trans xf) (rep_trans yf).
have sqok x f1 : trans_rep x f1 ->
    gives False trans_rep (square (perm_semigroup cfg n) x) (map_then f1 f1).
  move=> xf; left; exists (then_ x x); split; last exact: then_rep.
  by have [] := trans_mul (rep_trans xf) (rep_trans xf).
have oneok : gives False trans_rep (perm_one n) map_id.
  left; exists (iota 0 n); split; first exact: one_any.
  by split=> [|i]; rewrite ?size_iota // nth_iota // ffunE.
have invok : trans_rep v f ->
    gives False trans_rep (default_ginv (perm_try_inv cfg n) v) ((fun=> g) f).
  by move=> _; left; exists u.
have := default_gpower_ok map_thenA map_id_then map_then_id mulok sqok oneok invok gk vf.
by case=> [[w [rw wk]]|[]] //; exists w.
Qed.

Lemma transformations_ok : transformations cfg n (Permutations cfg n).
Proof.
split.
- exists (iota 0 n); first exact: iota_trans.
  by split=> [|i ni]; [exact: one_any|rewrite nth_iota].
- move=> v u tv tu; exists (then_ v u); first exact: then_trans.
  have [h1 h2] := trans_mul tv tu; split=> // i ni.
  by rewrite then_nth //; case: tv => ->.
- move=> v tv; have := is_one_any v; rewrite trans_ok // => h; exists (v == iota 0 (size v)) => //.
  have [sv _] := tv; rewrite sv; split=> [/eqP -> i ni|vE]; first by rewrite nth_iota.
  apply/eqP/(@eq_from_nth _ 0); rewrite ?size_iota sv // => i ni.
  by rewrite nth_iota // vE.
- exact: trans_try_inv.
- move=> v k tv k0 gk; have [u tu [_ ru _]] := trans_try_inv tv.
  have [f vf] := trans_repP tv; have [g ug] := trans_repP tu.
  have [w wk rw] := trans_power vf ug ru gk; exists w; first exact: rep_trans wk.
  split=> // i ni; case: wk => _ /(_ (Ordinal ni)) /= ->.
  rewrite -[i]/(val (Ordinal ni)) (iter_rep _ _ vf).
  case: (k) k0 => //= [|m] _; first by rewrite ffunE.
  by rewrite npow_map.
- move=> v u k tv tiu k0 gk; have [u' tu [tiu' ru _]] := trans_try_inv tv.
  have [uE] := returns_det tiu tiu'; subst u'.
  have [f vf] := trans_repP tv; have [g ug] := trans_repP tu.
  have [w wk rw] := trans_power vf ug ru gk; exists w; first exact: rep_trans wk.
  split=> // i ni; case: wk => _ /(_ (Ordinal ni)) /= ->.
  rewrite -[i]/(val (Ordinal ni)) (iter_rep _ _ ug).
  by case: (k) k0 => //= m _; rewrite npow_map.
Qed.

(** The result of try_inv is an inverse of permutations only. *)
Lemma trans_inverse v w : transformation n v -> returns (try_inv (Permutations cfg n) v) (Some w) ->
  returns (mul (Permutations cfg n) v w) (iota 0 n) <-> uniq v.
Proof.
move=> tv rw; have [w' tw [rw' _ h]] := trans_try_inv tv.
have [wE] := returns_det rw rw'; subst w'; have [sv _] := tv.
have [rm _] := trans_mul tv tw; split=> [rm'|uv].
  have e := returns_det rm rm'; apply/(uniqP 0) => i j; rewrite !inE sv => ni nj vij.
  have nthE k : (k < n)%N -> k = nth 0 w (nth 0 v k).
    by move=> nk; rewrite -then_nth ?sv // e nth_iota.
  by rewrite (nthE i ni) (nthE j nj) vij.
suff <- : then_ v w = iota 0 n by [].
apply: (@eq_from_nth _ 0); rewrite size_map ?size_iota // sv => i ni.
rewrite then_nth ?sv // nth_iota // add0n.
apply/eqP; rewrite -(nth_uniq 0 _ _ uv) ?sv ?h //.
by rewrite trans_nth // trans_nth.
Qed.

End Trans.
