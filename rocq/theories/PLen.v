(** * PLen.v -- matrices and vectors of a wrong length. *)

From Coq Require Import ZArith Lia List.
From mathcomp Require Import all_ssreflect zify.
From Verif Require Import Rust Traits MInts MConstr RingSpec LenSpec Wp PMatProps.

Set Implicit Arguments.
Unset Strict Implicit.
Unset Printing Implicit Defensive.

(** ** Running in lockstep: the same outcome for every bound, up to a relation *)
Definition lock A B (R : A -> B -> Prop) (m : M A) (m' : M B) : Prop :=
  forall k, match m k, m' k with
            | Done a, Done b => R a b
            | Panicked, Panicked => True
            | Unfinished, Unfinished => True
            | _, _ => False
            end.

Section Lock.
Implicit Types A B C D S T : Type.

Lemma lock_ret A B (R : A -> B -> Prop) a b : R a b -> lock R (ret a) (ret b).
Proof. by move=> h k. Qed.
Lemma lock_panic A B (R : A -> B -> Prop) : lock R panic panic.
Proof. by move=> k. Qed.
Lemma lock_refl A (m : M A) : lock eq m m.
Proof. by move=> k; case: (m k). Qed.
Lemma lock_eq A (m m' : M A) : lock eq m m' -> m =1 m'.
Proof. by move=> h k; have := h k; case: (m k) => [a||]; case: (m' k) => // b ->. Qed.
Lemma lock_bind A B C D (R : A -> B -> Prop) (Q : C -> D -> Prop) m m' f f' :
  lock R m m' -> (forall a b, R a b -> lock Q (f a) (f' b)) -> lock Q (bind m f) (bind m' f').
Proof.
move=> h hf k; rewrite /bind; have := h k; case: (m k) => [a||]; case: (m' k) => [b||] //.
by move=> r; exact: hf r k.
Qed.
Lemma lock_same A C D (Q : C -> D -> Prop) (m : M A) f f' :
  (forall a, lock Q (f a) (f' a)) -> lock Q (bind m f) (bind m f').
Proof. by move=> hf; apply: lock_bind (@lock_refl _ m) _ => a _ <-. Qed.
Lemma lock_for S T (R : S -> T -> Prop) lo cnt b b' s t :
  (forall i s t, (lo <= i < lo + cnt)%N -> R s t -> lock R (b i s) (b' i t)) -> R s t ->
  lock R (for_loop lo cnt b s) (for_loop lo cnt b' t).
Proof.
elim: cnt lo s t => [|c IH] lo s t h r //=; apply: lock_bind.
  by apply: h r; lia.
by move=> s' t' r'; apply: IH r' => i s1 t1 hi; apply: h; lia.
Qed.
Definition lock_sum S T C (R : S -> T -> Prop) (x : S + C) (y : T + C) : Prop :=
  match x, y with inl s, inl t => R s t | inr c, inr d => c = d | _, _ => False end.
Lemma lock_for_ret S T C (R : S -> T -> Prop) lo cnt (b : nat -> S -> M (S + C)) b' s t :
  (forall i s t, (lo <= i < lo + cnt)%N -> R s t -> lock (lock_sum R) (b i s) (b' i t)) ->
  R s t -> lock (lock_sum R) (for_loop_ret lo cnt b s) (for_loop_ret lo cnt b' t).
Proof.
elim: cnt lo s t => [|c IH] lo s t h r //=; apply: lock_bind.
  by apply: h r; lia.
move=> [s'|x] [t'|y] //= r'; last by rewrite r'.
by apply: IH r' => i s1 t1 hi; apply: h; lia.
Qed.
Lemma lock_findM lo cnt (f f' : nat -> M bool) :
  (forall i, (lo <= i < lo + cnt)%N -> f i =1 f' i) ->
  lock (fun o o' => o = o' /\ forall r, o = Some r -> (lo <= r < lo + cnt)%N)
    (findM lo cnt f) (findM lo cnt f').
Proof.
elim: cnt lo => [|c IH] lo h //=; apply: (@lock_bind _ _ _ _ eq).
  move=> k; rewrite -h; first by case: (f lo k).
  by lia.
move=> [] _ <-; first by apply: lock_ret; split=> // r [<-]; lia.
move=> k; have := IH lo.+1; have hh : forall i, (lo.+1 <= i < lo.+1 + c)%N -> f i =1 f' i.
  by move=> i hi; apply: h; lia.
move/(_ hh k); case: findM => [o||]; case: findM => [o'||] // [-> h']; split=> // r /h'; lia.
Qed.
End Lock.

(** ** Vectors that are too long *)
Section Longer.
Variables (cfg : Cfg) (E : Type) (A : FieldAlg E) (n : nat) (w : seq E).
Implicit Types v u : seq E.

(** The second vector is the first one followed by [w]. *)
Definition longer v v' : Prop := size v = (n * n)%N /\ v' = v ++ w.

Lemma entry_lt row col : (row < n)%N -> (col < n)%N -> (row * n + col < n * n)%N.
Proof.
move=> rn cn; apply: (@leq_trans (row.+1 * n)); first by rewrite mulSn addnC ltn_add2r.
by rewrite leq_mul2r rn orbT.
Qed.
Lemma row_le row : (row < n)%N -> (row * n + n <= n * n)%N.
Proof. by move=> rn; rewrite addnC -mulSn leq_mul2r rn orbT. Qed.

Lemma vget_cat v i : (i < size v)%N -> vget (v ++ w) i = vget v i.
Proof.
case: v => [|x0 v] // hi; rewrite !(vgetE x0) ?nth_cat ?hi //.
by rewrite size_cat; exact: leq_trans hi (leq_addr _ _).
Qed.
Lemma vset_cat v i x : (i < size v)%N -> vset (v ++ w) i x = (let! u := vset v i x in ret (u ++ w))%rust.
Proof.
move=> hi; rewrite /vset size_cat hi ifT; last by lia.
rewrite takel_cat ?(ltnW hi) // /bind /ret /= -catA cat_cons drop_cat; case: ltnP => h //.
by rewrite (_ : i.+1 = size v) ?subnn ?drop0 ?drop_size //; lia.
Qed.
Lemma lock_vget v v' i : longer v v' -> (i < n * n)%N -> lock eq (vget v i) (vget v' i).
Proof. by move=> [sv ->] hi; rewrite vget_cat ?sv //; exact: lock_refl. Qed.
Lemma lock_vset v v' i x : longer v v' -> (i < n * n)%N ->
  lock longer (vset v i x) (vset v' i x).
Proof.
move=> [sv ->] hi; rewrite vset_cat ?sv // /vset sv hi => k /=; split=> //.
by rewrite size_cat /= size_takel ?size_drop; lia.
Qed.

Lemma lock_add_rows v v' row1 row2 c : longer v v' -> (row1 < n)%N -> (row2 < n)%N ->
  lock longer (add_rows A n v row1 row2 c) (add_rows A n v' row1 row2 c).
Proof.
move=> l h1 h2; apply: lock_for l => i u u' hi l.
apply: lock_bind (lock_vget l _) _; first by apply: entry_lt; lia.
move=> x _ <-; apply: lock_same => y.
apply: lock_bind (lock_vget l _) _; first by apply: entry_lt; lia.
by move=> z _ <-; apply: lock_same => z'; apply: lock_vset => //; apply: entry_lt; lia.
Qed.

Lemma lock_swap_rows v v' row1 row2 : longer v v' -> (row1 < n)%N -> (row2 < n)%N ->
  lock longer (swap_rows n v row1 row2) (swap_rows n v' row1 row2).
Proof.
move=> l h1 h2; apply: lock_for l => i u u' hi l; rewrite /vswap.
apply: lock_bind (lock_vget l _) _; first by apply: entry_lt; lia.
move=> x _ <-; apply: lock_bind (lock_vget l _) _; first by apply: entry_lt; lia.
move=> y _ <-; apply: (@lock_bind _ _ _ _ longer); first by apply: lock_vset => //; apply: entry_lt; lia.
by move=> u1 u1' l1; apply: lock_vset => //; apply: entry_lt; lia.
Qed.

Lemma size_mapM B C (f : B -> M C) s k t : mapM f s k = Done t -> size t = size s.
Proof.
elim: s t => [|x s IH] t /=; first by case=> <-.
rewrite /bind; case: (f x k) => // y; case e: (mapM f s k) => [t'||] // [<-] /=.
by rewrite (IH _ e).
Qed.

Lemma lock_mul_row v v' row c : longer v v' -> (row < n)%N ->
  lock longer (mul_row A n v row c) (mul_row A n v' row c).
Proof.
move=> [sv ->] hr; have rl := row_le hr; rewrite /mul_row size_cat sv.
have -> : take n (drop (row * n) (v ++ w)) = take n (drop (row * n) v).
  rewrite drop_cat sv; case: ltnP => h; first by rewrite takel_cat // size_drop sv; lia.
  have n0 : n = 0%N by lia.
  by rewrite n0 !take0.
have -> : take (row * n) (v ++ w) = take (row * n) v by rewrite takel_cat // sv; lia.
have -> : drop (row * n + n) (v ++ w) = drop (row * n + n) v ++ w.
  rewrite drop_cat sv; case: ltnP => h //.
  by rewrite (_ : row * n + n = size v)%N ?sv ?subnn ?drop0 -?sv ?drop_size //; lia.
rewrite /assert !ifT; try by lia.
move=> k; rewrite /bind /ret; case e: (mapM _ _ k) => [s||] //; split; last by rewrite !catA.
rewrite !size_cat (size_mapM e) !size_takel ?size_drop ?sv; try by move: rl; clear; lia.
Qed.

Lemma lock_find_row v v' col : longer v v' -> (col < n)%N ->
  lock (fun o o' => o = o' /\ forall r, o = Some r -> (r < n)%N)
    (find_row A n v col) (find_row A n v' col).
Proof.
move=> [sv ->] hc k.
have h : forall i, (col <= i < col + (n - col))%N ->
    (let! x := vget v (i * n + col) in notM (is_zero A x))%rust =1
    (let! x := vget (v ++ w) (i * n + col) in notM (is_zero A x))%rust.
  by move=> i hi; rewrite vget_cat // sv; apply: entry_lt; lia.
have := lock_findM h k; rewrite /find_row.
by case: findM => [o||]; case: findM => [o'||] // [-> h']; split=> // r /h'; lia.
Qed.

Lemma lock_clear_below v v' col : longer v v' -> (col < n)%N ->
  lock longer (det_clear_below A n v col) (det_clear_below A n v' col).
Proof.
move=> l hc; apply: lock_for l => i u u' hi l.
apply: lock_bind (lock_vget l _) _; first by apply: entry_lt; lia.
move=> x _ <-; apply: lock_same => -[]; first exact: lock_ret.
by apply: lock_same => y; apply: lock_add_rows => //; lia.
Qed.

Lemma det_longer v : size v = (n * n)%N -> determinant A n (v ++ w) =1 determinant A n v.
Proof.
move=> sv; apply: fsym; apply: lock_eq; apply: lock_same => d.
apply: (@lock_bind _ _ _ _ (lock_sum (fun s t => longer s.1 t.1 /\ s.2 = t.2))).
  apply: lock_for_ret => // i [u e] [u' e'] hi [/= l <-] {e'}.
  apply: lock_bind (lock_find_row l _) _; first by lia.
  move=> [r|] _ [<- hr]; last by apply: lock_same => z; exact: lock_ret.
  have {}hr := hr _ erefl.
  apply: (@lock_bind _ _ _ _ longer).
    by case: ifP => _; [apply: lock_swap_rows => //; lia|exact: lock_ret].
  move=> {l}u1 u1' l; apply: lock_bind (lock_vget l _) _; first by apply: entry_lt; lia.
  move=> c _ <-; apply: lock_same => e1; apply: lock_same => c1.
  apply: lock_bind (lock_mul_row _ l _) _; first by lia.
  move=> {l}u2 u2' l; apply: lock_bind (lock_clear_below l _) _; first by lia.
  by move=> u3 u3' l3; apply: lock_ret.
by move=> [[u e]|z] [[u' e']|z'] //= => [[_ <-]|<-]; exact: lock_refl.
Qed.

Lemma invertible_longer v : size v = (n * n)%N ->
  matrix_invertible A n (v ++ w) =1 matrix_invertible A n v.
Proof.
by move=> sv k; rewrite /matrix_invertible /bind det_longer.
Qed.

(** The loop of try_inv. *)
Definition inv_loop v invs : M (seq E * seq E + unit) :=
  for_loop_ret 0 n (fun col vi =>
    let '(v, invs) := vi in
    let! o := find_row A n v col in
    if o is Some row then
      let! vi :=
        (if row != col then
           let! v := swap_rows n v col row in
           let! invs := swap_rows n invs col row in
           ret (v, invs)
         else ret (v, invs)) in
      let '(v, invs) := vi in
      let! x := vget v (col * n + col) in
      let! coef := finv A x in
      let! v := mul_row A n v col coef in
      let! invs := mul_row A n invs col coef in
      let! vi := inv_clear_others A n (v, invs) col in
      ret (inl vi)
    else ret (inr tt))%rust (v, invs).
Definition inv_end (r : seq E * seq E + unit) : M (option (seq E)) :=
  (match r with
  | inr _ => ret None
  | inl (v, invs) =>
      do! debug_assert cfg (matrix_is_one A n v) in
      ret (Some invs)
  end)%rust.
Lemma try_invE v : matrix_try_inv cfg A n v =
  (let! invs := matrix_one A n in let! r := inv_loop v invs in inv_end r)%rust.
Proof. by []. Qed.

Definition both_longer (s t : seq E * seq E) : Prop := longer s.1 t.1 /\ s.2 = t.2.

Lemma lock_clear_others v v' invs col : longer v v' -> (col < n)%N ->
  lock both_longer (inv_clear_others A n (v, invs) col) (inv_clear_others A n (v', invs) col).
Proof.
move=> l hc; apply: lock_for => // i [u e] [u' e'] hi [/= {}l <-] {e'}.
case: ifP => _; first exact: lock_ret.
apply: lock_bind (lock_vget l _) _; first by apply: entry_lt; lia.
move=> x _ <-; apply: lock_same => -[]; first exact: lock_ret.
apply: lock_same => y; apply: lock_bind (lock_add_rows _ l _ _) _; try by lia.
by move=> u1 u1' l1; apply: lock_same => e1; exact: lock_ret.
Qed.

Lemma lock_inv_loop v invs : size v = (n * n)%N ->
  lock (lock_sum both_longer) (inv_loop v invs) (inv_loop (v ++ w) invs).
Proof.
move=> sv; apply: lock_for_ret => // i [u e] [u' e'] hi [/= l <-] {e'}.
apply: lock_bind (lock_find_row l _) _; first by lia.
move=> [r|] _ [<- hr]; last exact: lock_ret.
have {}hr := hr _ erefl.
apply: (@lock_bind _ _ _ _ both_longer).
  case: ifP => _; last exact: lock_ret.
  apply: lock_bind (lock_swap_rows l _ _) _; try by lia.
  by move=> u1 u1' l1; apply: lock_same => e1; exact: lock_ret.
move=> {e l} [u1 e] [u1' e'] [/= l <-] {e'}.
apply: lock_bind (lock_vget l _) _; first by apply: entry_lt; lia.
move=> c _ <-; apply: lock_same => c1.
apply: lock_bind (lock_mul_row _ l _) _; first by lia.
move=> {l}u2 u2' l; apply: lock_same => e1.
apply: lock_bind (lock_clear_others _ l _) _; first by lia.
by move=> s t h; exact: lock_ret.
Qed.

Lemma try_inv_longer v : size v = (n * n)%N -> w <> [::] ->
  [/\ debug_assertions cfg = false -> matrix_try_inv cfg A n (v ++ w) =1 matrix_try_inv cfg A n v,
      returns (matrix_try_inv cfg A n v) None ->
        returns (matrix_try_inv cfg A n (v ++ w)) None &
      debug_assertions cfg -> forall u, returns (matrix_try_inv cfg A n v) (Some u) ->
        panics (matrix_try_inv cfg A n (v ++ w))].
Proof.
move=> sv wn; split.
- move=> dbg; apply: fsym; apply: lock_eq; rewrite !try_invE; apply: lock_same => invs.
  apply: lock_bind (lock_inv_loop _ sv) _ => -[[u e]|[]] [[u' e']|[]] //=.
  by move=> [_ /= <-]; rewrite /debug_assert dbg; exact: lock_refl.
- move=> [k h]; exists k => k' hk; have := h k' hk; rewrite !try_invE /bind.
  case: (matrix_one A n k') => // invs; have := lock_inv_loop invs sv k'.
  case: inv_loop => // -[[u e]|[]]; case: inv_loop => // -[[u' e']|[]] //= _.
  by rewrite /bind; case: debug_assert.
move=> dbg u [k h]; exists k => k' hk; have := h k' hk; rewrite !try_invE /bind.
case one: (matrix_one A n k') => [invs||] //; have := lock_inv_loop invs sv k'.
case: inv_loop => // -[[u1 e]|[]]; case: inv_loop => // -[[u' e']|[]] //= [[/= s1 ->] _] _.
rewrite /debug_assert dbg /matrix_is_one /default_is_one /bind /= one /bind /assert.
rewrite [size (u1 ++ w) == _](_ : _ = false) //.
by apply/eqP; rewrite size_cat s1 /matrix_len; case: (w) wn => //= x s _; lia.
Qed.
End Longer.

(** ** Vectors that are too short *)
Section Shorter.
Variables (cfg : Cfg) (E : Type) (A : FieldAlg E) (n : nat).
Implicit Types v u : seq E.

Lemma vget_some v i k (x : E) : vget v i k = Done x -> (i < size v)%N.
Proof.
rewrite /vget; case e: (drop i v) => [|y s] // _; rewrite ltnNge; apply/negP => h.
by rewrite drop_oversize in e.
Qed.
Lemma vset_size v i x k u : vset v i x k = Done u -> size u = size v.
Proof.
rewrite /vset; case: ltnP => // h [<-].
by rewrite size_cat /= size_takel ?size_drop; lia.
Qed.
Lemma for_size T lo cnt (b : nat -> seq T -> M (seq T)) (s : seq T) k t :
  (forall i (r r' : seq T), b i r k = Done r' -> size r' = size r) ->
  for_loop lo cnt b s k = Done t -> size t = size s.
Proof.
move=> h; elim: cnt lo s => [|c IH] lo s /=; first by case=> <-.
by rewrite /bind; case e: (b lo s k) => [s'||] // /IH ->; exact: h e.
Qed.
Lemma add_rows_size v row1 row2 c k u :
  add_rows A n v row1 row2 c k = Done u -> size u = size v.
Proof.
apply: for_size => i s t; rewrite /bind; case: vget => // x; case: (mul _ _ _ k) => // y.
by case: vget => // z; case: (add_assign _ _ _ k) => // z' /vset_size.
Qed.
Lemma swap_rows_size v row1 row2 k u : swap_rows n v row1 row2 k = Done u -> size u = size v.
Proof.
apply: for_size => i s t; rewrite /vswap /bind; case: vget => // x; case: vget => // y.
by case e: vset => [s'||] // /vset_size ->; exact: vset_size e.
Qed.
Lemma mul_row_size v row c k u : mul_row A n v row c k = Done u -> size u = size v.
Proof.
rewrite /mul_row /assert; case: leqP => // h; rewrite /bind /ret.
case e: mapM => [s||] // [<-]; rewrite !size_cat (size_mapM e) !size_takel ?size_drop; lia.
Qed.
Lemma clear_below_size v col k u : det_clear_below A n v col k = Done u -> size u = size v.
Proof.
apply: for_size => i s t; rewrite /bind; case: vget => // x; case: (is_zero _ _ k) => //.
by case=> [[<-]|] //; case: (neg _ _ k) => // y /add_rows_size.
Qed.
Lemma clear_others_size v invs col k u invs' :
  inv_clear_others A n (v, invs) col k = Done (u, invs') -> size u = size v.
Proof.
rewrite /inv_clear_others; move: {1}0%N {1}n => lo cnt.
elim: cnt lo v invs => [|c IH] lo v invs /=; first by case=> <-.
rewrite /bind; case: ifP => _; first exact: IH.
case: vget => // x; case: (is_zero _ _ k) => // -[]; first exact: IH.
case: (neg _ _ k) => // y; case e: add_rows => [v'||] //; case: add_rows => // i' /IH ->.
exact: add_rows_size e.
Qed.

(** The last column is only left with an entry found at the last index. *)
Lemma find_last v k r : find_row A n.+1 v n k = Done r -> (n * n.+1 + n < size v)%N.
Proof.
rewrite /find_row subSnn /= /bind; case e: vget => [x||] //= _.
exact: vget_some e.
Qed.
End Shorter.

Section Shorter2.
Variables (cfg : Cfg) (E : Type) (A : FieldAlg E) (n : nat).
Implicit Types v u : seq E.

(** A loop whose last step does not go on. *)
Lemma for_ret_stops S C (P : S -> Prop) cnt lo (b : nat -> S -> M (S + C)) s k t :
  P s -> (forall i s s', P s -> b i s k = Done (inl s') -> P s') ->
  (forall s s', P s -> b (lo + cnt)%N s k = Done (inl s') -> False) ->
  for_loop_ret lo cnt.+1 b s k = Done (inl t) -> False.
Proof.
move=> p0 hP hl; elim: cnt lo s p0 hl => [|c IH] lo s p0 hl /=.
  rewrite /bind; case e: (b lo s k) => [[s'|r]||] // _.
  by apply: (hl _ s' p0); rewrite addn0.
rewrite /bind; case e: (b lo s k) => [[s'|r]||] //.
move=> h; apply: (IH lo.+1 s' (hP _ _ _ p0 e)) => // s1 s2 p1 h1.
by apply: (hl s1 s2 p1); rewrite addnS -addSn.
Qed.

Lemma short_last m v : (size v < m.+1 * m.+1)%N -> (m * m.+1 + m < size v)%N -> False.
Proof. by rewrite mulSn; lia. Qed.

Lemma det_shorter v k d : (size v < n * n)%N -> determinant A n v k = Done d ->
  zero A k = Done d.
Proof.
case: n => [|m] // sv; rewrite /determinant /bind; case: (one A k) => // d0.
case e: for_loop_ret => [[[v' d']|z]||] //; last first.
  case=> <-; move: e; move: {1}0%N {1}m.+1 (v, d0) => lo cnt.
  elim: cnt lo => [|c IH] lo [u e] //=; rewrite /bind; case: find_row => // -[r|]; last first.
    by case: (zero A k) => // z' [<-].
  case: (if _ then _ else _) => // u1; case: vget => // x; case: (mul_assign _ _ _ k) => // e1.
  case: (finv _ _ k) => // y; case: mul_row => // u2; case: det_clear_below => // u3.
  exact: IH.
exfalso; apply: (@for_ret_stops _ _ (fun s => size s.1 = size v)) e => //.
  move=> i [u e] [u' e'] /= su; rewrite /bind; case: find_row => // -[r|]; last by case: (zero A k).
  case f: (if _ then _ else _) => [u1||] //; case: vget => // x.
  case: (mul_assign _ _ _ k) => // e1; case: (finv _ _ k) => // y.
  case g: mul_row => [u2||] //; case h: det_clear_below => [u3||] // [<- _].
  rewrite (clear_below_size h) (mul_row_size g).
  by move: f; case: ifP => _ [] => [|<-] // /swap_rows_size ->.
move=> [u e] [u' e'] /= su; rewrite /bind; case f: find_row => [o||] // _.
by apply: (@short_last m v) => //; rewrite -su; exact: find_last f.
Qed.

Lemma try_inv_shorter v k o : (size v < n * n)%N -> matrix_try_inv cfg A n v k = Done o ->
  o = None.
Proof.
case: n => [|m] // sv; rewrite try_invE /bind; case: matrix_one => // invs.
case e: inv_loop => [[[v' i']|z]||] //; last by case.
exfalso; apply: (@for_ret_stops _ _ (fun s => size s.1 = size v)) e => //.
  move=> i [u e] [u' e'] /= su; rewrite /bind; case: find_row => // -[r|] //.
  case f: (if _ then _ else _) => [[u1 e1]||] //; case: vget => // x.
  case: (finv _ _ k) => // y; case g: mul_row => [u2||] //; case: mul_row => // e2.
  case h: inv_clear_others => [[u3 e3]||] // [<- _].
  rewrite (clear_others_size h) (mul_row_size g).
  move: f; case: ifP => _; last by case=> <-.
  by case f: swap_rows => [u4||] //; case: swap_rows => // i4 [<- _]; rewrite (swap_rows_size f).
move=> [u e] [u' e'] /= su; rewrite /bind; case f: find_row => [o'||] // _.
by apply: (@short_last m v) => //; rewrite -su; exact: find_last f.
Qed.

Lemma shorter_ok v : (size v < n * n)%N ->
  [/\ forall d, returns (determinant A n v) d -> returns (zero A) d,
      forall o, returns (matrix_try_inv cfg A n v) o -> o = None &
      forall z b, returns (zero A) z -> returns (matrix_invertible A n v) b ->
        returns (is_zero A z) (~~ b)].
Proof.
move=> sv; split.
- by move=> d [k h]; exists k => k' hk; apply: det_shorter sv (h _ hk).
- by move=> o [k h]; apply: try_inv_shorter sv (h k (leqnn _)).
move=> z b [k0 hz] [k h]; exists (maxn k0 k) => k'; rewrite geq_max => /andP[l0 l1].
have := h k' l1; rewrite /matrix_invertible /bind /notM.
case e: determinant => [d||] //; have := det_shorter sv e; rewrite hz // => -[->].
by rewrite /bind; case: (is_zero A d k') => // c [<-]; rewrite negbK.
Qed.
End Shorter2.

(** ** Multiples and powers *)
Section Multiples.
Variables (cfg : Cfg) (T : Type).

Lemma power_loop_zero (op : T -> T -> M T) dbl x z : returns (power_loop op dbl 0%Z x z) (0%Z, x, z).
Proof. by exists 1%N => -[|k]. Qed.
Lemma power_loop_wrong (op : T -> T -> M T) dbl x num z :
  (forall y, panics (op y x)) -> panics (dbl x) -> (0 < num)%Z ->
  panics (power_loop op dbl num x z).
Proof.
move=> /(_ z) [k1 h1] [k2 h2] n0; exists (maxn k1 k2).+1 => -[|k] //; rewrite ltnS geq_max.
move=> /andP[l1 l2]; rewrite /power_loop /while_loop /= /bind /=.
rewrite (_ : (num >? 0)%Z = true); last by rewrite Z.gtb_ltb; case: Z.ltb_spec; lia.
by case: ifP => _ /=; rewrite ?h1 ?h2 //; exact: leqW.
Qed.

Lemma ntimes_wrong zero (op : T -> T -> M T) dbl x :
  (forall y, panics (op y x)) -> panics (dbl x) ->
  nat_multiples_of_wrong zero (default_ntimes zero op dbl) x.
Proof.
move=> h1 h2 z rz; split=> [|num n0].
  by apply: returns_bind rz _; apply: returns_bind (power_loop_zero _ _ _ _) _; exact: returns_ret.
by apply: panics_bind2 rz _; apply: panics_bind; exact: power_loop_wrong.
Qed.

Lemma gpower_wrong one (op : T -> T -> M T) dbl inv x :
  (forall y, panics (op y x)) -> panics (dbl x) -> panics (inv x) ->
  multiples_of_wrong one (default_gpower cfg one op dbl inv) x.
Proof.
move=> h1 h2 h3 z rz; split=> [|num n0].
  apply: returns_bind (returns_ret _) _; apply: returns_bind rz _.
  by apply: returns_bind (power_loop_zero _ _ _ _) _; exact: returns_ret.
rewrite /default_gpower; case: Z.ltb_spec => hn.
  apply: panics_bind; rewrite /prim_i; case: ifP => _.
    by apply: panics_bind2 (returns_ret _) _; exact: panics_bind.
  case: ifP => _; first by apply: panics_bind; exact: panics_panic.
  by apply: panics_bind2 (returns_ret _) _; exact: panics_bind.
apply: panics_bind2 (returns_ret _) _; apply: panics_bind2 rz _; apply: panics_bind.
by apply: power_loop_wrong => //=; lia.
Qed.
End Multiples.

Section Wrong.
Variables (cfg : Cfg) (E : Type) (n : nat).
Implicit Types v : seq E.

Lemma vector_multiples (A : RingAlg E) v : bad_length n v ->
  nat_multiples_of_wrong (zero (VectorRing cfg n A)) (ntimes (VectorRing cfg n A)) v /\
  multiples_of_wrong (zero (VectorRing cfg n A)) (ztimes (VectorRing cfg n A)) v.
Proof.
have [_ _ _ [h1 h2]] := vector_checks cfg n A; move=> bv.
have [_ hd hn _] := h1 v bv; have ha u : panics (add_assign (VectorRing cfg n A) u v).
  by have [] := h2 u v (or_intror bv).
by split; [exact: ntimes_wrong|exact: gpower_wrong].
Qed.

Lemma vector_powers (A : GroupAlg E) v : bad_length n v ->
  multiples_of_wrong (one (vector_group cfg n A)) (gpower (vector_group cfg n A)) v.
Proof.
move=> bv; have bv1 := bad_len1 bv.
by apply: gpower_wrong => [y||] /=; apply: panics_assert_bind => //; rewrite negb_and bv1 orbT.
Qed.

Lemma matrix_multiples (A : FieldAlg E) v : bad_length (n * n) v ->
  nat_multiples_of_wrong (zero (MatrixRing cfg A n)) (ntimes (MatrixRing cfg A n)) v /\
  multiples_of_wrong (zero (MatrixRing cfg A n)) (ztimes (MatrixRing cfg A n)) v.
Proof.
have [_ _ [h1 h2] _] := matrix_checks cfg n A; move=> bv.
have [_ hd hn _] := h1 v bv; have ha u : panics (add_assign (MatrixRing cfg A n) u v).
  by have [] := h2 u v (or_intror bv).
by split; [exact: ntimes_wrong|exact: gpower_wrong].
Qed.
End Wrong.
