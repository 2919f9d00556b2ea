(** * RustFacts.v -- checks of the semantics in Rust.v.

    The primitives of Rust.v are part of the trusted base. The lemmas below characterise
    them in the words of the Rust reference, independently of how they are programmed:
    wrapping arithmetic, checked arithmetic, indexing, resize, swap, iterators and loops.
    No other file depends on this one. *)

From mathcomp Require Import all_ssreflect all_algebra zify ssrZ.
From Coq Require Import ZArith Lia.
From Verif Require Import Rust Wp.

Set Implicit Arguments.
Unset Strict Implicit.
Unset Printing Implicit Defensive.

(** ** Machine integers *)
Section Machine.
Local Open Scope Z_scope.
Variables (w z : Z).
Hypothesis w1 : 1 <= w.

Let pw : 2 ^ w = 2 * 2 ^ (w - 1).
Proof. by rewrite -Z.pow_succ_r; [congr (_ ^ _); lia|lia]. Qed.
Let pp : 0 < 2 ^ (w - 1).
Proof. by apply: Z.pow_pos_nonneg; lia. Qed.

Lemma in_iP : in_i w z <-> - 2 ^ (w - 1) <= z < 2 ^ (w - 1).
Proof.
rewrite /in_i /imin /imax; split=> [/andP[/Z.leb_le h1 /Z.leb_le h2]|h]; first lia.
by apply/andP; split; apply/Z.leb_le; lia.
Qed.
Lemma in_uP : in_u w z <-> 0 <= z < 2 ^ w.
Proof.
rewrite /in_u /umax; split=> [/andP[/Z.leb_le h1 /Z.leb_le h2]|h]; first lia.
by apply/andP; split; apply/Z.leb_le; lia.
Qed.
(** Wrapping gives the only value of the type that is congruent modulo 2^w. *)
Lemma wrap_range : in_i w (wrap_i w z).
Proof.
rewrite /wrap_i; have := Z.mod_pos_bound (z + 2 ^ (w - 1)) (2 ^ w).
set r := (_ mod _) => h; rewrite /in_i /imin /imax.
by apply/andP; split; apply/Z.leb_le; lia.
Qed.
Lemma wrap_congruent : exists k, wrap_i w z = z + k * 2 ^ w.
Proof.
exists (- ((z + 2 ^ (w - 1)) / 2 ^ w)); rewrite /wrap_i Z.mod_eq; first lia.
by rewrite pw; lia.
Qed.
Lemma wrap_unique y k : in_i w y -> y = z + k * 2 ^ w -> y = wrap_i w z.
Proof.
have [j ej] := wrap_congruent; have := wrap_range; rewrite /in_i /imin /imax.
move=> /andP[/Z.leb_le h1 /Z.leb_le h2] /andP[/Z.leb_le h3 /Z.leb_le h4] ek.
have ekj : k = j by nia.
by rewrite ek ej ekj.
Qed.
(** An unchecked operation: exact if the result fits; otherwise a panic in builds with
    overflow checks and a wrapped result in builds without. *)
Lemma prim_fits cfg : in_i w z -> returns (prim_i cfg w z) z.
Proof. by rewrite /prim_i => ->; exact: returns_ret. Qed.
Lemma prim_checks cfg : overflow_checks cfg -> ~~ in_i w z -> panics (prim_i cfg w z).
Proof. by rewrite /prim_i => -> /negbTE ->; exact: panics_panic. Qed.
Lemma prim_wraps cfg : ~~ overflow_checks cfg -> returns (prim_i cfg w z) (wrap_i w z).
Proof.
rewrite /prim_i => /negbTE ->; case: ifP => h; last exact: returns_ret.
rewrite -(@wrap_unique z 0 h); [exact: returns_ret|lia].
Qed.
(** A checked operation is None exactly if the result does not fit. *)
Lemma checked_iP r : checked_i w z = Some r <-> (r = z /\ - 2 ^ (w - 1) <= z < 2 ^ (w - 1)).
Proof. by rewrite /checked_i -in_iP; case: ifP => h; split=> //; try by case=> ->. Qed.
Lemma checked_uP r : checked_u w z = Some r <-> (r = z /\ 0 <= z < 2 ^ w).
Proof. by rewrite /checked_u -in_uP; case: ifP => h; split=> //; try by case=> ->. Qed.
End Machine.

(** checked_div truncates towards zero; it fails for a zero divisor and for MIN / -1 only. *)
Lemma checked_div_iP (w a b q : Z) : (1 <= w)%Z -> in_i w a -> in_i w b ->
  checked_div_i w a b = Some q <->
  (b <> 0 /\ ~ (a = - 2 ^ (w - 1) /\ b = -1) /\ q = Z.quot a b)%Z.
Proof.
move=> w1 /in_iP ha /in_iP hb; rewrite /checked_div_i; case: Z.eqb_spec => [->|b0].
  by split=> // -[].
rewrite checked_iP.
have e := Z.quot_rem a b b0; have r := Z.rem_bound_abs a b b0.
have hq : (Z.abs (Z.quot a b) * Z.abs b <= Z.abs a)%Z.
  by rewrite -Z.quot_abs //; have := Z.mul_quot_le (Z.abs a) (Z.abs b); lia.
have pp : (0 < 2 ^ (w - 1))%Z by apply: Z.pow_pos_nonneg; lia.
split=> [[-> h]|[_ [h ->]]]; split=> //.
  split=> // -[h1 h2]; move: h; rewrite h1 h2 -[(-1)%Z]/(- (1))%Z Z.quot_opp_opp // Z.quot_1_r; lia.
case: (Z.eq_dec b (-1)) => [b1|b1]; first by rewrite b1 in h *; rewrite -[(-1)%Z]/(- (1))%Z Z.quot_opp_r // Z.quot_1_r; lia.
case: (Z.eq_dec b 1) => [->|b2]; first by rewrite Z.quot_1_r.
have b3 : (2 <= Z.abs b)%Z by lia.
have : (Z.abs (Z.quot a b) * 2 <= Z.abs a)%Z by nia.
lia.
Qed.

(** ** Vec *)
Section Vec.
Variables (E : Type) (x0 : E).
Implicit Types (v : seq E) (x : E).

Lemma index_returns v i : i < size v -> returns (vget v i) (nth x0 v i).
Proof. by move=> h; rewrite (vgetE x0 h); exact: returns_ret. Qed.
Lemma index_panics v i : size v <= i -> panics (vget v i).
Proof. exact: vget_panics. Qed.
Lemma store_returns v i x : i < size v -> exists u, returns (vset v i x) u /\
  size u = size v /\ forall j, nth x0 u j = if j == i then x else nth x0 v j.
Proof.
move=> h; exists (set_nth x0 v i x); rewrite (vsetE x0 _ h); split; first exact: returns_ret.
by split=> [|j]; [rewrite size_set_nth; apply/maxn_idPr|rewrite nth_set_nth].
Qed.
Lemma store_panics v i x : size v <= i -> panics (vset v i x).
Proof. exact: vset_panics. Qed.
Lemma resize_size v n x : size (vresize v n x) = n.
Proof.
rewrite /vresize size_cat size_nseq size_take; case: ltnP => h; last by rewrite subnKC.
by rewrite (eqP (ltnW h)) addn0.
Qed.
Lemma resize_nth v n x i : i < n ->
  nth x0 (vresize v n x) i = if i < size v then nth x0 v i else x.
Proof.
move=> h; rewrite /vresize nth_cat size_take.
have -> : (i < (if n < size v then n else size v)) = (i < size v).
  by case: (ltnP n (size v)) => // h2; rewrite h (ltn_trans h h2).
case: ltnP => h2; first by rewrite nth_take.
by rewrite nth_nseq; case: (ltnP n (size v)) => h3; [|case: ifP => //]; lia.
Qed.
Lemma swap_returns v i j : i < size v -> j < size v -> exists u, returns (vswap v i j) u /\
  size u = size v /\
  forall k, nth x0 u k = if k == i then nth x0 v j else if k == j then nth x0 v i else nth x0 v k.
Proof.
move=> hi hj; have [u [hu [su nu]]] := store_returns (nth x0 v j) hi.
have hj' : j < size u by rewrite su.
have [t [ht [st nt]]] := store_returns (nth x0 v i) hj'; exists t; split.
  apply: returns_bind (index_returns hi) _; apply: returns_bind (index_returns hj) _.
  exact: returns_bind hu ht.
split=> [|k]; first by rewrite st.
by rewrite nt nu; case: eqP => [->|_] //; case: eqP => [->|].
Qed.
Lemma swap_panics v i j : (size v <= i) || (size v <= j) -> panics (vswap v i j).
Proof.
case: (ltnP i (size v)) => hi /=; last by move=> _; apply: panics_bind; exact: index_panics.
move=> hj; apply: panics_bind2 (index_returns hi) _; apply: panics_bind; exact: index_panics.
Qed.
End Vec.

(** ** Iterators *)
(** collect, zip and all visit the elements in order; zip stops with the shorter one. *)
Lemma map_returns A B (f : A -> M B) (g : A -> B) s : (forall x, returns (f x) (g x)) ->
  returns (mapM f s) (map g s).
Proof.
move=> h; elim: s => [|x s IH] /=; first exact: returns_ret.
by apply: returns_bind (h x) _; apply: returns_bind IH _; exact: returns_ret.
Qed.
Lemma zip_returns A B C (f : A -> B -> M C) (g : A -> B -> C) s t :
  (forall x y, returns (f x y) (g x y)) ->
  returns (map2M f s t) (map (fun z => g z.1 z.2) (zip s t)).
Proof.
move=> h; elim: s t => [|x s IH] [|y t] /=; try exact: returns_ret.
by apply: returns_bind (h x y) _; apply: returns_bind (IH t) _; exact: returns_ret.
Qed.
Lemma all_returns A (f : A -> M bool) (p : pred A) s : (forall x, returns (f x) (p x)) ->
  returns (allM f s) (all p s).
Proof.
move=> h; elim: s => [|x s IH] /=; first exact: returns_ret.
by apply: returns_bind (h x) _; case: (p x) => //; exact: returns_ret.
Qed.
(** [&&], [||] and all do not evaluate what comes after the decision. *)
Lemma and_short m : returns (andM (ret false) m) false.
Proof. by rewrite /andM bind_ret; exact: returns_ret. Qed.
Lemma or_short m : returns (orM (ret true) m) true.
Proof. by rewrite /orM bind_ret; exact: returns_ret. Qed.
Lemma all_short A (f : A -> M bool) x s t : returns (allM f s) true -> returns (f x) false ->
  returns (allM f (s ++ x :: t)) false.
Proof.
move=> hs hx; elim: s hs => [|y s IH] /=.
  by move=> _; apply: returns_bind hx _; exact: returns_ret.
move=> [n hn].
have fy : returns (f y) true.
  exists n => k nk; have := hn k nk; rewrite /andM /bind; case: (f y k) => // -[] //.
apply: returns_bind fy _; apply: IH; exists n => k nk; have := hn k nk; rewrite /andM /bind.
by case: (f y k) => // -[].
Qed.

(** ** Loops *)
Section Loops.
Variables (S : Type).
Implicit Types (s : S).

(** [for i in lo..lo + n] runs the body for [lo], ..., [lo + n - 1] in this order. *)
Lemma for_returns lo n body (st : nat -> S) :
  (forall i, lo <= i < lo + n -> returns (body i (st i)) (st i.+1)) ->
  returns (for_loop lo n body (st lo)) (st (lo + n)).
Proof.
elim: n lo => [|n IH] lo h /=; first by rewrite addn0; exact: returns_ret.
apply: returns_bind; first by apply: h; rewrite leqnn addnS ltnS leq_addr.
rewrite addnS -addSn; apply: IH => i /andP[h1 h2]; apply: h; rewrite addnS -addSn h2 andbT.
exact: ltnW.
Qed.
Lemma rev_returns n body (st : nat -> S) :
  (forall i, i < n -> returns (body i (st i.+1)) (st i)) ->
  returns (for_rev n body (st n)) (st 0).
Proof.
elim: n => [|n IH] h /=; first exact: returns_ret.
by apply: returns_bind (h n (ltnSn n)) _; apply: IH => i hi; apply: h; exact: ltnW.
Qed.

(** The rules of [while]: a run of the loop, as a relation. *)
Variables (cond : S -> M bool) (body : S -> M S).
Inductive run_of : S -> option S -> Prop :=
| run_stop s : returns (cond s) false -> run_of s (Some s)
| run_step s s' o : returns (cond s) true -> returns (body s) s' -> run_of s' o -> run_of s o
| run_cond s : panics (cond s) -> run_of s None
| run_body s : returns (cond s) true -> panics (body s) -> run_of s None.

Lemma run_fuel s o : run_of s o -> exists n, forall f k, n <= f -> n <= k ->
  while_fuel f cond body s k = if o is Some v then Done v else Panicked.
Proof.
elim=> {s o} [s [n h]|s s' o [n1 h1] [n2 h2] _ [n3 h3]|s [n h]|s [n1 h1] [n2 h2]].
- by exists n.+1 => -[|f] k //= _ hk; rewrite /bind h //; exact: ltnW.
- exists (n1 + n2 + n3).+1 => -[|f] k //=; rewrite ltnS => hf hk.
  by rewrite /bind h1 ?h2 ?h3 //; lia.
- by exists n.+1 => -[|f] k //= _ hk; rewrite /bind h //; exact: ltnW.
- exists (n1 + n2).+1 => -[|f] k //=; rewrite ltnS => hf hk.
  by rewrite /bind h1 ?h2 //; lia.
Qed.
Lemma run_returns s v : run_of s (Some v) -> returns (while_loop cond body s) v.
Proof. by case/run_fuel=> n h; exists n => k nk; apply: h. Qed.
Lemma run_panics s : run_of s None -> panics (while_loop cond body s).
Proof. by case/run_fuel=> n h; exists n => k nk; apply: h. Qed.

(** Conversely the loop has no other results, if more fuel does not change the outcomes of
    the test and the body. *)
Definition steady {A} (m : M A) : Prop :=
  forall k k', k <= k' -> m k <> Unfinished -> m k' = m k.
Hypotheses (steady_cond : forall s, steady (cond s)) (steady_body : forall s, steady (body s)).
Lemma steady_returns A (m : M A) k v : steady m -> m k = Done v -> returns m v.
Proof. by move=> h e; exists k => k' hk; rewrite (h k k' hk) e. Qed.
Lemma steady_panics A (m : M A) k : steady m -> m k = Panicked -> panics m.
Proof. by move=> h e; exists k => k' hk; rewrite (h k k' hk) e. Qed.
Lemma fuel_run f k s o : while_fuel f cond body s k = o ->
  match o with
  | Done v => run_of s (Some v)
  | Panicked => run_of s None
  | Unfinished => True
  end.
Proof.
elim: f s o => [|f IH] s o /=; first by move=> <-.
rewrite /bind; case ec: (cond s k) => [[]||] /=; last by move=> <-.
- case eb: (body s k) => [t||] /=; last by move=> <-.
    have h1 := steady_returns (@steady_cond s) ec; have h2 := steady_returns (@steady_body s) eb.
    by move=> /IH; case: o {IH} => // *; apply: run_step h1 h2 _.
  move=> <-; apply: run_body; first exact: steady_returns ec.
  exact: steady_panics eb.
- by move=> <-; apply: run_stop; exact: steady_returns ec.
by move=> <-; apply: run_cond; exact: steady_panics ec.
Qed.
Lemma returns_run s v : returns (while_loop cond body s) v <-> run_of s (Some v).
Proof.
split; last exact: run_returns.
by case=> n h; have /fuel_run := h n (leqnn n).
Qed.
Lemma panics_run s : panics (while_loop cond body s) <-> run_of s None.
Proof.
split; last exact: run_panics.
by case=> n h; have /fuel_run := h n (leqnn n).
Qed.
End Loops.
