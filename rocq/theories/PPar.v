(** * PPar.v -- running with related arguments: lemmas about the constructs of Rust.v and
    the default methods of Traits.v. *)

From Coq Require Import ZArith.
From mathcomp Require Import all_ssreflect.
From Verif Require Import Rust Traits MInts MConstr Wp ParSpec.

Set Implicit Arguments.
Unset Strict Implicit.
Unset Printing Implicit Defensive.

Local Notation par := (@alike _ _).

Section Basic.
Context {A1 A2 B1 B2 : Type}.
Implicit Types (R : A1 -> A2 -> Prop) (S : B1 -> B2 -> Prop).

Lemma sim_par_ret R v w : R v w -> simulated R (ret v) (ret w).
Proof. by move=> h k; exists w => //; exact: returns_ret. Qed.
Lemma sim_par_panic R : simulated R panic panic.
Proof. by move=> k; exists 0. Qed.
Lemma sim_par_bind R S m1 m2 f1 f2 : simulated R m1 m2 ->
  (forall v w, R v w -> simulated S (f1 v) (f2 w)) -> simulated S (bind m1 f1) (bind m2 f2).
Proof.
move=> h hf k; rewrite /bind; have := h k; case: (m1 k) => [v [w rw Rvw]|pm|] //.
  have := hf _ _ Rvw k; case: (f1 v k) => [x [y ry Sxy]|pf|] //.
    by exists y => //; exact: returns_bind rw ry.
  exact: panics_bind2 rw pf.
exact: panics_bind.
Qed.

Lemma par_ret R v w : R v w -> par R (ret v) (ret w).
Proof. by move=> h; split=> k; [exists w|exists v] => //; exact: returns_ret. Qed.
Lemma par_panic R : par R panic panic.
Proof. by split=> k; exists 0. Qed.
Lemma par_mono R R' m1 m2 : par R m1 m2 -> (forall v w, R v w -> R' v w) -> par R' m1 m2.
Proof.
move=> [h1 h2] RR; split=> k; [have := h1 k|have := h2 k].
  by case: (m1 k) => // v [w rw /RR]; exists w.
by case: (m2 k) => // w [v rv /RR]; exists v.
Qed.
Lemma par_if R (b : bool) m1 m2 n1 n2 :
  (b -> par R m1 n1) -> (b = false -> par R m2 n2) ->
  par R (if b then m1 else m2) (if b then n1 else n2).
Proof. by case: b => h1 h2; [exact: h1|exact: h2]. Qed.
Lemma par_unwrap R o1 o2 : option_par R o1 o2 -> par R (unwrap o1) (unwrap o2).
Proof. by case: o1 o2 => [a|] [b|] //= h; [exact: par_ret|exact: par_panic]. Qed.
End Basic.

Lemma par_bind A1 A2 B1 B2 (R : A1 -> A2 -> Prop) (S : B1 -> B2 -> Prop) m1 m2 f1 f2 :
  par R m1 m2 -> (forall v w, R v w -> par S (f1 v) (f2 w)) ->
  par S (bind m1 f1) (bind m2 f2).
Proof.
move=> [h1 h2] hf; split.
  by apply: sim_par_bind h1 _ => v w /hf[].
by apply: sim_par_bind h2 _ => w v /hf[].
Qed.

(** Calls that do not loop. *)
Lemma par_const A (m : M A) : (forall k, m k = m 0) -> par eq m m.
Proof.
move=> h; suff s : simulated eq m m by split=> // k; move: (s k); case: (m k) => // v [w rw ->]; exists w.
move=> k; rewrite h; case E: (m 0) => [v||] //; last by exists 0 => j _; rewrite h.
by exists v => //; exists 0 => j _; rewrite h.
Qed.
Lemma par_assert b : par eq (assert b) (assert b).
Proof. by apply: par_const; case: b. Qed.
Lemma par_prim c w z : par eq (prim_i c w z) (prim_i c w z).
Proof. by apply: par_const => k; rewrite /prim_i; case: ifP => // _; case: ifP. Qed.
Lemma par_andM m1 m2 n1 n2 : par eq m1 n1 -> par eq m2 n2 -> par eq (andM m1 m2) (andM n1 n2).
Proof. by move=> h1 h2; apply: par_bind h1 _ => b _ <-; case: b => //; exact: par_ret. Qed.
Lemma par_orM m1 m2 n1 n2 : par eq m1 n1 -> par eq m2 n2 -> par eq (orM m1 m2) (orM n1 n2).
Proof. by move=> h1 h2; apply: par_bind h1 _ => b _ <-; case: b => //; exact: par_ret. Qed.
Lemma par_notM m n : par eq m n -> par eq (notM m) (notM n).
Proof. by move=> h; apply: par_bind h _ => b _ <-; exact: par_ret. Qed.
Lemma par_debug_assert cfg m n : par eq m n -> par eq (debug_assert cfg m) (debug_assert cfg n).
Proof.
move=> h; rewrite /debug_assert; case: ifP => _; last exact: par_ret.
by apply: par_bind h _ => b _ <-; exact: par_assert.
Qed.

Section Loops.
Context {S1 S2 : Type}.

Lemma sim_par_while (I : S1 -> S2 -> Prop) c1 c2 b1 b2 s t :
  (forall s t, I s t -> simulated eq (c1 s) (c2 t)) ->
  (forall s t, I s t -> simulated I (b1 s) (b2 t)) ->
  I s t -> simulated I (while_loop c1 b1 s) (while_loop c2 b2 t).
Proof.
move=> hc hb Ist k.
suff h f s0 t0 : I s0 t0 -> match while_fuel f c1 b1 s0 k with
    | Done v => exists2 w, I v w & exists n, forall j g, n <= j -> f <= g ->
        while_fuel g c2 b2 t0 j = Done w
    | Panicked => exists n, forall j g, n <= j -> f <= g -> while_fuel g c2 b2 t0 j = Panicked
    | Unfinished => True end.
  rewrite /while_loop; have := h k s t Ist.
  case: (while_fuel k c1 b1 s k) => // [v [w Ivw [n hn]]|[n hn]].
    by exists w => //; exists (maxn n k) => j; rewrite geq_max => /andP[h1 h2]; exact: hn.
  by exists (maxn n k) => j; rewrite geq_max => /andP[h1 h2]; exact: hn.
elim: f s0 t0 => // f IH s0 t0 h /=; rewrite /bind.
have := hc _ _ h k; case: (c1 s0 k) => [b [b' [n hn] E]|[n hn]|] //; last first.
  by exists n => j [|g] // nj _; rewrite /= /bind hn.
subst b'.
case: b hn => hn /=; last first.
  by exists t0 => //; exists n => j [|g] // nj _; rewrite /= /bind hn.
have := hb _ _ h k; case: (b1 s0 k) => [s1 [t1 [n1 hn1] h1]|[n1 hn1]|] //; last first.
  exists (maxn n n1) => j [|g] //; rewrite geq_max => /andP[nj nj1] _.
  by rewrite /= /bind hn // hn1.
have := IH _ _ h1; case: (while_fuel f c1 b1 s1 k) => // [v [w Ivw [n2 hn2]]|[n2 hn2]].
  exists w => //; exists (maxn (maxn n n1) n2) => j [|g] //.
  rewrite !geq_max => /andP[/andP[nj nj1] nj2]; rewrite ltnS => fg.
  by rewrite /= /bind hn // hn1 // hn2.
exists (maxn (maxn n n1) n2) => j [|g] //.
rewrite !geq_max => /andP[/andP[nj nj1] nj2]; rewrite ltnS => fg.
by rewrite /= /bind hn // hn1 // hn2.
Qed.
End Loops.
Lemma eq_sym_sim A (m1 m2 : M A) :
  simulated (fun w v => v = w) m1 m2 -> simulated eq m1 m2.
Proof. by move=> h k; have := h k; case: (m1 k) => // v [w rw E]; exists w. Qed.
Section Loops.
Context {S1 S2 : Type}.
Lemma par_while (I : S1 -> S2 -> Prop) c1 c2 b1 b2 s t :
  (forall s t, I s t -> par eq (c1 s) (c2 t)) ->
  (forall s t, I s t -> par I (b1 s) (b2 t)) ->
  I s t -> par I (while_loop c1 b1 s) (while_loop c2 b2 t).
Proof.
move=> hc hb h; split.
  by apply: sim_par_while h => s0 t0 h0; [case: (hc _ _ h0)|case: (hb _ _ h0)].
by apply: sim_par_while h => s0 t0 h0; [case: (hc _ _ h0) => _ /eq_sym_sim|case: (hb _ _ h0)].
Qed.
Lemma par_for {lo cnt} b1 b2 (J : S1 -> S2 -> Prop) s t :
  (forall i s t, J s t -> par J (b1 i s) (b2 i t)) ->
  J s t -> par J (for_loop lo cnt b1 s) (for_loop lo cnt b2 t).
Proof.
move=> hb; elim: cnt lo s t => [|c IH] lo s t Jst /=; first exact: par_ret.
by apply: par_bind (hb lo s t Jst) _ => s' t'; exact: IH.
Qed.
Lemma par_rev {cnt} b1 b2 (J : S1 -> S2 -> Prop) s t :
  (forall i s t, J s t -> par J (b1 i s) (b2 i t)) ->
  J s t -> par J (for_rev cnt b1 s) (for_rev cnt b2 t).
Proof.
move=> hb; elim: cnt s t => [|c IH] s t Jst /=; first exact: par_ret.
by apply: par_bind (hb c s t Jst) _ => s' t'; exact: IH.
Qed.
(** A loop that can be left early. *)
Definition either_par {T1 T2} (J : S1 -> S2 -> Prop) (Q : T1 -> T2 -> Prop)
  (x : S1 + T1) (y : S2 + T2) : Prop :=
  match x, y with inl s, inl t => J s t | inr a, inr b => Q a b | _, _ => False end.
Lemma par_for_ret {T1 T2} (Q : T1 -> T2 -> Prop) {lo cnt} b1 b2 (J : S1 -> S2 -> Prop) s t :
  (forall i s t, J s t -> par (either_par J Q) (b1 i s) (b2 i t)) ->
  J s t -> par (either_par J Q) (for_loop_ret lo cnt b1 s) (for_loop_ret lo cnt b2 t).
Proof.
move=> hb; elim: cnt lo s t => [|c IH] lo s t Jst /=; first exact: par_ret.
apply: par_bind (hb lo s t Jst) _ => -[s'|a] [t'|b] //= h; by [exact: IH|exact: par_ret].
Qed.
Lemma par_rev_ret {T1 T2} (Q : T1 -> T2 -> Prop) {cnt} b1 b2 (J : S1 -> S2 -> Prop) s t :
  (forall i s t, J s t -> par (either_par J Q) (b1 i s) (b2 i t)) ->
  J s t -> par (either_par J Q) (for_rev_ret cnt b1 s) (for_rev_ret cnt b2 t).
Proof.
move=> hb; elim: cnt s t => [|c IH] s t Jst /=; first exact: par_ret.
apply: par_bind (hb c s t Jst) _ => -[s'|a] [t'|b] //= h; by [exact: IH|exact: par_ret].
Qed.
End Loops.

Lemma par_findM lo cnt f1 f2 : (forall i, par eq (f1 i) (f2 i)) ->
  par eq (findM lo cnt f1) (findM lo cnt f2).
Proof.
move=> h; elim: cnt lo => [|c IH] lo /=; first exact: par_ret.
by apply: par_bind (h lo) _ => b _ <-; case: b => //; exact: par_ret.
Qed.

(** ** Vectors *)
Section Vec.
Context {A1 A2 : Type} (R : A1 -> A2 -> Prop).
Local Notation V := (vec_par R).

Lemma vec_par_size v w : V v w -> size v = size w.
Proof. by elim: v w => [|x v IH] [|y w] //= [_ /IH->]. Qed.
Lemma vec_par_drop i v w : V v w -> V (drop i v) (drop i w).
Proof. by elim: i v w => [|i IH] [|x v] [|y w] //= [_ /IH]. Qed.
Lemma vec_par_take i v w : V v w -> V (take i v) (take i w).
Proof. by elim: i v w => [|i IH] [|x v] [|y w] //= [h /IH]. Qed.
Lemma vec_par_cat v w v' w' : V v w -> V v' w' -> V (v ++ v') (w ++ w').
Proof. by elim: v w => [|x v IH] [|y w] //= [h /IH hh] /hh. Qed.
Lemma vec_par_rcons v w x y : V v w -> R x y -> V (rcons v x) (rcons w y).
Proof. by move=> h hx; rewrite -!cats1; exact: vec_par_cat. Qed.
Lemma vec_par_nseq n x y : R x y -> V (nseq n x) (nseq n y).
Proof. by move=> h; elim: n. Qed.
Lemma vec_par_vresize n v w x y : V v w -> R x y -> V (vresize v n x) (vresize w n y).
Proof.
move=> h hx; rewrite /vresize (vec_par_size h).
by apply: vec_par_cat; [exact: vec_par_take|exact: vec_par_nseq].
Qed.
Lemma par_vget v w i : V v w -> par R (vget v i) (vget w i).
Proof.
move=> h; rewrite /vget; have := vec_par_drop i h.
by case: (drop i v) (drop i w) => [|x s] [|y t] //=; by [move=> _; exact: par_panic|case=> hx _; exact: par_ret].
Qed.
Lemma par_vset v w i x y : V v w -> R x y -> par V (vset v i x) (vset w i y).
Proof.
move=> h hx; rewrite /vset (vec_par_size h); apply: par_if => _; last exact: par_panic.
apply: par_ret; apply: vec_par_cat; first exact: vec_par_take.
by split=> //; exact: vec_par_drop.
Qed.
Lemma par_vswap v w i j : V v w -> par V (vswap v i j) (vswap w i j).
Proof.
move=> h; rewrite /vswap; apply: par_bind (par_vget _ h) _ => x x' hx.
apply: par_bind (par_vget _ h) _ => y y' hy.
by apply: par_bind (par_vset _ h hy) _ => v1 w1 h1; exact: par_vset.
Qed.
End Vec.

Lemma par_mapM {A1 A2 B1 B2} (R : A1 -> A2 -> Prop) (S : B1 -> B2 -> Prop) f1 f2 s t :
  (forall x y, R x y -> par S (f1 x) (f2 y)) -> vec_par R s t ->
  par (vec_par S) (mapM f1 s) (mapM f2 t).
Proof.
move=> h; elim: s t => [|x s IH] [|y t] //=; first by move=> _; exact: par_ret.
move=> [hx hs]; apply: par_bind (h _ _ hx) _ => a b ab.
by apply: par_bind (IH _ hs) _ => u w uw; exact: par_ret.
Qed.
Lemma par_map2M {A1 A2 B1 B2 C1 C2} (R : A1 -> A2 -> Prop) (S : B1 -> B2 -> Prop)
    (T : C1 -> C2 -> Prop) f1 f2 s1 t1 s2 t2 :
  (forall x y x' y', R x x' -> S y y' -> par T (f1 x y) (f2 x' y')) ->
  vec_par R s1 s2 -> vec_par S t1 t2 ->
  par (vec_par T) (map2M f1 s1 t1) (map2M f2 s2 t2).
Proof.
move=> h; elim: s1 s2 t1 t2 => [|x s IH] [|x' s'] [|y t] [|y' t'] //=;
  try by move=> *; exact: par_ret.
move=> [hx hs] [hy ht]; apply: par_bind (h _ _ _ _ hx hy) _ => a b ab.
by apply: par_bind (IH _ _ _ hs ht) _ => u w uw; exact: par_ret.
Qed.
Lemma par_allM {A1 A2} (R : A1 -> A2 -> Prop) f1 f2 s t :
  (forall x y, R x y -> par eq (f1 x) (f2 y)) -> vec_par R s t ->
  par eq (allM f1 s) (allM f2 t).
Proof.
move=> h; elim: s t => [|x s IH] [|y t] //=; first by move=> _; exact: par_ret.
by move=> [hx hs]; apply: par_andM (h _ _ hx) (IH _ hs).
Qed.
Lemma par_all2M {A1 A2 B1 B2} (R : A1 -> A2 -> Prop) (S : B1 -> B2 -> Prop) f1 f2 s1 t1 s2 t2 :
  (forall x y x' y', R x x' -> S y y' -> par eq (f1 x y) (f2 x' y')) ->
  vec_par R s1 s2 -> vec_par S t1 t2 ->
  par eq (all2M f1 s1 t1) (all2M f2 s2 t2).
Proof.
move=> h; elim: s1 s2 t1 t2 => [|x s IH] [|x' s'] [|y t] [|y' t'] //=;
  try by move=> *; exact: par_ret.
by move=> [hx hs] [hy ht]; apply: par_andM (h _ _ _ _ hx hy) (IH _ _ _ hs ht).
Qed.

(** The recursion of extended_gcd. *)
Lemma sim_par_extended_gcd {E1 E2} (R : E1 -> E2 -> Prop) z1 z2 o1 o2 ze1 ze2 m1 m2 s1 s2
    q1 q2 x y x' y' :
  (forall x x', R x x' -> simulated eq (z1 x) (z2 x')) ->
  simulated R o1 o2 -> simulated R ze1 ze2 ->
  (forall x y x' y', R x x' -> R y y' -> simulated R (m1 x y) (m2 x' y')) ->
  (forall x y x' y', R x x' -> R y y' -> simulated R (s1 x y) (s2 x' y')) ->
  (forall x y x' y', R x x' -> R y y' -> simulated (pair_par R) (q1 x y) (q2 x' y')) ->
  R x x' -> R y y' ->
  simulated (triple_par R) (default_extended_gcd z1 o1 ze1 m1 s1 q1 x y)
    (default_extended_gcd z2 o2 ze2 m2 s2 q2 x' y').
Proof.
move=> hz ho hze hm hs hq hx hy k.
suff h f a b a' b' : R a a' -> R b b' ->
    match extended_gcd_fuel f z1 o1 ze1 m1 s1 q1 a b k with
    | Done v => exists2 w, triple_par R v w & exists n, forall j g, n <= j -> f <= g ->
        extended_gcd_fuel g z2 o2 ze2 m2 s2 q2 a' b' j = Done w
    | Panicked => exists n, forall j g, n <= j -> f <= g ->
        extended_gcd_fuel g z2 o2 ze2 m2 s2 q2 a' b' j = Panicked
    | Unfinished => True end.
  rewrite /default_extended_gcd; have := h k _ _ _ _ hx hy.
  case: (extended_gcd_fuel k z1 o1 ze1 m1 s1 q1 x y k) => // [v [w Ivw [n hn]]|[n hn]].
    by exists w => //; exists (maxn n k) => j; rewrite geq_max => /andP[h1 h2]; exact: hn.
  by exists (maxn n k) => j; rewrite geq_max => /andP[h1 h2]; exact: hn.
elim: f a b a' b' => // f IH {hx hy}x {}y {}x' {}y' hx hy /=; rewrite /bind.
have := hz _ _ hy k; case: (z1 y k) => [b [b' [n hn] E]|[n hn]|] //; last first.
  by exists n => j [|g] // nj _; rewrite /= /bind hn.
subst b'.
case: b hn => hn /=.
  have := ho k; case: (o1 k) => [a [a' [n1 hn1] aa]|[n1 hn1]|] //; last first.
    exists (maxn n n1) => j [|g] //; rewrite geq_max => /andP[nj nj1] _.
    by rewrite /= /bind hn // hn1.
  have := hze k; case: (ze1 k) => [e [e' [n2 hn2] ee]|[n2 hn2]|] //.
    exists (x', a', e') => //; exists (maxn (maxn n n1) n2) => j [|g] //.
    rewrite !geq_max => /andP[/andP[nj nj1] nj2] _.
    by rewrite /= /bind hn // hn1 // hn2.
  exists (maxn (maxn n n1) n2) => j [|g] //; rewrite !geq_max => /andP[/andP[nj nj1] nj2] _.
  by rewrite /= /bind hn // hn1 // hn2.
have := hq _ _ _ _ hx hy k; case: (q1 x y k) => [qr [qr' [n1 hn1] [h1 h2]]|[n1 hn1]|] //; last first.
  exists (maxn n n1) => j [|g] //; rewrite geq_max => /andP[nj nj1] _.
  by rewrite /= /bind hn // hn1.
have := IH _ _ _ _ hy h2.
case: (extended_gcd_fuel f z1 o1 ze1 m1 s1 q1 y qr.2 k) => [[[e u] w] [t te [n2 hn2]]|[n2 hn2]|] //;
  last first.
  exists (maxn (maxn n n1) n2) => j [|g] //; rewrite !geq_max => /andP[/andP[nj nj1] nj2].
  by rewrite ltnS => fg; rewrite /= /bind hn // hn1 // hn2.
case: t te hn2 => [[e' u'] w'] [[/= he hu] hw] hn2.
have := hm _ _ _ _ hw h1 k; case: (m1 w qr.1 k) => [a [a' [n3 hn3] aa]|[n3 hn3]|] //; last first.
  exists (maxn (maxn n n1) (maxn n2 n3)) => j [|g] //.
  rewrite !geq_max => /andP[/andP[nj nj1] /andP[nj2 nj3]].
  by rewrite ltnS => fg; rewrite /= /bind hn // hn1 // hn2 // hn3.
have := hs _ _ _ _ hu aa k; case: (s1 u a k) => [d [d' [n4 hn4] dd]|[n4 hn4]|] //.
  exists (e', w', d') => //; exists (maxn (maxn n n1) (maxn (maxn n2 n3) n4)) => j [|g] //.
  rewrite !geq_max => /andP[/andP[nj nj1] /andP[/andP[nj2 nj3] nj4]].
  by rewrite ltnS => fg; rewrite /= /bind hn // hn1 // hn2 // hn3 // hn4.
exists (maxn (maxn n n1) (maxn (maxn n2 n3) n4)) => j [|g] //.
rewrite !geq_max => /andP[/andP[nj nj1] /andP[/andP[nj2 nj3] nj4]].
by rewrite ltnS => fg; rewrite /= /bind hn // hn1 // hn2 // hn3 // hn4.
Qed.

(** ** Default methods *)
Section Defaults.
Context {E1 E2 : Type} (R : E1 -> E2 -> Prop).
Local Notation par1 := (par1 R).
Local Notation par2 := (par2 R).
Local Notation par1b := (par1b R).
Local Notation par2b := (par2b R).
Local Notation par1o := (par1o R).
Local Notation par2o := (par2o R).
Local Notation par2p := (par2p R).
Local Notation par2t := (par2t R).

Definition power_par (s : Z * E1 * E1) (t : Z * E2 * E2) : Prop :=
  [/\ s.1.1 = t.1.1, R s.1.2 t.1.2 & R s.2 t.2].
Lemma par_power_loop o1 o2 d1 d2 num x y x' y' : par2 o1 o2 -> par1 d1 d2 -> R x x' -> R y y' ->
  par power_par (power_loop o1 d1 num x y) (power_loop o2 d2 num x' y').
Proof.
move=> ho hd hx hy; apply: par_while => //.
  by move=> [[n e] s] [[n' e'] s'] [/= <- _ _]; exact: par_ret.
move=> [[n e] s] [[n' e'] s'] [/= <- he hs]; apply: (par_bind (R := R)) => [|a b ab].
  by apply: par_if => _; [exact: par_ret|exact: ho].
by apply: par_bind (hd _ _ he) _ => c d cd; exact: par_ret.
Qed.
Lemma par_ntimes z1 z2 a1 a2 d1 d2 n : par R z1 z2 -> par2 a1 a2 -> par1 d1 d2 ->
  par1 (default_ntimes z1 a1 d1 n) (default_ntimes z2 a2 d2 n).
Proof.
move=> hz ha hd x x' hx; apply: par_bind hz _ => y y' hy.
by apply: par_bind (par_power_loop _ ha hd hx hy) _ => s t [_ _ h]; exact: par_ret.
Qed.
Lemma par_is_zero e1 e2 z1 z2 : par2b e1 e2 -> par R z1 z2 ->
  par1b (default_is_zero e1 z1) (default_is_zero e2 z2).
Proof. by move=> he hz x x' hx; apply: par_bind hz _ => z z' zz; exact: he. Qed.
Lemma par_isSome o1 o2 : option_par R o1 o2 -> isSome o1 = isSome o2.
Proof. by case: o1 o2 => [a|] [b|]. Qed.
Lemma par_invertible t1 t2 : par1o t1 t2 ->
  par1b (default_invertible t1) (default_invertible t2).
Proof.
by move=> h x x' hx; apply: par_bind (h _ _ hx) _ => o o' /par_isSome e; exact: par_ret.
Qed.
Lemma par_double a1 a2 : par2 a1 a2 -> par1 (default_double a1) (default_double a2).
Proof. by move=> h x x' hx; exact: h. Qed.
Lemma par_sub n1 n2 a1 a2 : par1 n1 n2 -> par2 a1 a2 ->
  par2 (default_sub n1 a1) (default_sub n2 a2).
Proof.
by move=> hn ha x y x' y' hx hy; apply: par_bind (hn _ _ hy) _ => z z' zz; exact: ha.
Qed.
Lemma par_sub_assign n1 n2 a1 a2 : par1 n1 n2 -> par2 a1 a2 ->
  par2 (default_sub_assign n1 a1) (default_sub_assign n2 a2).
Proof.
by move=> hn ha x y x' y' hx hy; apply: par_bind (hn _ _ hy) _ => z z' zz; exact: ha.
Qed.
Lemma par_divisible z1 z2 t1 t2 : par1b z1 z2 -> par2o t1 t2 ->
  par2b (default_divisible z1 t1) (default_divisible z2 t2).
Proof.
move=> hz ht x y x' y' hx hy; apply: par_bind (hz _ _ hy) _ => b _ <-.
case: b; first exact: hz.
by apply: par_bind (ht _ _ _ _ hx hy) _ => o o' /par_isSome e; exact: par_ret.
Qed.
Lemma par_associates d1 d2 : par2b d1 d2 ->
  par2b (default_associates d1) (default_associates d2).
Proof. by move=> h x y x' y' hx hy; apply: par_andM; apply: h. Qed.
Lemma par_quo q1 q2 : par2p q1 q2 -> par2 (default_quo q1) (default_quo q2).
Proof.
by move=> h x y x' y' hx hy; apply: par_bind (h _ _ _ _ hx hy) _ => z z' []; intros; exact: par_ret.
Qed.
Lemma par_rem q1 q2 : par2p q1 q2 -> par2 (default_rem q1) (default_rem q2).
Proof.
by move=> h x y x' y' hx hy; apply: par_bind (h _ _ _ _ hx hy) _ => z z' []; intros; exact: par_ret.
Qed.
Lemma par_reduced z1 z2 q1 q2 : par1b z1 z2 -> par2 q1 q2 ->
  par2b (default_reduced z1 q1) (default_reduced z2 q2).
Proof.
move=> hz hq x y x' y' hx hy; apply: par_orM; first exact: hz.
by apply: par_bind (hq _ _ _ _ hx hy) _ => q q' qq; exact: hz.
Qed.
Lemma par_gcd z1 z2 r1 r2 : par1b z1 z2 -> par2 r1 r2 ->
  par2 (default_gcd z1 r1) (default_gcd z2 r2).
Proof.
move=> hz hr x y x' y' hx hy.
apply: (par_bind (R := pair_par R)); last by move=> z z' [h _]; exact: par_ret.
apply: par_while => // s t [h1 h2]; first by apply: par_notM; exact: hz.
by apply: par_bind (hr _ _ _ _ h1 h2) _ => q q' qq; exact: par_ret.
Qed.
Lemma par_lcm z1 z2 m1 m2 q1 q2 g1 g2 : par1b z1 z2 -> par2 m1 m2 -> par2 q1 q2 ->
  par2 g1 g2 -> par2 (default_lcm z1 m1 q1 g1) (default_lcm z2 m2 q2 g2).
Proof.
move=> hz hm hq hg x y x' y' hx hy; apply: par_bind (hg _ _ _ _ hx hy) _ => g g' gg.
apply: par_bind (hz _ _ gg) _ => b _ <-; case: b; first exact: par_ret.
by apply: par_bind (hq _ _ _ _ hx gg) _ => q q' qq; exact: hm.
Qed.
Lemma par_extended_gcd z1 z2 o1 o2 ze1 ze2 m1 m2 s1 s2 q1 q2 :
  par1b z1 z2 -> par R o1 o2 -> par R ze1 ze2 -> par2 m1 m2 -> par2 s1 s2 ->
  par2p q1 q2 -> par2t (default_extended_gcd z1 o1 ze1 m1 s1 q1)
    (default_extended_gcd z2 o2 ze2 m2 s2 q2).
Proof.
move=> hz ho hze hm hs hq x y x' y' hx hy; split.
  apply: sim_par_extended_gcd hx hy; try by [case: ho|case: hze].
  - by move=> a a' ha; case: (hz _ _ ha).
  - by move=> a b a' b' ha hb; case: (hm _ _ _ _ ha hb).
  - by move=> a b a' b' ha hb; case: (hs _ _ _ _ ha hb).
  - by move=> a b a' b' ha hb; case: (hq _ _ _ _ ha hb).
apply: (@sim_par_extended_gcd _ _ (fun w v => R v w)) hx hy; try by [case: ho|case: hze].
- by move=> a a' ha; case: (hz _ _ ha) => _ /eq_sym_sim.
- by move=> a b a' b' ha hb; case: (hm _ _ _ _ ha hb).
- by move=> a b a' b' ha hb; case: (hs _ _ _ _ ha hb).
- by move=> a b a' b' ha hb; case: (hq _ _ _ _ ha hb).
Qed.
Lemma par_relative_primes i1 i2 g1 g2 : par1b i1 i2 -> par2 g1 g2 ->
  par2b (default_relative_primes i1 g1) (default_relative_primes i2 g2).
Proof.
by move=> hi hg x y x' y' hx hy; apply: par_bind (hg _ _ _ _ hx hy) _ => g g' gg; exact: hi.
Qed.
Lemma par_less_than e1 e2 l1 l2 : par2b e1 e2 -> par2b l1 l2 ->
  par2b (default_less_than e1 l1) (default_less_than e2 l2).
Proof.
move=> he hl x y x' y' hx hy; apply: par_andM; last exact: hl.
by apply: par_notM; exact: he.
Qed.
Lemma par_comparable l1 l2 : par2b l1 l2 ->
  par2b (default_comparable l1) (default_comparable l2).
Proof. by move=> hl x y x' y' hx hy; apply: par_orM; exact: hl. Qed.
End Defaults.
