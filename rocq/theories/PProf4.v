(** * PProf4.v -- matrix inversion compiled with two profiles. *)

From Coq Require Import ZArith Lia List.
From mathcomp Require Import all_ssreflect all_algebra zify ssrZ.
From Verif Require Import Rust Traits MInts MConstr Wp Spec PMat RingSpec PSim PGSim CallSpec
  PAssign ProfSpec PProf PProf2 PProf3 PWeaken.

Set Implicit Arguments.
Unset Strict Implicit.
Unset Printing Implicit Defensive.

(** ** [equals] does not panic *)
Lemma all2M_total S T (P : S -> Prop) (Q : T -> Prop) f s t :
  (forall x y, P x -> Q y -> ensures False (f x y) any) -> every P s -> every Q t ->
  ensures False (all2M f s t) any.
Proof.
move=> h; elim: s t => [|x s IH] [|y t] //=; try by move=> *; exact: ensures_ret.
move=> [Px Ps] [Qy Qt]; apply: ensures_bind (h _ _ Px Qy) _ => -[] _; last exact: ensures_ret.
exact: IH.
Qed.

Fixpoint equals_eucl_total E (ty : E -> Prop) A (h : prof_eucl ty A) {struct h} :
  forall c x y, ty x -> ty y -> ensures False (equals (A c) x y) any
with equals_field_total E (ty : E -> Prop) A (h : prof_field ty A) {struct h} :
  forall c x y, ty x -> ty y -> ensures False (equals (A c) x y) any.
Proof.
- case: E ty A / h => [|w w2|E ty A hA|E ty A hA] c.
  + by move=> *; exact: ensures_ret.
  + by move=> *; exact: ensures_ret.
  + exact: (equals_field_total _ _ _ hA c).
  + move=> v u Qv Qu; rewrite /= /poly_equals; case: ifP => _; first exact: ensures_ret.
    exact: all2M_total (equals_field_total _ _ _ hA c) Qv Qu.
- case: E ty A / h => [|E ty A m hA hm|E ty A hA] c.
  + by move=> *; exact: ensures_ret.
  + exact: (equals_eucl_total _ _ _ hA c).
  + move=> [a b] [a' b'] [/= Qa Qb] [/= Qa' Qb'].
    apply: ensures_bind (equals_eucl_total _ _ _ hA c _ _ Qa Qa') _ => -[] _.
      exact: (equals_eucl_total _ _ _ hA c).
    exact: ensures_ret.
Qed.

Section TryInv.
Variables (E : Type) (n : nat) (F : fieldType) (rep : E -> F -> Prop).
Local Notation mrep := (@mat_rep n E F rep).

(** The same call without the debug assertion. *)
Definition no_debug (c : Cfg) : Cfg := mkCfg (overflow_checks c) false (ptr_bits c).

Lemma try_inv_no_debug c (A : FieldAlg E) v (N : 'M[F]_n) : field_alg_spec c True rep A ->
  Z.le 2 (ptr_bits c) ->
  (forall x a y b, rep x a -> rep y b -> ensures False (equals A x y) any) ->
  mrep v N -> same_call (matrix_try_inv c A n v) (matrix_try_inv (no_debug c) A n v).
Proof.
move=> hF hc heq vN.
have [dbg|dbg] := boolP (debug_assertions c); last first.
  by rewrite /matrix_try_inv /debug_assert (negbTE dbg); apply: same_run_call.
have t1 := mat_try_inv hF hc vN.
have loop o : mrep o 1%:M -> ensures True (for_loop_ret 0 n (inv_step A n) (v, o)) _ :=
  fun h => mat_inv_loop hF hc vN h.
have h1 := mat_one hF n hc.
have key (u : seq E) o : returns (matrix_one A n) o -> mrep o 1%:M -> mrep u 1%:M ->
    returns (debug_assert c (matrix_is_one A n u)) tt.
  move=> ro oE uE; rewrite /debug_assert dbg.
  have h : ensures False (matrix_is_one A n u) any.
    apply: (ensures_bind (R := fun o' => o' = o)).
      by left; exists o.
    move=> _ ->; have [r [ur su _]] := uE; have [r' [or so _]] := oE.
    have [su' so'] : size u = matrix_len n /\ size o = matrix_len n.
      by rewrite (reps_size ur) (reps_size or).
    rewrite /= su' so' !eqxx /= bind_ret.
    apply: (@all2M_total _ _ (fun x => exists a, rep x a) (fun x => exists a, rep x a)).
    - by move=> x y [a xa] [b yb]; exact: heq xa yb.
    - by elim: ur => //= x a w s xa _ IH; split=> //; exists a.
    - by elim: or => //= x a w s xa _ IH; split=> //; exists a.
  have [b [rb _]] : exists b, returns (matrix_is_one A n u) b /\ True by exact: ensures_False h.
  have := ensures_value (mat_is_one hF hc uE) rb; rewrite eqxx => eb; rewrite eb in rb.
  exact: returns_bind rb (returns_ret tt).
rewrite /matrix_try_inv.
case: h1 => [[o [ro oE]]|[_ po]]; last first.
  have h (f g : seq E -> M (option (seq E))) :
      same_call (bind (matrix_one A n) f) (bind (matrix_one A n) g).
    have hf := panics_bind f po; have hg := panics_bind g po.
    split; [move=> w; split=> hw|by split|].
    - by case: (returns_panics hw hf).
    - by case: (returns_panics hw hg).
    - split=> hd; exfalso; [case: hf|case: hg] => k /(_ k (leqnn k)); by rewrite hd.
  exact: h.
suff h (f g : seq E -> M (option (seq E))) : (exists2 w, returns (f o) w & returns (g o) w) \/
    (panics (f o) /\ panics (g o)) -> same_call (bind (matrix_one A n) f) (bind (matrix_one A n) g).
  apply: h; case: (loop o oE) => [[[[u w]|z] [rl]]|[_ pl]].
  - move=> [/= uE _]; left; exists (Some w).
      apply: returns_bind rl _; apply: returns_bind (key u o ro oE uE) _; exact: returns_ret.
    by apply: returns_bind rl _; exact: returns_ret.
  - by move=> _; left; exists None; apply: returns_bind rl _; exact: returns_ret.
  - by right; split; exact: panics_bind.
case=> [[w rf rg]|[pf pg]].
  have hf := returns_bind ro rf; have hg := returns_bind ro rg.
  split.
  - by move=> w'; split=> h; [rewrite (returns_det h hf)|rewrite (returns_det h hg)].
  - by split=> h; [case: (returns_panics hf h)|case: (returns_panics hg h)].
  - by split=> h; [case: (returns_diverges hf h)|case: (returns_diverges hg h)].
have hf := panics_bind2 ro pf; have hg := panics_bind2 ro pg.
split; [move=> w; split=> hw|by split|].
- by case: (returns_panics hw hf).
- by case: (returns_panics hw hg).
- split=> hd; exfalso; [case: hf|case: hg] => k /(_ k (leqnn k)); by rewrite hd.
Qed.
End TryInv.

Lemma same_call_sym A (m1 m2 : M A) : same_call m1 m2 -> same_call m2 m1.
Proof. by case=> h1 h2 h3; split=> [v| |]; split; move/h1 || move/h2 || move/h3. Qed.
Lemma same_call_trans A (m1 m2 m3 : M A) : same_call m1 m2 -> same_call m2 m3 -> same_call m1 m3.
Proof.
case=> h1 h2 h3 [g1 g2 g3]; split=> [v| |].
- exact: iff_trans (h1 v) (g1 v).
- exact: iff_trans h2 g2.
- exact: iff_trans h3 g3.
Qed.

Lemma agree_matrix_try_inv (c1 c2 : Cfg) (p : Prop) (E : Type) (ty : E -> Prop) (n : nat) A
    (F : fieldType) (rep : E -> F -> Prop) :
  same_machine c1 c2 -> Z.le 2 (ptr_bits c1) -> prof_field ty A ->
  (forall x a, rep x a -> ty x) ->
  field_alg_spec c1 p rep (A c1) -> field_alg_spec c2 p rep (A c2) ->
  forall (x : seq E) (N : 'M[F]_n), matrix_of rep x N ->
  same_call (try_inv (MatrixRing c1 (A c1) n) x) (try_inv (MatrixRing c2 (A c2) n) x).
Proof.
move=> hc h2 hA rty hF1 hF2 x N xN.
have w1 : field_alg_spec c1 True rep (A c1) by exact: field_alg_weaken hF1.
have w2 : field_alg_spec c2 True rep (A c2) by exact: field_alg_weaken hF2.
have te c y a z b : rep y a -> rep z b -> ensures False (equals (A c) y z) any.
  by move=> ya zb; apply: equals_field_total hA c _ _ (rty _ _ ya) (rty _ _ zb).
have h2' : Z.le 2 (ptr_bits c2) by rewrite -hc.
apply: same_call_trans (try_inv_no_debug w1 h2 (@te c1) xN) _.
apply: same_call_trans (same_call_sym (try_inv_no_debug w2 h2' (@te c2) xN)).
have okP k := @not_minP c1 c2 k hc; have h1 := not_min1 h2.
have hF := prof_field_all okP hA.
have Qx : every ty x.
  by case: xN => r [xr _ _]; elim: xr => //= y a s t ya _ IH; split=> //; exact: rty ya.
have [|_ e] := @prof_matrix_try_inv True (no_debug c1) (no_debug c2) _ _ _ _ _ n hF h1 _ x Qx.
  by move=> v Qv; exact: gsim_refl.
by apply: same_run_call; exact: e.
Qed.
