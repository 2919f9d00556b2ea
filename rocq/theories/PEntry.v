(** * PEntry.v -- matrices, polynomials and vectors are computed entry by entry. *)

From Coq Require Import ZArith Lia.
From mathcomp Require Import all_ssreflect zify.
From Verif Require Import Rust Traits Wp MConstr SumSpec PSums EntrySpec HaltSpec ProfSpec.

Set Implicit Arguments.
Unset Strict Implicit.
Unset Printing Implicit Defensive.

Section Entry.
Variables (E : Type) (d : E) (Q : E -> Prop).

(** Both directions follow from one, because calls are deterministic. *)
Lemma entrywise_of (n : nat) (m : M (seq E)) entry :
  (forall k, k < n -> ends Q (entry k)) ->
  ensures (exists2 k, k < n & panics (entry k)) m (fun w => size w = n /\
     forall k, k < n -> returns (entry k) (nth d w k)) ->
  entrywise d n m entry.
Proof.
move=> he [[w [mw [sw we]]]|[[k kn pk] pm]].
  split=> [w'|]; split.
  - by move=> h; rewrite -(returns_det mw h).
  - case=> sw' we'; suff -> : w' = w by [].
    apply: (@eq_from_nth _ d); first by rewrite sw sw'.
    by move=> k; rewrite sw' => kn; exact: returns_det (we' k kn) (we k kn).
  - by move=> h; case: (returns_panics mw h).
  by case=> k kn pk; case: (returns_panics (we k kn) pk).
split=> [w'|]; split=> //.
- by move=> h; case: (returns_panics h pm).
- by case=> _ /(_ k kn) h; case: (returns_panics h pk).
by move=> _; exists k.
Qed.

Section Sum.
Variables (zero : M E) (mul add : E -> E -> M E).
Hypotheses (z0 : exists2 z, returns zero z & Q z) (hm : ends2 Q mul) (ha : ends2 Q add).
Notation sum := (sum_of_products zero mul add).

Lemma sum_rcons l x y : sum (rcons l (x, y)) =
  (let! s := sum l in let! z := mul x y in add s z)%rust.
Proof. by rewrite /sum_of_products foldl_rcons. Qed.
Lemma sum_panics l l' : panics (sum l) -> panics (sum (l ++ l')).
Proof.
elim/last_ind: l' => [|l' [x y] IH] h; first by rewrite cats0.
by rewrite -rcons_cat sum_rcons; apply: panics_bind; exact: IH.
Qed.
Lemma sum_ends l : (forall x y, List.In (x, y) l -> Q x /\ Q y) -> ends Q (sum l).
Proof.
elim/last_ind: l => [|l [x y] IH] h; first by left.
have hl : forall x y, List.In (x, y) l -> Q x /\ Q y.
  by move=> a b i; apply: h; rewrite -cats1; apply: List.in_or_app; left.
have [Qx Qy] : Q x /\ Q y.
  by apply: h; rewrite -cats1; apply: List.in_or_app; right; left.
rewrite sum_rcons; case: (IH hl) => [[s hs Qs]|p]; last by right; exact: panics_bind.
case: (hm Qx Qy) => [[z hz Qz]|p]; last first.
  by right; apply: panics_bind2 hs _; exact: panics_bind.
case: (ha Qs Qz) => [[t ht Qt]|p]; last first.
  by right; apply: panics_bind2 hs _; apply: panics_bind2 hz _.
by left; exists t => //; apply: returns_bind hs _; apply: returns_bind hz _.
Qed.

Let acc l s := returns (sum l) s /\ Q s.
Let bad l := panics (sum l).
Lemma sum_acc0 : ensures False zero (acc [::]).
Proof. by case: z0 => z h Qz; left; exists z; split. Qed.
Lemma sum_acc1 l s x y : Q x -> Q y -> acc l s ->
  ensures (bad (rcons l (x, y))) (mul x y) (fun z =>
    ensures (bad (rcons l (x, y))) (add s z) (acc (rcons l (x, y)))).
Proof.
move=> Qx Qy [hs Qs]; rewrite /bad /acc sum_rcons.
case: (hm Qx Qy) => [[z hz Qz]|p]; last first.
  by right; split=> //; apply: panics_bind2 hs _; exact: panics_bind.
left; exists z; split=> //; case: (ha Qs Qz) => [[t ht Qt]|p]; last first.
  by right; split=> //; apply: panics_bind2 hs _; apply: panics_bind2 hz _.
left; exists t; split=> //; split=> //.
by apply: returns_bind hs _; apply: returns_bind hz _.
Qed.
End Sum.

Lemma In_map_iota T (f : nat -> T) (s : seq nat) x : List.In x (map f s) ->
  exists2 k, k \in s & x = f k.
Proof.
elim: s => //= k s IH [<-|/IH[k' h ->]]; first by exists k => //; exact: mem_head.
by exists k' => //; rewrite in_cons h orbT.
Qed.

Section Matrix.
Variables (cfg : Cfg) (A : FieldAlg E) (n : nat).
Hypotheses (z0 : exists2 z, returns (zero A) z & Q z).
Hypotheses (hm : ends2 Q (mul A)) (ha : ends2 Q (add_assign A)).

Lemma matrix_entries (v u : seq E) : size v = n * n -> size u = n * n ->
  (forall k, k < n * n -> Q (nth d v k)) -> (forall k, k < n * n -> Q (nth d u k)) ->
  entrywise d ((n * n)) (mul (MatrixRing cfg A n) v u)
    (fun k => sum_of_products (zero A) (mul A) (add_assign A)
       (row_column d n v u (k %/ n) (k %% n))).
Proof.
move=> sv su Qv Qu.
have kE k : k < n * n -> [/\ k %/ n < n, k %% n < n & k %/ n * n + k %% n = k].
  move=> kn; have n0 : 0 < n by move: kn; case: (n).
  by split; rewrite ?ltn_divLR ?ltn_mod -?divn_eq.
apply: entrywise_of => [k kn|].
  have [h1 h2 _] := kE k kn.
  apply: sum_ends => // x y; rewrite /row_column => h; have [i] := In_map_iota h.
  rewrite mem_iota add0n => /andP[_ hi] [-> ->].
  by split; [apply: Qv|apply: Qu]; exact: at_lt.
have := matrix_mul_sums (Q := Q) (Q' := Q) (acc := fun l s =>
  returns (sum_of_products (zero A) (mul A) (add_assign A) l) s /\ Q s)
  (bad := fun l => panics (sum_of_products (zero A) (mul A) (add_assign A) l))
  (@sum_panics _ _ _) (sum_acc0 _ _ z0) (fun l s x y => @sum_acc1 _ _ _ hm ha l s x y)
  sv su Qv Qu.
move/ensures_weaken => h; apply: ensures_mono (h _ _) _ => [|w [sw we]].
  case=> i [j [hi hj p]]; exists (i * n + j); first exact: at_lt.
  have n0 : 0 < n by exact: leq_ltn_trans hj.
  by rewrite divnMDl // divn_small // addn0 modnMDl modn_small.
split=> // k kn; have [h1 h2 e] := kE k kn.
by have [] := we _ _ h1 h2; rewrite e.
Qed.
End Matrix.

Section Poly.
Variables (A : RingAlg E).
Hypotheses (z0 : exists2 z, returns (zero A) z & Q z).
Hypotheses (hm : ends2 Q (mul A)) (ha : ends2 Q (add A)).

Lemma poly_entries (v u : seq E) :
  (forall k, k < size v -> Q (nth d v k)) -> (forall k, k < size u -> Q (nth d u k)) ->
  entrywise d (if (size v == 0) || (size u == 0) then 0 else (size v + size u).-1)
    (mul (PolyRing A) v u)
    (fun k => sum_of_products (zero A) (mul A) (add A) (convolution d v u k)).
Proof.
move=> Qv Qu; case: ifP => h0.
  have e : mul (PolyRing A) v u = ret [::] by rewrite /= /poly_mul h0.
  rewrite e; split=> [w|]; split.
  - by move=> h; rewrite (returns_det h (returns_ret _)).
  - by case=> /size0nil -> _; exact: returns_ret.
  - by move=> h; case: (returns_panics (returns_ret _) h).
  by case.
apply: entrywise_of => [k kn|].
  apply: sum_ends => // x y; rewrite /convolution => h; have [i] := In_map_iota h.
  rewrite mem_filter mem_iota add0n => /andP[/andP[ik ki] /andP[_ iv]] [-> ->].
  by split; [apply: Qv|apply: Qu; rewrite ltn_subLR].
have := poly_mul_sums (Q := Q) (Q' := Q) (A := A) (S := A) (acc := fun l s =>
  returns (sum_of_products (zero A) (mul A) (add A) l) s /\ Q s)
  (bad := fun l => panics (sum_of_products (zero A) (mul A) (add A) l))
  (@sum_panics _ _ _) (sum_acc0 _ _ z0) (fun l s x y => @sum_acc1 _ _ _ hm ha l s x y)
  Qv Qu.
rewrite h0 => h; apply: ensures_mono h _ => w [sw we].
by split=> // k kn; have [] := we k; rewrite ?sw.
Qed.
End Poly.

Section Vector.
Lemma mapM_entries (f : E -> M E) : ends1 Q f ->
  forall v, (forall k, k < size v -> Q (nth d v k)) ->
  ensures (exists2 k, k < size v & panics (f (nth d v k))) (mapM f v) (fun w =>
    size w = size v /\ forall k, k < size v -> returns (f (nth d v k)) (nth d w k)).
Proof.
move=> hf; elim=> [|x v IH] Qv; first exact: ensures_ret.
have /IH h : forall k, k < size v -> Q (nth d v k) by move=> k; exact: (Qv k.+1).
rewrite /=; case: (hf x (Qv 0 isT)) => [[y hy Qy]|p]; last first.
  by right; split; [exists 0|exact: panics_bind].
apply: (@ensures_bind _ _ _ _ _ (fun z => z = y)); first by left; exists y.
move=> _ ->; apply: (@ensures_bind _ _ _ _ _ (fun w => size w = size v /\
    forall k, k < size v -> returns (f (nth d v k)) (nth d w k))).
  by apply: ensures_weaken h => -[k kv p]; exists k.+1.
move=> w [sw we]; apply: ensures_ret; split=> [|[|k]] //=; first by rewrite sw.
exact: we.
Qed.
Lemma map2M_entries (f : E -> E -> M E) : ends2 Q f ->
  forall v u, size v = size u -> (forall k, k < size v -> Q (nth d v k)) ->
  (forall k, k < size v -> Q (nth d u k)) ->
  ensures (exists2 k, k < size v & panics (f (nth d v k) (nth d u k))) (map2M f v u) (fun w =>
    size w = size v /\
    forall k, k < size v -> returns (f (nth d v k) (nth d u k)) (nth d w k)).
Proof.
move=> hf; elim=> [|x v IH] [|y u] //; first by move=> *; exact: ensures_ret.
case=> su Qv Qu; have {}IH := IH u su (fun k => Qv k.+1) (fun k => Qu k.+1).
rewrite /=; case: (hf x y (Qv 0 isT) (Qu 0 isT)) => [[z hz Qz]|p]; last first.
  by right; split; [exists 0|exact: panics_bind].
apply: (@ensures_bind _ _ _ _ _ (fun t => t = z)); first by left; exists z.
move=> _ ->; apply: (@ensures_bind _ _ _ _ _ (fun w => size w = size v /\
    forall k, k < size v -> returns (f (nth d v k) (nth d u k)) (nth d w k))).
  by apply: ensures_weaken IH => -[k kv p]; exists k.+1.
move=> w [sw we]; apply: ensures_ret; split=> [|[|k]] //=; first by rewrite sw.
exact: we.
Qed.

Variable n : nat.
Lemma entrywise_map (f : E -> M E) : ends1 Q f ->
  entrywise1 d Q n f (fun v => do! assert_len1 n v in mapM f v)%rust.
Proof.
move=> hf v sv Qv; apply: entrywise_of => [k kn|]; first exact: hf (Qv k kn).
rewrite /assert_len1 sv eqxx; apply: ensures_bret.
by rewrite -sv; apply: mapM_entries => //; rewrite sv.
Qed.
Lemma entrywise_map2 (f : E -> E -> M E) : ends2 Q f ->
  entrywise2 d Q n f (fun v u => do! assert_len2 n v u in map2M f v u)%rust.
Proof.
move=> hf v u sv su Qv Qu; apply: entrywise_of => [k kn|]; first exact: hf (Qv k kn) (Qu k kn).
rewrite /assert_len2 sv su eqxx; apply: ensures_bret.
by rewrite -sv; apply: map2M_entries => //; rewrite ?sv.
Qed.
End Vector.
End Entry.

(** ** The methods *)
Section Methods.
Variables (cfg : Cfg) (E : Type) (d : E) (Q : E -> Prop).

Lemma halts_ends (m : M E) : halts Q m m -> ends Q m.
Proof. by case=> [[v [h1 h2]]|h]; [left; exists v|right]. Qed.
Lemma halts_ends1 f : rel1 (@halts) Q f f -> ends1 Q f.
Proof. by move=> h x hx; apply: halts_ends; exact: h. Qed.
Lemma halts_ends2 f : rel2 (@halts) Q f f -> ends2 Q f.
Proof. by move=> h x y hx hy; apply: halts_ends; exact: h. Qed.

Section Ring.
Variable A : RingAlg E.
Hypothesis hA : ring_alg_rel (@halts) every_num Q A A.
Lemma zero_ends : (exists z, returns (zero A) z) -> exists2 z, returns (zero A) z & Q z.
Proof.
case=> z hz; case: (zero_rel hA) => [[v [hv Qv]]|p]; last by case: (returns_panics hz p).
by exists v.
Qed.
Lemma poly_product : (exists z, returns (zero A) z) -> forall v u : seq E,
  (forall k, k < size v -> Q (nth d v k)) -> (forall k, k < size u -> Q (nth d u k)) ->
  entrywise d (if (size v == 0) || (size u == 0) then 0 else (size v + size u).-1)
    (mul (PolyRing A) v u)
    (fun k => sum_of_products (zero A) (mul A) (add A) (convolution d v u k)).
Proof.
by move=> /zero_ends h v u; apply: (@poly_entries _ d Q A h);
  apply: halts_ends2; [exact: (mul_rel hA)|exact: (add_rel hA)].
Qed.
Lemma vector_ring_entries n (B := VectorRing cfg n A) :
  [/\ entrywise2 d Q n (mul A) (mul B), entrywise2 d Q n (mul_assign A) (mul_assign B)
    & entrywise1 d Q n (square A) (square B)] /\
  [/\ entrywise2 d Q n (add A) (add B), entrywise2 d Q n (add_assign A) (add_assign B)
    & entrywise1 d Q n (double A) (double B)] /\
  [/\ entrywise1 d Q n (neg A) (neg B), entrywise1 d Q n (neg_assign A) (neg_assign B),
      entrywise2 d Q n (sub A) (sub B) & entrywise2 d Q n (sub_assign A) (sub_assign B)].
Proof.
split; first by split; [apply: entrywise_map2|apply: entrywise_map2|apply: entrywise_map];
  [apply: halts_ends2; exact: (mul_rel hA)|apply: halts_ends2; exact: (mul_assign_rel hA)
  |apply: halts_ends1; exact: (square_rel hA)].
split; first by split; [apply: entrywise_map2|apply: entrywise_map2|apply: entrywise_map];
  [apply: halts_ends2; exact: (add_rel hA)|apply: halts_ends2; exact: (add_assign_rel hA)
  |apply: halts_ends1; exact: (double_rel hA)].
by split; [apply: entrywise_map|apply: entrywise_map|apply: entrywise_map2|apply: entrywise_map2];
  [apply: halts_ends1; exact: (neg_rel hA)|apply: halts_ends1; exact: (neg_assign_rel hA)
  |apply: halts_ends2; exact: (sub_rel hA)|apply: halts_ends2; exact: (sub_assign_rel hA)].
Qed.
End Ring.

Section Field.
Variable A : FieldAlg E.
Hypothesis hA : field_alg_rel (@halts) every_num Q A A.
Lemma matrix_product : (exists z, returns (zero A) z) -> forall (n : nat) (v u : seq E),
  size v = n * n -> size u = n * n ->
  (forall k, k < n * n -> Q (nth d v k)) -> (forall k, k < n * n -> Q (nth d u k)) ->
  entrywise d (n * n) (mul (MatrixRing cfg A n) v u)
    (fun k => sum_of_products (zero A) (mul A) (add_assign A)
       (row_column d n v u (k %/ n) (k %% n))).
Proof.
move=> /(zero_ends hA) h n v u.
exact: (@matrix_entries _ d Q cfg A n h (halts_ends2 (mul_rel hA))
  (halts_ends2 (add_assign_rel hA))).
Qed.
Lemma matrix_sum n (B := MatrixRing cfg A n) (m := n * n) :
  [/\ entrywise2 d Q m (add A) (add B), entrywise2 d Q m (add_assign A) (add_assign B)
    & entrywise1 d Q m (double A) (double B)] /\
  [/\ entrywise1 d Q m (neg A) (neg B), entrywise1 d Q m (neg_assign A) (neg_assign B),
      entrywise2 d Q m (sub A) (sub B) & entrywise2 d Q m (sub_assign A) (sub_assign B)].
Proof. by have [_] := vector_ring_entries hA m. Qed.
End Field.

Lemma vector_lattice_entries n (A : LatticeAlg E) (B := VectorLattice n A) :
  lattice_alg_rel (@halts) Q A A ->
  entrywise2 d Q n (meet A) (meet B) /\ entrywise2 d Q n (join A) (join B).
Proof.
move=> hA; split; apply: entrywise_map2; apply: halts_ends2.
  exact: (meet_rel hA).
exact: (join_rel hA).
Qed.
End Methods.
