(** * PSums.v -- products of matrices and polynomials are running sums of products.

    [acc l s]: the value [s] was obtained by adding the products of the pairs [l];
    [bad l]: on the way there a call may panic. *)

From Coq Require Import ZArith Lia.
From mathcomp Require Import all_ssreflect zify.
From Verif Require Import Rust Traits Wp MConstr SumSpec.

Set Implicit Arguments.
Unset Strict Implicit.
Unset Printing Implicit Defensive.

Section Index.
Variable n : nat.
Lemma at_lt (i j : nat) : i < n -> j < n -> i * n + j < n * n.
Proof. by move=> hi hj; nia. Qed.
Lemma at_eq (i j a b : nat) : j < n -> b < n -> i * n + j = a * n + b -> i = a /\ j = b.
Proof.
move=> hj hb h; have n0 : 0 < n by exact: leq_ltn_trans hj.
have ia : i = a by have := congr1 (divn^~ n) h; rewrite !divnMDl // !divn_small // !addn0.
by split=> //; move: h; rewrite ia => /addnI.
Qed.
End Index.

Section Vec.
Variables (p : Prop) (E : Type) (d : E).
Lemma vget_at (v : seq E) i : i < size v -> vget v i = ret (nth d v i).
Proof. by move=> h; rewrite /vget (drop_nth d h). Qed.
Lemma ensures_at (v : seq E) i : i < size v -> ensures p (vget v i) (fun x => x = nth d v i).
Proof. by move=> h; rewrite vget_at //; exact: ensures_ret. Qed.
Lemma vset_nth (v : seq E) i x : i < size v ->
  ensures p (vset v i x) (fun w => size w = size v /\
    forall k, nth d w k = if k == i then x else nth d v k).
Proof.
move=> h; rewrite /vset h; apply: ensures_ret.
have sz : size (take i v) = i by rewrite size_takel // ltnW.
split=> [|k].
  by rewrite size_cat sz /= size_drop -subSn // subSS subnKC // ltnW.
rewrite nth_cat sz; case: (ltngtP k i) => [lt|gt|->]; first by rewrite nth_take.
  by case: k gt => // k gt; rewrite subSn //= nth_drop addSn subnKC.
by rewrite subnn.
Qed.
End Vec.

Section Build.
Variables (p : Prop) (E : Type) (d : E) (n : nat) (Q : nat -> nat -> E -> Prop).
(** A matrix written row by row by [push]. *)
Lemma build_rows (body : nat -> nat -> seq E -> M (seq E)) :
  (forall i j res, i < n -> j < n ->
     ensures p (body i j res) (fun w => exists2 x, w = rcons res x & Q i j x)) ->
  ensures p (for_loop 0 n (fun row res => for_loop 0 n (body row) res) [::])
    (fun w => size w = n * n /\
       forall i j, i < n -> j < n -> Q i j (nth d w (i * n + j))).
Proof.
move=> hb.
pose J k (w : seq E) := size w = k /\
  forall i j, i < n -> j < n -> i * n + j < k -> Q i j (nth d w (i * n + j)).
have J0 : J (0 * n) [::] by [].
apply: ensures_mono (@ensures_for _ p 0 n _ _ (fun i => J (i * n)) J0 _) _; last first.
  move=> w [sw wQ]; split=> // i j hi hj; apply: wQ => //; rewrite add0n.
  exact: at_lt.
move=> i w /andP[_ ilt] Jw; rewrite add0n in ilt.
have Jw0 : J (i * n + 0) w by rewrite addn0.
apply: ensures_mono (@ensures_for _ p 0 n _ _ (fun j => J (i * n + j)) Jw0 _) _; last first.
  by move=> w'; rewrite add0n mulSn addnC.
move=> j w' /andP[_ jlt] [sw wQ]; rewrite add0n in jlt.
apply: ensures_mono (hb i j w' ilt jlt) _ => _ [x -> xQ]; split.
  by rewrite size_rcons sw addnS.
move=> a b ha hbn; rewrite addnS ltnS leq_eqVlt nth_rcons sw => /orP[/eqP e|lt].
  have [-> ->] := at_eq hbn jlt e.
  by rewrite ltnn eqxx.
by rewrite lt; exact: wQ.
Qed.
End Build.

Section Sums.
Variables (E : Type) (d : E) (Q Q' : E -> Prop).
Variables (acc : seq (E * E) -> E -> Prop) (bad : seq (E * E) -> Prop).
Hypothesis bad_more : forall l l', bad l -> bad (l ++ l').

Section Matrix.
Variables (A : FieldAlg E) (n : nat).
Hypothesis acc0 : ensures False (zero A) (acc [::]).
Hypothesis acc1 : forall l s x y, Q x -> Q' y -> acc l s ->
  ensures (bad (rcons l (x, y))) (mul A x y) (fun z =>
    ensures (bad (rcons l (x, y))) (add_assign A s z) (acc (rcons l (x, y)))).

Lemma transpose_at p (u : seq E) : size u = n * n ->
  ensures p (matrix_transpose n u) (fun w => size w = n * n /\
    forall i j, i < n -> j < n -> nth d w (i * n + j) = nth d u (j * n + i)).
Proof.
move=> su; rewrite /matrix_transpose /matrix_len su eqxx /=; apply: ensures_bret.
apply: (@build_rows p E d n (fun i j x => x = nth d u (j * n + i))) => i j res hi hj.
rewrite (vget_at d); last by rewrite su; exact: at_lt.
by apply: ensures_bret; apply: ensures_ret; exists (nth d u (j * n + i)).
Qed.

Lemma matrix_mul_sums (v u : seq E) : size v = n * n -> size u = n * n ->
  (forall k, k < n * n -> Q (nth d v k)) -> (forall k, k < n * n -> Q' (nth d u k)) ->
  ensures (exists i j, [/\ i < n, j < n & bad (row_column d n v u i j)]) (matrix_mul A n v u)
    (fun w => size w = n * n /\
       forall i j, i < n -> j < n -> acc (row_column d n v u i j) (nth d w (i * n + j))).
Proof.
move=> sv su Qv Qu; set p := (p in ensures p).
rewrite /matrix_mul /matrix_len sv su eqxx /=; apply: ensures_bret.
apply: ensures_bind (transpose_at p su) _ => t [st tE].
apply: (@build_rows p E d n (fun i j => acc (row_column d n v u i j))) => i j res hi hj.
apply: (@ensures_bind _ _ _ _ _ (acc [::])).
  by case: acc0 => [[z [zz zA]]|[[]]]; left; exists z.
move=> z zA; pose I k := acc (take k (row_column d n v u i j)).
have srow : size (row_column d n v u i j) = n by rewrite size_map size_iota.
have I0 : I 0 z by rewrite /I take0.
apply: ensures_bind (@ensures_for _ p 0 n _ _ I I0 _) _; last first.
  move=> x; rewrite /I add0n -{1}srow take_size => xA.
  by apply: ensures_ret; exists x.
move=> k x /andP[_]; rewrite add0n => kn xA.
rewrite (vget_at d); last by rewrite sv; exact: at_lt.
apply: ensures_bret; rewrite (vget_at d); last by rewrite st; exact: at_lt.
apply: ensures_bret; rewrite tE //.
have e : take k.+1 (row_column d n v u i j) =
    rcons (take k (row_column d n v u i j)) (nth d v (i * n + k), nth d u (k * n + j)).
  rewrite (take_nth (d, d)) ?srow //; congr rcons.
  by rewrite (nth_map 0) ?size_iota // nth_iota.
have pb : bad (take k.+1 (row_column d n v u i j)) -> p.
  move=> b; exists i, j; split=> //.
  by rewrite -(cat_take_drop k.+1 (row_column d n v u i j)); exact: bad_more.
have Qx : Q (nth d v (i * n + k)) by apply: Qv; exact: at_lt.
have Qy : Q' (nth d u (k * n + j)) by apply: Qu; exact: at_lt.
move: pb; rewrite /I e => pb.
apply: ensures_bind (ensures_weaken pb (acc1 Qx Qy xA)) _ => z' h.
exact: ensures_weaken pb h.
Qed.
End Matrix.

Section Poly.
Variables (A : AbelianAlg E) (S : Semigroup E).
Hypothesis acc0 : ensures False (zero A) (acc [::]).
Hypothesis acc1 : forall l s x y, Q x -> Q' y -> acc l s ->
  ensures (bad (rcons l (x, y))) (mul S x y) (fun z =>
    ensures (bad (rcons l (x, y))) (add A s z) (acc (rcons l (x, y)))).

Let part v u m k : seq (E * E) :=
  [seq (nth d v i, nth d u (k - i)) | i <- iota 0 m & (i <= k) && (k < i + size u)].
Lemma partS v u m k : part v u m.+1 k = if (m <= k) && (k < m + size u)
  then rcons (part v u m k) (nth d v m, nth d u (k - m)) else part v u m k.
Proof.
rewrite /part -(addn1 m) iotaD add0n /= filter_cat map_cat /=.
by case: ifP => _; rewrite ?cats1 ?cats0.
Qed.
Lemma part_prefix v u m k : m <= size v ->
  exists l, convolution d v u k = part v u m k ++ l.
Proof.
move=> ms; rewrite /convolution -{1}(subnKC ms) iotaD filter_cat map_cat.
by eexists.
Qed.

Lemma poly_mul_sums (v u : seq E) :
  (forall k, k < size v -> Q (nth d v k)) -> (forall k, k < size u -> Q' (nth d u k)) ->
  ensures (exists2 k, k < (size v + size u).-1 & bad (convolution d v u k)) (poly_mul A S v u)
    (fun w => size w = (if (size v == 0) || (size u == 0) then 0 else (size v + size u).-1) /\
       forall k, k < size w -> acc (convolution d v u k) (nth d w k)).
Proof.
move=> Qv Qu; set p := (p in ensures p).
rewrite /poly_mul; case: ifP => h0; first exact: ensures_ret.
have [v0 u0] : 0 < size v /\ 0 < size u by move: h0; case: (size v); case: (size u).
apply: (@ensures_bind _ _ _ _ _ (acc [::])).
  by case: acc0 => [[z [zz zA]]|[[]]]; left; exists z.
move=> z zA; pose N := (size v + size u).-1.
have NE : size v + size u - 1 = N by rewrite subn1.
pose I m (w : seq E) := size w = N /\ forall k, k < N -> acc (part v u m k) (nth d w k).
have I0 : I 0 (vresize [::] (size v + size u - 1) z).
  by rewrite NE /vresize subn0; split=> [|k kN]; rewrite ?size_nseq // nth_nseq kN.
apply: ensures_mono (@ensures_for _ p 0 (size v) _ _ I I0 _) _; last first.
  by move=> w [-> h].
move=> i w /andP[_]; rewrite add0n => iv [sw wA].
pose J m (w : seq E) := size w = N /\ forall k, k < N ->
  acc (if (i <= k) && (k < i + m) then rcons (part v u i k) (nth d v i, nth d u (k - i))
       else part v u i k) (nth d w k).
have J0 : J 0 w.
  split=> // k kN; case: ifP => [|_]; last exact: wA.
  by rewrite addn0 => /andP[a b]; move: (leq_ltn_trans a b); rewrite ltnn.
apply: ensures_mono (@ensures_for _ p 0 (size u) _ _ J J0 _) _; last first.
  by move=> w' [sw' h]; split=> // k kN; rewrite partS; have := h k kN; rewrite add0n.
move=> j w' /andP[_]; rewrite add0n => ju [sw' wA'].
have ijN : i + j < N by rewrite /N; lia.
rewrite (vget_at d iv); apply: ensures_bret; rewrite (vget_at d ju); apply: ensures_bret.
have cA : acc (part v u i (i + j)) (nth d w' (i + j)).
  have := wA' _ ijN; rewrite leq_addr /= ltnn; exact.
have pb : bad (rcons (part v u i (i + j)) (nth d v i, nth d u j)) -> p.
  move=> b; exists (i + j) => //.
  have [l ->] := @part_prefix v u i.+1 (i + j) iv.
  by apply: bad_more; rewrite partS leq_addr ltn_add2l ju /= addKn.
apply: ensures_bind (ensures_weaken pb (acc1 (Qv _ iv) (Qu _ ju) cA)) _ => a h.
rewrite (vget_at d) ?sw' //; apply: ensures_bret.
apply: ensures_bind (ensures_weaken pb h) _ => c' cA'.
apply: ensures_mono (vset_nth p d c' _) _; first by rewrite sw'.
move=> w'' [sw'' wE]; rewrite sw' in sw''; split=> // k kN; rewrite wE.
case: (eqVneq k (i + j)) => [->|ne].
  by rewrite leq_addr ltn_add2l ltnSn /= addKn.
have := wA' k kN; congr (acc (if _ then _ else _) _); congr (_ && _).
by rewrite addnS ltnS [in RHS]leq_eqVlt (negbTE ne).
Qed.
End Poly.
End Sums.
