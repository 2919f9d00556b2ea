(** * POver.v -- when the arithmetic of vectors and polynomials of machine integers panics. *)

From mathcomp Require Import all_ssreflect all_algebra zify ssrZ.
From Coq Require Import ZArith Lia.
From Verif Require Import Rust Traits MInts MConstr Wp Spec ZFacts PIntsZ PInts PChecked
  Laws PCISim NumSpec PNum PTimes OverSpec.

Set Implicit Arguments.
Unset Strict Implicit.
Unset Printing Implicit Defensive.

Local Open Scope Z_scope.

(** ** Composing calls that return or panic *)
Lemma ei_bind A B (m : M A) v (f : A -> M B) u b c :
  exact_if b m v -> exact_if c (f v) u -> exact_if (b && c) (bind m f) u.
Proof.
rewrite /exact_if; case: b => /= h1 h2; last exact: panics_bind.
by case: c h2 => h2; [apply: returns_bind h1 h2|apply: panics_bind2 h1 h2].
Qed.
Lemma ei_ret A (v : A) : exact_if true (ret v) v.
Proof. exact: returns_ret. Qed.
Lemma ei_assert A b (m : M A) v : exact_if b m v -> exact_if b (do! assert true in m) v.
Proof. by move=> h; rewrite /assert bind_ret. Qed.
Lemma ei_eq A b c (m : M A) v u : b = c -> v = u -> exact_if c m u -> exact_if b m v.
Proof. by move=> -> ->. Qed.
Lemma ei_for S lo n (st : nat -> S) (b : nat -> bool) body :
  (forall i, (lo <= i < lo + n)%nat -> exact_if (b i) (body i (st i)) (st i.+1)) ->
  exact_if (all b (iota lo n)) (for_loop lo n body (st lo)) (st (lo + n)%nat).
Proof.
elim: n lo => [|n IH] lo h /=; first by rewrite addn0; exact: returns_ret.
apply: ei_bind; first by apply: h; rewrite leqnn addnS ltnS leq_addr.
rewrite addnS -addSn; apply: IH => i /andP[h1 h2]; apply: h; rewrite addnS -addSn h2 andbT.
exact: ltnW.
Qed.
Lemma ei_checked A (P : Prop) (b : bool) (m : M A) v : (b <-> P) -> exact_if b m v -> checked P m v.
Proof. exact: exact_checked'. Qed.

Lemma ei_mapM A B (f : A -> M B) g b s : (forall x, exact_if (b x) (f x) (g x)) ->
  exact_if (all b s) (mapM f s) (map g s).
Proof.
move=> h; elim: s => [|x s IH] /=; first exact: returns_ret.
apply: ei_bind (h x) _; rewrite -[all b s]andbT; apply: ei_bind IH _; exact: returns_ret.
Qed.
Lemma ei_map2M A B C (f : A -> B -> M C) g b s t : size s = size t ->
  (forall x y, exact_if (b x y) (f x y) (g x y)) ->
  exact_if (all (fun z => b z.1 z.2) (zip s t)) (map2M f s t) (map (fun z => g z.1 z.2) (zip s t)).
Proof.
move=> st h; elim: s t st => [|x s IH] [|y t] //=; first by move=> _; exact: returns_ret.
move=> [/IH{}IH]; apply: ei_bind (h x y) _; rewrite -[all _ _]andbT.
by apply: ei_bind IH _; exact: returns_ret.
Qed.

Section Over.
Variables (cfg : Cfg) (w : Z).
Local Notation CI := (CheckedInts cfg w).

Lemma coefE v k : coef v k = nth 0 v k.
Proof. by rewrite /coef; elim: v k => [|x v IH] [|k] //=. Qed.

(** ** Vectors *)
Lemma vec2 (n : nat) (f : Z -> Z -> M Z) (g : Z -> Z -> Z) (m : M (seq Z)) x y :
  (forall a b, exact_if (in_i w (g a b)) (f a b) (g a b)) ->
  size x = n -> size y = n -> m = (do! assert_len2 n x y in map2M f x y) ->
  vector_checked n (forall k, (k < n)%nat -> fits w (g (coef x k) (coef y k))) m
    (fun k => g (coef x k) (coef y k)).
Proof.
move=> h sx sy ->; rewrite /assert_len2 sx sy eqxx /=.
have sz : size (zip x y) = n by rewrite size1_zip sx // sy.
exists (map (fun z => g z.1 z.2) (zip x y)).
  split; first by rewrite -sz -(size_map (fun z => g z.1 z.2)).
  by move=> k /ltP kn; rewrite !coefE (nth_map (0, 0)) ?sz // nth_zip ?sx ?sy.
apply: (ei_checked (b := all (fun z => in_i w (g z.1 z.2)) (zip x y)));
  last by apply: ei_assert; apply: (ei_map2M (b := fun a c => in_i w (g a c))); rewrite ?sx ?sy.
split.
  move=> /(all_nthP (0, 0)); rewrite sz => hk k kn; apply/fitsP.
  by have := hk k; rewrite kn nth_zip /= ?sx // !coefE; exact.
move=> hk; apply/(all_nthP (0, 0)) => k; rewrite sz => kn.
by apply/fitsP; rewrite nth_zip /= ?sx // -!coefE; exact: hk.
Qed.
Lemma vec1 (n : nat) (f : Z -> M Z) (g : Z -> Z) (m : M (seq Z)) x :
  (forall a, exact_if (in_i w (g a)) (f a) (g a)) ->
  size x = n -> m = (do! assert_len1 n x in mapM f x) ->
  vector_checked n (forall k, (k < n)%nat -> fits w (g (coef x k))) m (fun k => g (coef x k)).
Proof.
move=> h sx ->; rewrite /assert_len1 sx eqxx /=.
exists (map g x).
  split; first by rewrite -sx -(size_map g).
  by move=> k /ltP kn; rewrite !coefE (nth_map 0) ?sx.
apply: (ei_checked (b := all (fun z => in_i w (g z)) x));
  last by apply: ei_assert; exact: (ei_mapM (b := fun a => in_i w (g a))).
split.
  by move=> /(all_nthP 0); rewrite sx => hk k kn; apply/fitsP; rewrite coefE; exact: hk.
by move=> hk; apply/(all_nthP 0) => k; rewrite sx => kn; apply/fitsP; rewrite -coefE; exact: hk.
Qed.

(** ** Lists given by a function *)
Lemma vget_mkseq (f : nat -> Z) N k : (k < N)%nat -> vget (mkseq f N) k = ret (f k).
Proof. by move=> kN; rewrite (@vgetE _ 0) ?size_mkseq // nth_mkseq. Qed.
Lemma vset_mkseq (f : nat -> Z) N k d : (k < N)%nat ->
  vset (mkseq f N) k d = ret (mkseq (fun i => if i == k then d else f i) N).
Proof.
move=> kN; rewrite (@vsetE _ 0) ?size_mkseq //; congr ret.
apply: (@eq_from_nth _ 0); first by rewrite size_set_nth !size_mkseq; apply/maxn_idPr.
move=> i; rewrite size_set_nth size_mkseq (maxn_idPr _) // => iN.
by rewrite nth_set_nth /= !nth_mkseq.
Qed.
Lemma vget_coef v k : (k < size v)%nat -> vget v k = ret (coef v k).
Proof. by move=> h; rewrite (@vgetE _ 0) // coefE. Qed.
Lemma coef_mkseq f N k : coef (mkseq f N) k = if (k < N)%nat then f k else 0.
Proof. by rewrite coefE; case: ltnP => h; [rewrite nth_mkseq|rewrite nth_default ?size_mkseq]. Qed.
Lemma coef_over v k : (size v <= k)%nat -> coef v k = 0.
Proof. by move=> h; rewrite coefE nth_default. Qed.
Lemma canonical_polyP v : canonical_poly v <-> (v = [::] \/ coef v (size v).-1 <> 0).
Proof.
rewrite /canonical_poly -/(size v); split=> [h|[->|h]] //.
by case: v h => [|x v] h; [left|right; exact: h].
Qed.

Lemma ei_add x y : exact_if (in_i w (x + y)) (add CI x y) (x + y).
Proof. exact: ci_add_exact. Qed.
Lemma ei_mul x y : exact_if (in_i w (x * y)) (mul CI x y) (x * y).
Proof. exact: ci_mul_exact. Qed.

(** ** Products of polynomials *)
Section Mul.
Variables v u : seq Z.
Local Notation cv := (convolution v u).
Let N := (size v + size u - 1)%nat.

Lemma convS k i : cv k i.+1 = cv k i + (if (i <= k)%nat then coef v i * coef u (k - i) else 0).
Proof.
rewrite {1}/convolution /= -/(convolution v u k i).
by case: leqP => h; [rewrite (introT (Nat.leb_spec0 _ _)) //; lia|case: Nat.leb_spec0 => //; lia].
Qed.
Definition mul_ok (i j : nat) : bool :=
  in_i w (coef v i * coef u j) && in_i w (cv (i + j)%nat i.+1).
Definition row (i j k : nat) : Z :=
  cv k i + (if (i <= k < i + j)%nat then coef v i * coef u (k - i) else 0).
Lemma row0 i : mkseq (row i 0) N = mkseq (fun k => cv k i) N.
Proof. by apply: eq_mkseq => k; rewrite /row addn0; case: ifP => [/andP[]|_]; lia. Qed.
Lemma rowu i : mkseq (row i (size u)) N = mkseq (fun k => cv k i.+1) N.
Proof.
apply: eq_mkseq => k; rewrite /row convS; case: leqP => //= h; case: ltnP => // h2.
by rewrite (@coef_over u) ?Z.mul_0_r //; lia.
Qed.

Lemma poly_mul_ei : v <> [::] -> u <> [::] ->
  exact_if (all (fun i => all (mul_ok i) (iota 0 (size u))) (iota 0 (size v)))
    (poly_mul CI CI v u) (mkseq (fun k => cv k (size v)) N).
Proof.
move=> v0 u0; have sv : (0 < size v)%nat by case: (v) v0.
have su : (0 < size u)%nat by case: (u) u0.
rewrite /poly_mul !eqn0Ngt sv su /= bind_ret.
have -> : vresize [::] N 0 = mkseq (fun k => cv k 0) N.
  by rewrite /vresize /= subn0; apply: (@eq_from_nth _ 0); rewrite size_nseq ?size_mkseq // => i iN; rewrite nth_nseq nth_mkseq // iN.
rewrite -[X in exact_if _ _ (mkseq (fun k => cv k X) N)]add0n.
apply: (ei_for (st := fun i => mkseq (fun k => cv k i) N)) => i /=; rewrite add0n => iv.
rewrite -row0 -rowu -[X in mkseq (row i X) N]add0n.
apply: (ei_for (st := fun j => mkseq (row i j) N)) => j /=; rewrite add0n => ju.
rewrite (vget_coef iv) bind_ret (vget_coef ju) bind_ret.
apply: ei_bind (ei_mul _ _) _.
have kN : (i + j < N)%nat by rewrite /N; lia.
rewrite vget_mkseq // bind_ret.
have e : cv (i + j)%nat i.+1 = row i j (i + j)%nat + coef v i * coef u j.
  rewrite convS leq_addr /row ltnn andbF addKn; lia.
rewrite -[in_i w (cv _ _)]andbT e; apply: ei_bind (ei_add _ _) _.
rewrite vset_mkseq // -e; apply: ei_eq (ei_ret _) => //.
apply: eq_mkseq => k; case: eqP => [->|kE].
  rewrite /row leq_addr /= addnS ltnS leqnn e /row ltnn andbF addKn; lia.
rewrite /row (_ : (k < i + j.+1)%nat = (k < i + j)%nat) //; lia.
Qed.
Lemma mul_okP : all (fun i => all (mul_ok i) (iota 0 (size u))) (iota 0 (size v)) <->
  (forall i j, (i < size v)%nat -> (j < size u)%nat ->
     fits w (coef v i * coef u j) /\ fits w (cv (i + j)%nat i.+1)).
Proof.
split.
  move=> /allP h i j iv ju; have hi : i \in iota 0 (size v) by rewrite mem_iota.
  have hj : j \in iota 0 (size u) by rewrite mem_iota.
  by have /andP[h1 h2] := allP (h i hi) j hj; split; apply/fitsP.
move=> h; apply/allP => i; rewrite mem_iota /= => iv; apply/allP => j; rewrite mem_iota /= => ju.
by have [h1 h2] := h i j iv ju; apply/andP; split; apply/fitsP.
Qed.
Lemma conv_zero k n : (forall i, (i < n)%nat -> (i <= k)%nat -> coef v i * coef u (k - i) = 0) ->
  cv k n = 0.
Proof.
elim: n => [|n IH] h //; rewrite convS IH; last by move=> i hi; apply: h; exact: ltnW.
by case: leqP => // nk; rewrite h.
Qed.
Lemma poly_mul_checked : canonical_poly v -> canonical_poly u ->
  poly_checked (forall i j, (i < size v)%nat -> (j < size u)%nat ->
     fits w (coef v i * coef u j) /\ fits w (cv (i + j)%nat i.+1))
    (mul (PolyRing CI) v u) (fun k => cv k (size v)).
Proof.
have [v0|v0] : v = [::] \/ v <> [::] by case: (v); [left|right].
  move=> _ _; exists [::]; last by rewrite v0; split; [move=> _; exact: returns_ret|move=> h; exfalso; apply: h => i j].
  by split=> [|k]; [|rewrite conv_zero ?(coef_over (v := v)) //= => [|i _ _]; rewrite ?v0 // coefE nth_nil].
have [u0|u0] : u = [::] \/ u <> [::] by case: (u); [left|right].
  move=> _ _; exists [::].
    by split=> [|k]; rewrite ?conv_zero ?coefE ?nth_nil // => i _ _; rewrite (@coef_over u) ?Z.mul_0_r // u0.
  have -> : mul (PolyRing CI) v u = ret [::] by rewrite /= /poly_mul u0 orbT.
  by split; [move=> _; exact: returns_ret|move=> h; exfalso; apply: h => i j _; rewrite u0].
have sv : (0 < size v)%nat by case: (v) v0.
have su : (0 < size u)%nat by case: (u) u0.
move=> cv' cu'; exists (mkseq (fun k => cv k (size v)) N); last first.
  by apply: ei_checked mul_okP _; exact: poly_mul_ei.
split; last first.
  move=> k; rewrite coef_mkseq; case: ltnP => // h; rewrite conv_zero // => i iv ik.
  by rewrite (@coef_over u) ?Z.mul_0_r //; move: h; rewrite /N; lia.
apply/canonical_polyP; right; rewrite size_mkseq coef_mkseq (_ : (N.-1 < N)%nat); last by rewrite /N; lia.
rewrite -[X in cv _ X](ltn_predK sv) convS conv_zero.
  rewrite (_ : ((size v).-1 <= N.-1)%nat) /=; last by rewrite /N; lia.
  rewrite (_ : (N.-1 - (size v).-1 = (size u).-1)%nat); last by rewrite /N; lia.
  have h1 := cv' v0; have h2 := cu' u0; rewrite -/(size v) -/(size u) in h1 h2.
  by move=> /Z.mul_eq_0[h|h]; [exact: h1|exact: h2].
move=> i iv ik; rewrite (@coef_over u) ?Z.mul_0_r //; rewrite /N; lia.
Qed.
End Mul.

(** ** Sums of polynomials *)
Fixpoint trimz (s : seq Z) : seq Z :=
  if s is x :: s' then
    let r := trimz s' in if (x =? 0) && (size r == 0%nat) then [::] else x :: r
  else [::].
Lemma trimz_size s : (size (trimz s) <= size s)%nat.
Proof. by elim: s => //= x s IH; case: ifP. Qed.
Lemma trimz_pad s : trimz s ++ nseq (size s - size (trimz s)) 0 = s.
Proof.
elim: s => //= x s IH; case: ifP => [/andP[/Z.eqb_spec -> /eqP/size0nil s0]|_] /=.
  by move: IH; rewrite s0 /= !subn0 => {2}<-.
by rewrite subSS IH.
Qed.
Lemma trimz_rcons s a : trimz (rcons s a) = if a =? 0 then trimz s else rcons s a.
Proof.
elim: s => [|x s IH] /=; first by rewrite andbT.
rewrite IH; case: (Z.eqb_spec a 0) => // _; by rewrite size_rcons andbF.
Qed.
Lemma trimz_coef s k : coef (trimz s) k = coef s k.
Proof.
rewrite -{2}(trimz_pad s) !coefE nth_cat; case: ltnP => // h.
by rewrite nth_nseq if_same nth_default.
Qed.
Lemma trimz_canonical s : canonical_poly (trimz s).
Proof.
apply/canonical_polyP; elim/last_ind: s => [|s a IH]; first by left.
rewrite trimz_rcons; case: Z.eqb_spec => // h; right.
by rewrite size_rcons /= coefE nth_rcons ltnn eqxx.
Qed.
Lemma trimz_full s : canonical_poly s -> trimz s = s.
Proof.
move=> /canonical_polyP[->|] //; elim/last_ind: s => [|s a _] //.
rewrite size_rcons /= coefE nth_rcons ltnn eqxx trimz_rcons => h.
by case: Z.eqb_spec.
Qed.

Definition add_ok v u : bool :=
  all (fun k => in_i w (coef v k + coef u k)) (iota 0 (minn (size v) (size u))).
Definition sum_of v u : seq Z := mkseq (fun k => coef v k + coef u k) (maxn (size v) (size u)).
Lemma sum_ofC v u : sum_of v u = sum_of u v.
Proof. by rewrite /sum_of maxnC; apply: eq_mkseq => k; rewrite Z.add_comm. Qed.
Lemma add_okC v u : add_ok v u = add_ok u v.
Proof. by rewrite /add_ok minnC; apply: eq_all => k; rewrite Z.add_comm. Qed.
Lemma add_long v u : (size u <= size v)%nat ->
  exact_if (add_ok v u) (for_loop 0 (size u) (fun i acc =>
      let! x := vget acc i in
      let! y := vget u i in
      let! a := add CI x y in
      vset acc i a) v) (sum_of v u).
Proof.
move=> h; pose st j := mkseq (fun k => coef v k + (if (k < j)%nat then coef u k else 0)) (size v).
have -> : sum_of v u = st (0 + size u)%nat.
  rewrite /sum_of /st (maxn_idPl h); apply: eq_mkseq => k.
  by rewrite add0n; case: ltnP => // h2; rewrite (@coef_over u).
have vE : v = st 0%nat.
  rewrite /st -{1}(mkseq_nth 0 v); apply: eq_mkseq => k; rewrite coefE ltn0; lia.
rewrite [X in for_loop _ _ _ X]vE. rewrite /add_ok (minn_idPr h); apply: ei_for => i; rewrite add0n => /andP[_ iu].
have iv : (i < size v)%nat by exact: leq_trans h.
rewrite /st vget_mkseq // bind_ret (vget_coef iu) bind_ret ltnn Z.add_0_r.
rewrite -[X in exact_if X]andbT; apply: ei_bind (ei_add _ _) _.
rewrite vset_mkseq //; apply: ei_eq (ei_ret _) => //; apply: eq_mkseq => k.
case: eqP => [->|kE]; first by rewrite ltnSn.
by rewrite (_ : (k < i.+1)%nat = (k < i)%nat) //; lia.
Qed.
Lemma poly_add_ei v u : canonical_poly v -> canonical_poly u ->
  exact_if (add_ok v u) (poly_add CI v u) (trimz (sum_of v u)).
Proof.
move=> hv hu; rewrite /poly_add; case: eqP => /= [s|/eqP s].
  have N : maxn (size v) (size u) = size v by rewrite -s maxnn.
  rewrite /add_ok -s minnn /sum_of N; pose st j := trimz (mkseq (fun k => coef v k + coef u k) j).
  rewrite -/(st (size v)) -[X in st X]add0n; apply: ei_for => i; rewrite add0n => /andP[_ iv].
  have iu : (i < size u)%nat by rewrite -s.
  rewrite (vget_coef iv) bind_ret (vget_coef iu) bind_ret -[X in exact_if X]andbT.
  apply: ei_bind (ei_add _ _) _; rewrite bind_ret /st /mkseq -addn1 iotaD map_cat cats1 trimz_rcons add0n.
  case: Z.eqb_spec => _ /=; first exact: ei_ret.
  set q := map _ _; have qs : size q = i by rewrite size_map size_iota.
  have le := trimz_size q; rewrite qs in le.
  rewrite bind_ret addn1; have -> : vresize (trimz q) i.+1 0 = rcons q 0.
    rewrite /vresize take_oversize; last exact: leqW.
    by rewrite subSn // -addn1 nseqD catA -{1}qs trimz_pad cats1.
  rewrite (@vsetE _ 0) ?size_rcons ?qs //; have -> : set_nth 0 (rcons q 0) i (coef v i + coef u i) = rcons q (coef v i + coef u i).
    by move: (_ + _) => c; rewrite -qs; elim: (q) => //= x q1 ->.
  exact: returns_ret.
have full a b : canonical_poly a -> (size b < size a)%nat -> trimz (sum_of a b) = sum_of a b.
  move=> ha ab; apply: trimz_full; apply/canonical_polyP; right.
  rewrite /sum_of (maxn_idPl (ltnW ab)) size_mkseq coef_mkseq.
  rewrite (_ : ((size a).-1 < size a)%nat); last lia.
  rewrite (@coef_over b); last lia.
  by rewrite Z.add_0_r; apply: (ha _) => a0; rewrite a0 in ab.
case: ltnP => h.
  by rewrite full //; apply: add_long; exact: ltnW.
have h' : (size v < size u)%nat by rewrite ltn_neqAle s h.
by rewrite sum_ofC add_okC full //; exact: add_long.
Qed.
Lemma add_okP v u : add_ok v u <->
  (forall k, (k < size v)%nat -> (k < size u)%nat -> fits w (coef v k + coef u k)).
Proof.
split=> [/allP h k kv ku|h].
  by apply/fitsP; apply: h; rewrite mem_iota /= add0n leq_min kv ku.
apply/allP => k; rewrite mem_iota /= add0n leq_min => /andP[kv ku].
by apply/fitsP; exact: h.
Qed.
Lemma sum_ofE v u k : coef (trimz (sum_of v u)) k = coef v k + coef u k.
Proof.
rewrite trimz_coef coef_mkseq; case: ltnP => //; rewrite geq_max => /andP[h1 h2].
by rewrite !coef_over.
Qed.
Lemma poly_add_checked v u : canonical_poly v -> canonical_poly u ->
  poly_checked (forall k, (k < size v)%nat -> (k < size u)%nat -> fits w (coef v k + coef u k))
    (add (PolyRing CI) v u) (fun k => coef v k + coef u k).
Proof.
move=> hv hu; exists (trimz (sum_of v u)).
  by split; [exact: trimz_canonical|exact: sum_ofE].
by apply: ei_checked (add_okP _ _) _; exact: poly_add_ei.
Qed.

(** ** Negation, differences and multiples *)
Definition neg_ok v : bool := all (fun x => in_i w (- x)) v.
Lemma coef_map f v k : f 0 = 0 -> coef (map f v) k = f (coef v k).
Proof.
move=> f0; rewrite !coefE; case: (ltnP k (size v)) => h; first by rewrite (nth_map 0).
by rewrite !nth_default // size_map.
Qed.
Lemma map_canonical f v : f 0 = 0 -> (forall x, f x = 0 -> x = 0) ->
  canonical_poly v -> canonical_poly (map f v).
Proof.
move=> f0 fi /canonical_polyP[->|h]; apply/canonical_polyP; first by left.
by right; rewrite size_map coef_map // => /fi.
Qed.
Lemma poly_neg_ei v : exact_if (neg_ok v) (poly_neg CI v) (map Z.opp v).
Proof. by apply: ei_mapM => x; exact: ci_neg_exact. Qed.
Lemma neg_okP v : neg_ok v <-> (forall k, (k < size v)%nat -> fits w (- coef v k)).
Proof.
split=> [/(all_nthP 0) h k kv|h]; first by apply/fitsP; rewrite coefE; exact: h.
by apply/(all_nthP 0) => k kv; apply/fitsP; rewrite -coefE; exact: h.
Qed.
Lemma poly_neg_checked v : canonical_poly v ->
  poly_checked (forall k, (k < size v)%nat -> fits w (- coef v k)) (neg (PolyRing CI) v)
    (fun k => - coef v k).
Proof.
move=> hv; exists (map Z.opp v); last by apply: ei_checked (neg_okP _) (poly_neg_ei _).
by split; [apply: map_canonical => //; lia|move=> k; rewrite coef_map].
Qed.
Lemma poly_sub_checked v u : canonical_poly v -> canonical_poly u ->
  poly_checked ((forall k, (k < size u)%nat -> fits w (- coef u k)) /\
      (forall k, (k < size v)%nat -> (k < size u)%nat -> fits w (coef v k - coef u k)))
    (sub (PolyRing CI) v u) (fun k => coef v k - coef u k).
Proof.
move=> hv hu; have hn : canonical_poly (map Z.opp u) by apply: map_canonical => //; lia.
exists (trimz (sum_of v (map Z.opp u))).
  by split; [exact: trimz_canonical|move=> k; rewrite sum_ofE coef_map].
apply: (ei_checked (b := neg_ok u && add_ok v (map Z.opp u))).
  split=> [/andP[/neg_okP h1 /add_okP h2]|[h1 h2]].
    split=> // k kv ku; have := h2 k kv; rewrite size_map coef_map //; exact.
  apply/andP; split; [exact/neg_okP|apply/add_okP => k kv]; rewrite size_map coef_map // => ku.
  exact: h2.
apply: ei_bind (poly_neg_ei _) _; rewrite sum_ofC add_okC; exact: poly_add_ei.
Qed.

Definition times_ok n v : bool := all (fun x => in_i w n && in_i w (x * n)) v.
Lemma times_okP n v : times_ok n v <->
  (forall k, (k < size v)%nat -> fits w n /\ fits w (n * coef v k)).
Proof.
split=> [/(all_nthP 0) h k kv|h].
  by have /andP[h1 h2] := h k kv; split; apply/fitsP => //; rewrite Z.mul_comm coefE.
apply/(all_nthP 0) => k kv; have [h1 h2] := h k kv; apply/andP; split; apply/fitsP => //.
by rewrite Z.mul_comm -coefE.
Qed.
Lemma rev_zero (e : seq Z) i : (forall k, coef e k = 0) -> (i <= size e)%nat ->
  returns (for_rev_ret i (fun i (_ : unit) =>
    let! x := vget e i in
    let! b := is_zero CI x in
    if ~~ b then let! z := zero CI in ret (inr (vresize e i.+1 z)) else ret (inl tt)) tt)
    (inl tt).
Proof.
move=> h; elim: i => [|i IH] hi /=; first exact: returns_ret.
by rewrite vget_coef // bind_ret h /= !bind_ret /=; apply: IH; exact: ltnW.
Qed.
Lemma poly_ztimes_ei n v : canonical_poly v ->
  exact_if (times_ok n v) (poly_ztimes CI n v) (trimz (map (fun x => x * n) v)).
Proof.
move=> hv; rewrite -[times_ok n v]andbT; apply: (ei_bind (v := map (fun x => x * n) v)).
  by apply: ei_mapM => x; exact: ci_ztimes_exact.
rewrite /exact_if; case: (Z.eq_dec n 0) => [->|n0].
  have h k : coef (map (fun x => x * 0) v) k = 0 by rewrite coef_map // Z.mul_0_r.
  have -> : trimz (map (fun x => x * 0) v) = [::].
    by have [//|] := (canonical_polyP _).1 (@trimz_canonical (map (fun x => x * 0) v)); rewrite trimz_coef h.
  by apply: returns_bind (rev_zero h (leqnn _)) _; exact: returns_ret.
have hc : canonical_poly (map (fun x => x * n) v) by apply: map_canonical => //; lia.
rewrite trimz_full //; move: (map _ v) hc => e /canonical_polyP[->|he] /=.
  by rewrite bind_ret; exact: returns_ret.
case se: (size e) he => [|i] he; first by case: he; rewrite coef_over // se.
rewrite /= vget_coef ?se // bind_ret /= bind_ret.
case: Z.eqb_spec => //= _; rewrite !bind_ret /vresize take_oversize ?se // subnn cats0.
exact: returns_ret.
Qed.
Lemma poly_times_checked n v : canonical_poly v ->
  poly_checked (forall k, (k < size v)%nat -> fits w n /\ fits w (n * coef v k))
    (ztimes (PolyRing CI) n v) (fun k => n * coef v k).
Proof.
move=> hv; exists (trimz (map (fun x => x * n) v)).
  by split; [exact: trimz_canonical|move=> k; rewrite trimz_coef coef_map // Z.mul_comm].
by apply: ei_checked (times_okP _ _) _; exact: poly_ztimes_ei.
Qed.

(** ** Small entries *)
Lemma conv_bound v u a b k n : 0 <= a -> 0 <= b -> bounded a v -> bounded b u ->
  Z.abs (convolution v u k n) <=
    Z.of_nat (minn n k.+1 - minn n (k.+1 - size u)) * (a * b).
Proof.
move=> a0 b0 hv hu; elim: n => [|n IH]; first by rewrite !min0n subnn; apply: Z.le_refl.
rewrite convS; have hv' := hv n; have hu' := hu (k - n)%nat.
have ab : Z.abs (coef v n * coef u (k - n)) <= a * b by rewrite Z.abs_mul; nia.
case: leqP => h; last first.
  rewrite Z.add_0_r; apply: Z.le_trans IH _; apply: Z.mul_le_mono_nonneg_r; first nia.
  lia.
case: (leqP (size u) (k - n)) => h2.
  rewrite (@coef_over u) // Z.mul_0_r Z.add_0_r; apply: Z.le_trans IH _.
  apply: Z.mul_le_mono_nonneg_r; first nia.
  lia.
apply: Z.le_trans (Z.abs_triangle _ _) _.
have -> : (minn n.+1 k.+1 - minn n.+1 (k.+1 - size u) = (minn n k.+1 - minn n (k.+1 - size u)).+1)%nat by lia.
by rewrite Nat2Z.inj_succ; nia.
Qed.
Lemma mul_small v u a b : 0 <= a -> 0 <= b -> bounded a v -> bounded b u ->
  Z.of_nat (minn (size v) (size u)) * (a * b) < 2 ^ (w - 1) ->
  forall i j, (i < size v)%nat -> (j < size u)%nat ->
    fits w (coef v i * coef u j) /\ fits w (convolution v u (i + j)%nat i.+1).
Proof.
move=> a0 b0 hv hu hs i j iv ju; have ab0 : 0 <= a * b by nia.
have m1 : 1 <= Z.of_nat (minn (size v) (size u)) by lia.
split.
  have : Z.abs (coef v i * coef u j) <= a * b by rewrite Z.abs_mul; have := hv i; have := hu j; nia.
  by rewrite /fits; nia.
have := @conv_bound v u a b (i + j)%nat i.+1 a0 b0 hv hu.
have : Z.of_nat (minn i.+1 (i + j)%nat.+1 - minn i.+1 ((i + j)%nat.+1 - size u))%nat <= Z.of_nat (minn (size v) (size u)) by lia.
rewrite /fits; nia.
Qed.
Lemma poly_small v u a b : canonical_poly v -> canonical_poly u ->
  0 <= a -> 0 <= b -> bounded a v -> bounded b u ->
  (a + b < 2 ^ (w - 1) ->
    poly_checked True (add (PolyRing CI) v u) (fun k => coef v k + coef u k) /\
    poly_checked True (sub (PolyRing CI) v u) (fun k => coef v k - coef u k)) /\
  (Z.of_nat (minn (size v) (size u)) * (a * b) < 2 ^ (w - 1) ->
    poly_checked True (mul (PolyRing CI) v u) (fun k => convolution v u k (size v))).
Proof.
have weak P (m : M (seq Z)) f : poly_checked P m f -> P -> poly_checked True m f.
  by move=> [z hz [h1 h2]] hp; exists z => //; split=> // _; exact: h1.
move=> cv cu a0 b0 hv hu; split=> hs; last first.
  by apply: weak (poly_mul_checked cv cu) _; exact: mul_small hs.
split.
  apply: weak (poly_add_checked cv cu) _ => k _ _.
  by have := hv k; have := hu k; rewrite /fits; lia.
apply: weak (poly_sub_checked cv cu) _; split=> k.
  by have := hu k; rewrite /fits; lia.
by have := hv k; have := hu k; rewrite /fits; lia.
Qed.

Lemma vector_over n x y : size x = n -> size y = n ->
  [/\ vector_checked n (forall k, (k < n)%nat -> fits w (coef x k + coef y k))
        (add (VectorRing cfg n CI) x y) (fun k => coef x k + coef y k),
      vector_checked n (forall k, (k < n)%nat -> fits w (coef x k - coef y k))
        (sub (VectorRing cfg n CI) x y) (fun k => coef x k - coef y k)
    & vector_checked n (forall k, (k < n)%nat -> fits w (coef x k * coef y k))
        (mul (VectorRing cfg n CI) x y) (fun k => coef x k * coef y k)].
Proof.
move=> sx sy; split.
- exact: (vec2 (f := add CI) (g := Z.add) ei_add sx sy).
- exact: (vec2 (f := sub CI) (g := Z.sub) (ci_sub_exact cfg w) sx sy).
- exact: (vec2 (f := mul CI) (g := Z.mul) ei_mul sx sy).
Qed.
Lemma vector_over1 n x : size x = n ->
  [/\ vector_checked n (forall k, (k < n)%nat -> fits w (- coef x k))
        (neg (VectorRing cfg n CI) x) (fun k => - coef x k),
      vector_checked n (forall k, (k < n)%nat -> fits w (coef x k + coef x k))
        (double (VectorRing cfg n CI) x) (fun k => coef x k + coef x k)
    & vector_checked n (forall k, (k < n)%nat -> fits w (coef x k * coef x k))
        (square (VectorRing cfg n CI) x) (fun k => coef x k * coef x k)].
Proof.
move=> sx; split.
- exact: (vec1 (f := neg CI) (g := Z.opp) (ci_neg_exact cfg w) sx).
- exact: (vec1 (f := double CI) (g := fun a => a + a) (fun a => ei_add a a) sx).
- exact: (vec1 (f := square CI) (g := fun a => a * a) (fun a => ei_mul a a) sx).
Qed.
End Over.
