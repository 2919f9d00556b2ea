(** * PCost.v -- bounds for the number of iterations of the loops. *)

From Coq Require Import ZArith Lia List.
From mathcomp Require Import all_ssreflect.
From Verif Require Import Rust Traits MInts MConstr CostSpec Wp ZFacts PIntsZ.

Set Implicit Arguments.
Unset Strict Implicit.
Unset Printing Implicit Defensive.

(** ** Rules *)
Section Rules.
Variable k : nat.

Lemma w_ret A (v : A) (Q : A -> Prop) : Q v -> within k (ret v) Q.
Proof. by move=> h; split=> // w [<-]. Qed.
Lemma w_panic A (Q : A -> Prop) : within k panic Q.
Proof. by split. Qed.
Lemma w_mono A (m : M A) (Q R : A -> Prop) : within k m Q -> (forall v, Q v -> R v) ->
  within k m R.
Proof. by move=> [h1 h2 h3] h; split=> // v /h3/h. Qed.
Lemma w_fin A (m : M A) (Q : A -> Prop) : within k m Q -> finishes k m.
Proof. by move=> h; apply: w_mono h _. Qed.
Lemma w_bind A B (m : M A) (f : A -> M B) (Q : A -> Prop) (R : B -> Prop) :
  within k m Q -> (forall v, Q v -> within k (f v) R) -> within k (bind m f) R.
Proof.
move=> [h1 h2 h3] h; rewrite /bind; split.
- by case e : (m k) => [v||] //; case: (h v (h3 v e)).
- move=> n kn; rewrite h2 //; case e : (m k) => [v||] //.
  by case: (h v (h3 v e)) => _ hh _; apply: hh.
- by move=> w; case e : (m k) => [v||] //; case: (h v (h3 v e)) => _ _; apply.
Qed.
Lemma w_assert b : within k (assert b) (fun _ => b).
Proof. by case: b; [exact: w_ret|exact: w_panic]. Qed.
Lemma w_unwrap A (o : option A) : within k (unwrap o) (fun v => o = Some v).
Proof. by case: o => [v|]; [exact: w_ret|exact: w_panic]. Qed.
Lemma w_not m : finishes k m -> finishes k (notM m).
Proof. by move=> h; apply: w_bind h _ => b _; exact: w_ret. Qed.
Lemma w_and m1 m2 : finishes k m1 -> finishes k m2 -> finishes k (andM m1 m2).
Proof. by move=> h1 h2; apply: w_bind h1 _ => -[] _ //; exact: w_ret. Qed.
Lemma w_or m1 m2 : finishes k m1 -> finishes k m2 -> finishes k (orM m1 m2).
Proof. by move=> h1 h2; apply: w_bind h1 _ => -[] _ //; exact: w_ret. Qed.
Lemma w_debug cfg b : finishes k b -> finishes k (debug_assert cfg b).
Proof.
rewrite /debug_assert => h; case: debug_assertions; last exact: w_ret.
by apply: w_bind h _ => v _; apply: w_fin (w_assert v).
Qed.
Lemma w_prim cfg w z : finishes k (prim_i cfg w z).
Proof. by rewrite /prim_i; case: ifP => _; [|case: ifP => _]; [exact: w_ret|exact: w_panic|exact: w_ret]. Qed.

Section Vec.
Variables (E : Type) (P : E -> Prop).
Lemma w_vget v i : Forall P v -> within k (vget v i) P.
Proof.
move=> h; rewrite /vget; case e : (drop i v) => [|x s]; first exact: w_panic.
apply: w_ret; have : Forall P (x :: s).
  by rewrite -e; move: h; rewrite -{1}(cat_take_drop i v) Forall_app => -[].
by move=> hh; exact: Forall_inv hh.
Qed.
Lemma w_vset v i x : Forall P v -> P x ->
  within k (vset v i x) (fun w => Forall P w /\ size w = size v).
Proof.
move=> h hx; rewrite /vset; case: ltnP => hi; last exact: w_panic.
have := h; rewrite -{1}(cat_take_drop i v) Forall_app => -[h1 h2].
apply: w_ret; split.
  apply/Forall_app; split=> //; constructor=> //.
  have : Forall P (drop i v) by [].
  by rewrite (drop_nth x) // => hh; exact: Forall_inv_tail hh.
by rewrite size_cat /= size_take hi size_drop addnS -addSn subnKC.
Qed.
Lemma w_for S lo cnt (body : nat -> S -> M S) (I : S -> Prop) s :
  (forall i s, I s -> within k (body i s) I) -> I s -> within k (for_loop lo cnt body s) I.
Proof.
move=> h; elim: cnt lo s => [|c IH] lo s hs /=; first exact: w_ret.
by apply: w_bind (h lo s hs) _ => s' hs'; exact: IH.
Qed.
Lemma w_for_rev S cnt (body : nat -> S -> M S) (I : S -> Prop) s :
  (forall i s, I s -> within k (body i s) I) -> I s -> within k (for_rev cnt body s) I.
Proof.
move=> h; elim: cnt s => [|c IH] s hs /=; first exact: w_ret.
by apply: w_bind (h c s hs) _ => s' hs'; exact: IH.
Qed.
Lemma w_mapM T (R : T -> Prop) (f : E -> M T) s : Forall P s ->
  (forall x, P x -> within k (f x) R) ->
  within k (mapM f s) (fun t => Forall R t /\ size t = size s).
Proof.
move=> hs hf; elim: s hs => [|x s IH] hs /=; first by apply: w_ret.
apply: w_bind (hf x (Forall_inv hs)) _ => y hy.
apply: w_bind (IH (Forall_inv_tail hs)) _ => t [ht st].
by apply: w_ret; split; [constructor|rewrite /= st].
Qed.
Lemma w_all2M (f : E -> E -> M bool) s t : Forall P s -> Forall P t ->
  (forall x y, P x -> P y -> finishes k (f x y)) -> finishes k (all2M f s t).
Proof.
move=> hs ht hf; elim: s t hs ht => [|x s IH] [|y t] hs ht //=; try exact: w_ret.
apply: w_and; first by apply: hf; [exact: Forall_inv hs|exact: Forall_inv ht].
by apply: IH; [exact: Forall_inv_tail hs|exact: Forall_inv_tail ht].
Qed.
End Vec.

(** The invariant [I i s]: at most [i] more iterations. *)
Lemma w_while S (cond : S -> M bool) (body : S -> M S) (I : nat -> S -> Prop) i s :
  (forall i s, I i s -> within k (cond s) (fun b => b = false \/ (b = true /\ (0 < i)%N /\
     within k (body s) (I i.-1)))) ->
  I i s -> (i < k)%N -> within k (while_loop cond body s) (fun s => exists j, I j s).
Proof.
move=> h hI ik; rewrite /while_loop.
suff H : forall i j s, I i s -> (i < j)%N ->
    [/\ while_fuel j cond body s k <> Unfinished,
        forall n j', (k <= n)%N -> (i < j')%N ->
          while_fuel j' cond body s n = while_fuel j cond body s k &
        forall v, while_fuel j cond body s k = Done v -> exists j, I j v].
  have [h1 h2 h3] := H i k s hI ik; split=> //.
  by move=> n kn; apply: h2 => //; exact: leq_trans kn.
elim=> [|i' IH] [|j] {}s {}hI // ij /=; have [c1 c2 c3] := h _ _ hI; rewrite /bind.
- case e : (cond s k) => [b||] //; last first.
    by split=> // n [|j'] kn // _ /=; rewrite /bind c2 // e.
  have [b0|[_ [//]]] := c3 b e; subst b; split=> // [n [|j'] kn // _ /=|v [<-]].
    by rewrite /bind c2 // e.
  by exists 0.
- case e : (cond s k) => [b||] //; last first.
    by split=> // n [|j'] kn // _ /=; rewrite /bind c2 // e.
  have [b0|[b0 [_ [d1 d2 d3]]]] := c3 b e; subst b.
    split=> // [n [|j'] kn // _ /=|v [<-]]; first by rewrite /bind c2 // e.
    by exists i'.+1.
  case e' : (body s k) => [s'||] //; last first.
    by split=> // n [|j'] kn // _ /=; rewrite /bind c2 // e d2 // e'.
  have [h1 h2 h3] := IH j s' (d3 _ e') ij; split=> //.
  by move=> n [|j'] kn // ij' /=; rewrite /bind c2 // e d2 // e'; apply: h2.
Qed.
End Rules.

(** A bound can be raised. *)
Lemma within_le A j k (m : M A) Q : (j <= k)%N -> within j m Q -> within k m Q.
Proof.
move=> jk [h1 h2 h3]; rewrite /within (h2 k jk); split=> // n kn.
exact: h2 (leq_trans jk kn).
Qed.
(** What it says about the outcome. *)
Lemma within_returns A k (m : M A) Q v : within k m Q -> returns m v -> m k = Done v /\ Q v.
Proof.
move=> [h1 h2 h3] [n h]; have e : m k = Done v.
  by rewrite -(h2 (maxn n k)) ?leq_maxr // h ?leq_maxl.
by split=> //; exact: h3.
Qed.
Lemma within_outcome A k (m : M A) Q : within k m Q ->
  (exists2 v, returns m v & Q v) \/ panics m.
Proof.
move=> [h1 h2 h3]; case e : (m k) => [v||] //.
  by left; exists v; [exists k => n kn; rewrite h2|exact: h3].
by right; exists k => n kn; rewrite h2.
Qed.

Lemma while_fuelS S (cond : S -> M bool) (body : S -> M S) j s :
  while_fuel j.+1 cond body s =
  bind (cond s) (fun b => if b then bind (body s) (while_fuel j cond body) else ret s).
Proof. by []. Qed.

(** ** Square and multiply *)
Section Power.
Variables (E : Type) (P : E -> Prop) (op : E -> E -> M E) (dbl : E -> M E).

Lemma power_loop_within k i num x r :
  (forall x y, P x -> P y -> within k (op x y) P) ->
  (forall x, P x -> within k (dbl x) P) ->
  (num < 2 ^ Z.of_nat i)%Z -> (i < k)%N -> P x -> P r ->
  within k (power_loop op dbl num x r) (fun s => P s.2).
Proof.
move=> hop hdbl hn ik hx hr.
pose I i (s : Z * E * E) := [/\ (s.1.1 < 2 ^ Z.of_nat i)%Z, P s.1.2 & P s.2].
suff h : within k (power_loop op dbl num x r) (fun s => exists j, I j s).
  by apply: w_mono h _ => s [j []].
apply: (@w_while k _ _ _ I i) => //.
move=> {hn ik} j [[n x'] r'] [/= hn hx' hr']; apply: w_ret.
case: Z.gtb_spec => n0; [right|by left]; split=> //; split.
  by case: j hn => // /=; lia.
set m1 := if _ then _ else _; have h1 : within k m1 P.
  by rewrite /m1; case: ifP => _; [exact: w_ret|exact: hop].
apply: w_bind h1 _ => r1 hr1; apply: w_bind (hdbl _ hx') _ => x1 hx1.
apply: w_ret; split=> //=; case: j hn => [|j]; first by rewrite /= /Z.pow /=; lia.
rewrite Nat2Z.inj_succ Z.pow_succ_r; last exact: Zle_0_nat.
by move=> hn; apply: Z.quot_lt_upper_bound => //; move: n0 hn; lia.
Qed.

(** Not fewer, if no call panics. *)
Lemma power_loop_exact k i num x r : (forall x y, exists z, op x y k = Done z) ->
  (forall x, exists z, dbl x k = Done z) ->
  (0 < num)%Z -> (2 ^ Z.of_nat i <= num)%Z -> (k <= i.+1)%N ->
  power_loop op dbl num x r k = Unfinished.
Proof.
move=> hop hdbl n0 hn ki; rewrite /power_loop /while_loop.
set cond := (fun s => _); set body := (fun s => _).
suff H : forall j i num x r, (0 < num)%Z -> (2 ^ Z.of_nat i <= num)%Z -> (j <= i.+1)%N ->
    while_fuel j cond body (num, x, r) k = Unfinished by exact: (H k i).
move=> {n0 hn ki i num x r}.
elim=> [|j IH] i num x r n0 hn ji //; rewrite while_fuelS.
have -> : cond (num, x, r) = ret true by rewrite /cond; congr ret; apply/Z.gtb_lt.
rewrite bind_ret.
have [r1 er] : exists r1, (if (Z.rem num 2 =? 0)%Z then ret r else op r x) k = Done r1.
  by case: ifP => _; [exists r|].
have [x1 ex] := hdbl x; rewrite /bind /body /bind er ex -/(body) -/cond.
case: i hn ji => [|i] hn ji; first by case: j IH ji.
have hn' : (2 ^ Z.of_nat i <= Z.quot num 2)%Z.
  apply: Z.quot_le_lower_bound; first by lia.
  by rewrite -Z.pow_succ_r -?Nat2Z.inj_succ //; lia.
have i0 : (0 < 2 ^ Z.of_nat i)%Z by apply: Z.pow_pos_nonneg; lia.
by apply: (IH i) => //; lia.
Qed.

Lemma ntimes_within k i zero num x : within k zero P ->
  (forall x y, P x -> P y -> within k (op x y) P) ->
  (forall x, P x -> within k (dbl x) P) ->
  (num < 2 ^ Z.of_nat i)%Z -> (i < k)%N -> P x ->
  within k (default_ntimes zero op dbl num x) P.
Proof.
move=> hz hop hdbl hn ik hx; apply: w_bind hz _ => r hr.
by apply: w_bind (power_loop_within hop hdbl hn ik hx hr) _ => s hs; exact: w_ret.
Qed.

Lemma gpower_within cfg k i one inv num x : within k one P ->
  (forall x y, P x -> P y -> within k (op x y) P) ->
  (forall x, P x -> within k (dbl x) P) -> (forall x, P x -> within k (inv x) P) ->
  is_isize cfg num -> (0 < ptr_bits cfg)%Z ->
  (Z.abs num < 2 ^ Z.of_nat i)%Z -> (i < k)%N -> P x ->
  within k (default_gpower cfg one op dbl inv num x) P.
Proof.
move=> h1 hop hdbl hinv /in_iP nw w0 hn ik hx.
rewrite /default_gpower; set m := if _ then _ else _.
have hm : within k m (fun ne => (ne.1 < 2 ^ Z.of_nat i)%Z /\ P ne.2).
  rewrite /m; case: Z.ltb_spec => n0; last by apply: w_ret; split=> //=; lia.
  apply: (@w_bind _ _ _ _ _ (fun n => (n < 2 ^ Z.of_nat i)%Z)).
    rewrite /prim_i; case: ifP => _; first by apply: w_ret; lia.
    case: ifP => _; first exact: w_panic.
    apply: w_ret; rewrite /wrap_i.
    have e : (2 ^ ptr_bits cfg = 2 * 2 ^ (ptr_bits cfg - 1))%Z.
      by rewrite -Z.pow_succ_r; [congr Z.pow; lia|lia].
    move: nw e hn; rewrite /imin /imax; set b := (2 ^ (_ - 1))%Z; move=> nw -> hn.
    have := Z.mod_pos_bound (- num + b) (2 * b); have : (- num + b = 2 * b \/ - num + b < 2 * b)%Z by lia.
    have b0 : (0 < b)%Z by apply: Z.pow_pos_nonneg; lia.
    case=> [-> |lt]; first by rewrite Z_mod_same_full; lia.
    by rewrite Z.mod_small; lia.
  move=> n hn'; apply: w_bind (hinv x hx) _ => y hy; exact: w_ret.
apply: w_bind hm _ => ne [hne hy]; apply: w_bind h1 _ => r hr.
by apply: w_bind (power_loop_within hop hdbl hne ik hy hr) _ => s hs; exact: w_ret.
Qed.
End Power.

(** ** Euclid's algorithm *)
Section Gcd.
Variables (E : Type) (P : E -> Prop) (isz : E -> M bool) (rm : E -> E -> M E).
Variable k : nat.

(** [I i x y]: at most [i] more divisions *)
Lemma gcd_within (I : nat -> E -> E -> Prop) i x y :
  (forall i x y, I i x y -> P x /\ within k (isz y) (fun b => b = true \/
     (b = false /\ (0 < i)%N /\ within k (rm x y) (I i.-1 y)))) ->
  I i x y -> (i < k)%N -> within k (default_gcd isz rm x y) P.
Proof.
move=> h hI ik; pose J i (s : E * E) := I i s.1 s.2.
apply: (@w_bind _ _ _ _ _ (fun s => exists j, J j s)); last first.
  by move=> s [j hj]; apply: w_ret; have [] := h _ _ _ hj.
apply: (@w_while k _ _ _ J i) => // {hI ik}i s hJ; have [_ hb] := h _ _ _ hJ.
apply: w_bind hb _ => b hb; apply: w_ret; case: hb => [-> |[-> [i0 hr]]]; first by left.
by right; split=> //; split=> //; apply: w_bind hr _ => r hr; exact: w_ret.
Qed.
End Gcd.

(** ** Extended Euclid: the same number of recursive calls *)
Section Egcd.
Variables (E : Type) (P : E -> Prop) (isz : E -> M bool) (one zero : M E).
Variables (mul sub : E -> E -> M E) (qrm : E -> E -> M (E * E)) (k : nat).

Lemma egcd_within (I : nat -> E -> E -> Prop) i x y :
  within k one P -> within k zero P ->
  (forall x y, P x -> P y -> within k (mul x y) P) ->
  (forall x y, P x -> P y -> within k (sub x y) P) ->
  (forall i x y, I i x y -> P x /\ within k (isz y) (fun b => b = true \/
     (b = false /\ (0 < i)%N /\ within k (qrm x y) (fun qr => P qr.1 /\ I i.-1 y qr.2)))) ->
  I i x y -> (i < k)%N ->
  within k (default_extended_gcd isz one zero mul sub qrm x y)
    (fun g => [/\ P g.1.1, P g.1.2 & P g.2]).
Proof.
move=> h1 h0 hm hs h hI ik; rewrite /default_extended_gcd.
pose Q (g : E * E * E) := [/\ P g.1.1, P g.1.2 & P g.2].
pose egf j := extended_gcd_fuel j isz one zero mul sub qrm.
have H1 : forall i j x y, I i x y -> (i < j)%N -> within k (egf j x y) Q.
  elim=> [|i' IH] [|j] x' y' // {}hI ij; have [hx hb] := h _ _ _ hI.
    apply: w_bind hb _ => b [->|[_ [//]]].
    by apply: w_bind h1 _ => o ho; apply: w_bind h0 _ => z hz; exact: w_ret.
  apply: w_bind hb _ => b [->|[-> [_ hq]]].
    by apply: w_bind h1 _ => o ho; apply: w_bind h0 _ => z hz; exact: w_ret.
  apply: w_bind hq _ => qr [hq hI']; apply: w_bind (IH j _ _ hI' ij) _ => -[[g u] v] [/= hg hu hv].
  apply: w_bind (hm _ _ hv hq) _ => vq hvq.
  by apply: w_bind (hs _ _ hu hvq) _ => z hz; exact: w_ret.
have H2 : forall i j j' x y n, I i x y -> (i < j)%N -> (i < j')%N -> (k <= n)%N ->
    egf j x y n = egf j' x y n.
  elim=> [|i' IH] [|j] [|j'] x' y' n // {}hI ij ij' kn; have [hx [b1 b2 b3]] := h _ _ _ hI.
    rewrite /egf /= /bind b2 //; case e : (isz y' k) => [b||] //.
    by have [->|[_ [//]]] := b3 b e.
  rewrite /egf /= /bind b2 //; case e : (isz y' k) => [b||] //.
  have [->|[-> [_ [d1 d2 d3]]]] := b3 b e => //; rewrite d2 //.
  case e' : (qrm x' y' k) => [qr||] //; have [_ hI'] := d3 _ e'.
  by have := IH j j' y' qr.2 n hI' ij ij' kn; rewrite /egf => ->.
have [w1 w2 w3] := H1 i k x y hI ik; split=> // n kn.
by rewrite -[RHS](w2 n) // -/(egf _) (H2 i n k) //; exact: leq_trans kn.
Qed.
End Egcd.
