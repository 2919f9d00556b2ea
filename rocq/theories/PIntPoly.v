(** * PIntPoly.v -- adding, multiplying and dividing polynomials whose coefficients are
    bounded integers, over a field that computes with integers up to some limit. *)

From Coq Require Import ZArith Lia.
From mathcomp Require Import all_ssreflect zify.
From Verif Require Import Rust Traits MConstr Wp.

Set Implicit Arguments.
Unset Strict Implicit.
Unset Printing Implicit Defensive.

(** [isb B x]: the value of [x] is an integer at most [B] in absolute value;
    [isu x]: it is 1 or -1. *)
Record bounded_ops (E : Type) (isb : Z -> E -> Prop) (isu : E -> Prop) (A : FieldAlg E) (L : Z) : Prop := {
  bo_weak : forall B C x, isb B x -> (B <= C)%Z -> isb C x;
  bo_pos : forall B x, isb B x -> (0 <= B)%Z;
  bo_zero : ensures False (zero A) (isb Z0);
  bo_is_zero : forall B x, isb B x -> ensures False (is_zero A x) (fun _ => True);
  bo_unit : forall x, isu x -> ensures False (is_zero A x) (fun b => b = false);
  bo_mul : forall B C x y, isb B x -> isb C y -> (B * C <= L)%Z -> ensures False (mul A x y) (isb (B * C)%Z);
  bo_add : forall B C x y, isb B x -> isb C y -> (B + C <= L)%Z -> ensures False (add A x y) (isb (B + C)%Z);
  bo_neg : forall B x, isb B x -> (B <= L)%Z -> ensures False (neg A x) (isb B);
  bo_div : forall B x y, isb B x -> isu y -> (B <= L)%Z -> ensures False (fdiv A x y) (isb B)
}.

Section Poly.
Variables (E : Type) (isb : Z -> E -> Prop) (isu : E -> Prop) (A : FieldAlg E) (L : Z) (d0 : E).
Hypothesis H : bounded_ops isb isu A L.

Section Rows.
Variables (v w : seq E) (B C : Z).
Local Notation l := (size v - size w + 1).
Hypothesis hv : forall k, k < size v -> isb B (nth d0 v k).
Hypothesis hw : forall k, k < size w -> isb C (nth d0 w k).
Hypotheses (w0 : 0 < size w) (vw : size w <= size v).
Hypothesis hb : isu (nth d0 w (size w).-1).
Hypothesis small : (B * (1 + C) ^ Z.of_nat l <= L)%Z.

Let bound t : Z := (B * (1 + C) ^ Z.of_nat t)%Z.
Lemma B0 : (0 <= B)%Z.
Proof. exact: bo_pos H _ _ (hv (leq_trans w0 vw)). Qed.
Lemma C0 : (0 <= C)%Z.
Proof. exact: bo_pos H _ _ (hw w0). Qed.
Lemma boundS t : bound t.+1 = (bound t + bound t * C)%Z.
Proof. by rewrite /bound Nat2Z.inj_succ Z.pow_succ_r; [ring|lia]. Qed.
Lemma bound0 t : (0 <= bound t)%Z.
Proof. by apply: Z.mul_nonneg_nonneg; [exact: B0|apply: Z.pow_nonneg; have := C0; lia]. Qed.
Lemma bound_le t : t <= l -> (bound t <= L)%Z.
Proof.
move=> tl; apply: Z.le_trans _ small; apply: Z.mul_le_mono_nonneg_l; first exact: B0.
by apply: Z.pow_le_mono_r; have := C0; lia.
Qed.

Definition ints t (s : seq E * seq E) : Prop :=
  [/\ size s.1 = l, size s.2 = size v & forall k, k < size v -> isb (bound t) (nth d0 s.2 k)].

Lemma ints_step i (s : seq E * seq E) a : i < l -> a = nth d0 w (size w - 1) ->
  ints (l - i.+1) s -> ensures False
  (let '(quo, rem) := s in
      let! x := vget rem (i + size w - 1) in
      let! q := fdiv A x a in
      let! quo := vset quo i q in
      let! b := neg A q in
      let! rem := for_loop 0 (size w - 1) (fun j rem =>
        let! y := vget w j in
        let! c := mul A y b in
        let! d := vget rem (i + j) in
        let! d := add A d c in
        vset rem (i + j) d) rem in
      ret (quo, rem)) (ints (l - i)).
Proof.
move=> il -> ; set t := l - i.+1; have tE : l - i = t.+1 by rewrite /t; lia.
have tl : t.+1 <= l by rewrite /t; lia.
have bt : (bound t + bound t * C <= L)%Z by rewrite -boundS; exact: bound_le.
have b0' := @bound0 t; have c0' := C0; have bc : (0 <= bound t * C)%Z by apply: Z.mul_nonneg_nonneg.
rewrite tE; case: s => quo rem [/= sq sr hr].
rewrite (vgetE d0); last by rewrite sr; lia.
rewrite bind_ret (subn1 (size w)).
apply: ensures_bind (bo_div H (hr _ _) hb _) _; [lia|lia|move=> q hq].
rewrite (vsetE d0); last by rewrite sq.
rewrite bind_ret; apply: ensures_bind (bo_neg H hq _) _; [lia|move=> nq hnq].
pose I j (r : seq E) := [/\ size r = size v,
  forall k, k < size v -> isb (bound t.+1) (nth d0 r k) &
  forall k, i + j <= k < size v -> isb (bound t) (nth d0 r k)].
have I0 : I 0 rem.
  split=> // k; last by move=> /andP[_]; exact: hr.
  by move=> /hr h; apply: (bo_weak H h); rewrite boundS; lia.
apply: ensures_bind (@ensures_for _ False 0 _ _ _ I I0 _) _; last first.
  move=> r [sr' hr' _]; apply: ensures_ret; split=> //=.
  by rewrite size_set_nth sq; apply/maxn_idPr.
move=> j r /andP[_]; rewrite add0n => jw [sr' hr' hl].
rewrite (vgetE d0); last lia.
rewrite bind_ret; apply: ensures_bind (bo_mul H (hw _) hnq _) _; [lia|rewrite Z.mul_comm; lia|move=> c hc].
rewrite (vgetE d0); last by rewrite sr'; lia.
rewrite bind_ret.
apply: ensures_bind (bo_add H (hl _ _) hc _) _; [lia|by rewrite (Z.mul_comm C); lia|move=> y].
rewrite (Z.mul_comm C) -boundS => hy.
rewrite (vsetE d0); last by rewrite sr'; lia.
apply: ensures_ret; split.
- by rewrite size_set_nth sr'; apply/maxn_idPr; lia.
- by move=> k kv; rewrite nth_set_nth /=; case: eqP => // _; exact: hr'.
- move=> k hk; rewrite nth_set_nth /=; case: eqP => [e|_]; first by lia.
  by apply: hl; lia.
Qed.

Lemma ints_trim X r : size r = size v -> (forall k, k < size v -> isb X (nth d0 r k)) ->
  ensures False (poly_trim_index A r (size w - 1)) (fun _ => True).
Proof.
move=> sr fr; pose I i := i <= size w - 1; have I0 : I (size w - 1) by exact: leqnn.
apply: (@ensures_while _ False _ _ I _ id _ I0) => i iI.
case: ltnP => i0; last exact: ensures_ret.
have ir : i - 1 < size v by rewrite /I in iI; lia.
rewrite (vgetE d0); last by rewrite sr.
rewrite bind_ret; apply: ensures_mono (bo_is_zero H (fr _ ir)) _ => -[] // _.
by apply: ensures_ret; rewrite /I in iI *; split; lia.
Qed.

Lemma ints_division : ensures False (poly_quo_rem A v w) (fun _ => True).
Proof.
rewrite /poly_quo_rem -lt0n w0 [assert _]/= bind_ret ltnNge vw [~~ _]/=.
apply: ensures_bind (bo_zero H) _ => z _.
have w1 : size w - 1 < size w by lia.
rewrite (vgetE d0 w1) bind_ret.
apply: ensures_bind (bo_unit H _) _; first by rewrite subn1.
move=> _ ->; rewrite [assert _]/= bind_ret.
have -> : vresize [::] l z = nseq l z by rewrite /vresize /= subn0.
rewrite size_nseq; apply: (@ensures_bind _ _ _ _ _ (ints l)).
  rewrite -[in ints _](subn0 l).
  apply: (@ensures_for_rev _ False l _ _ (fun i => ints (l - i))).
    split=> //=; first by rewrite size_nseq.
    by move=> k kv; rewrite subnn /bound Z.pow_0_r Z.mul_1_r; exact: hv.
  by move=> i s il hs; exact: ints_step.
move=> [quo rem] [_ sr hr]; apply: ensures_bind (ints_trim sr hr) _ => //.
by move=> i _; exact: ensures_ret.
Qed.
End Rows.

(** ** Products *)
Section Mul.
Variables (v w : seq E) (B C : Z).
Hypothesis hv : forall k, k < size v -> isb B (nth d0 v k).
Hypothesis hw : forall k, k < size w -> isb C (nth d0 w k).
Hypothesis small : (Z.of_nat (size v) * (B * C) <= L)%Z.

Lemma ints_mul : ensures False (poly_mul A A v w) (fun _ => True).
Proof.
rewrite /poly_mul; case: eqP => [_|/eqP v0 /=]; first exact: ensures_ret.
case: eqP => [_|/eqP w0]; first exact: ensures_ret.
have B0 : (0 <= B)%Z by apply: (bo_pos H); apply: (hv (k := 0)); lia.
have C0 : (0 <= C)%Z by apply: (bo_pos H); apply: (hw (k := 0)); lia.
have BC : (0 <= B * C)%Z by apply: Z.mul_nonneg_nonneg.
apply: ensures_bind (bo_zero H) _ => z hz.
set l := size v + size w - 1; have -> : vresize [::] l z = nseq l z by rewrite /vresize /= subn0.
pose I i (r : seq E) := size r = l /\ forall k, k < l -> isb (Z.of_nat i * (B * C)) (nth d0 r k).
have I0 : I 0 (nseq l z).
  by split=> [|k kl]; rewrite ?size_nseq // nth_nseq kl.
apply: (ensures_mono (Q := I (0 + size v))) => //.
apply: (@ensures_for _ False 0 _ _ _ I I0) => i acc /andP[_]; rewrite add0n => iv [sa ha].
have step : (Z.of_nat i.+1 * (B * C) = Z.of_nat i * (B * C) + B * C)%Z by lia.
have lim : (Z.of_nat i.+1 * (B * C) <= L)%Z.
  apply: Z.le_trans small; apply: Z.mul_le_mono_nonneg_r => //; lia.
have ibc : (0 <= Z.of_nat i * (B * C))%Z by apply: Z.mul_nonneg_nonneg => //; lia.
pose J j (r : seq E) := [/\ size r = l,
  forall k, k < l -> isb (Z.of_nat i.+1 * (B * C)) (nth d0 r k) &
  forall k, i + j <= k < l -> isb (Z.of_nat i * (B * C)) (nth d0 r k)].
have J0 : J 0 acc.
  split=> // k; last by move=> /andP[_]; exact: ha.
  by move=> /ha h; apply: (bo_weak H h); lia.
apply: ensures_mono (@ensures_for _ False 0 _ _ _ J J0 _) _; last by move=> r [].
move=> j r /andP[_]; rewrite add0n => jw [sr hr hl].
rewrite (vgetE d0) // bind_ret (vgetE d0) // bind_ret.
apply: ensures_bind (bo_mul H (hv iv) (hw jw) _) _; [lia|move=> a ha'].
rewrite (vgetE d0); last by rewrite sr /l; lia.
rewrite bind_ret; apply: ensures_bind (bo_add H (hl _ _) ha' _) _; [rewrite /l; lia|lia|move=> y].
rewrite -step => hy.
rewrite (vsetE d0); last by rewrite sr /l; lia.
apply: ensures_ret; split.
- by rewrite size_set_nth sr; apply/maxn_idPr; rewrite /l; lia.
- by move=> k kl; rewrite nth_set_nth /=; case: eqP => // _; exact: hr.
- move=> k hk; rewrite nth_set_nth /=; case: eqP => [e|_]; first by lia.
  by apply: hl; lia.
Qed.
End Mul.

(** ** Sums and negatives *)
Section Add.
Variables (v w : seq E) (B C : Z).
Hypothesis hv : forall k, k < size v -> isb B (nth d0 v k).
Hypothesis hw : forall k, k < size w -> isb C (nth d0 w k).
Hypothesis small : (B + C <= L)%Z.

Lemma size_vresize (r : seq E) n z : size r <= n -> size (vresize r n z) = n.
Proof. by move=> h; rewrite /vresize take_oversize // size_cat size_nseq subnKC. Qed.

Lemma ints_add_short (r u : seq E) (X Y : Z) : size u <= size r -> (X + Y <= L)%Z ->
  (forall k, k < size r -> isb X (nth d0 r k)) -> (forall k, k < size u -> isb Y (nth d0 u k)) ->
  ensures False (for_loop 0 (size u) (fun i acc =>
      let! x := vget acc i in
      let! y := vget u i in
      let! a := add A x y in
      vset acc i a) r) (fun _ => True).
Proof.
move=> ur XY hr hu.
pose I i (acc : seq E) := size acc = size r /\ forall k, i <= k < size r -> isb X (nth d0 acc k).
have I0 : I 0 r by split.
apply: (ensures_mono (Q := I (0 + size u))) => //.
apply: (@ensures_for _ False 0 _ _ _ I I0) => i acc /andP[_]; rewrite add0n => iu [sa ha].
rewrite (vgetE d0); last by rewrite sa; lia.
rewrite bind_ret (vgetE d0) // bind_ret.
apply: ensures_bind (bo_add H (ha _ _) (hu _ iu) XY) _; first lia.
move=> a _; rewrite (vsetE d0); last by rewrite sa; lia.
apply: ensures_ret; split; first by rewrite size_set_nth sa; apply/maxn_idPr; lia.
move=> k hk; rewrite nth_set_nth /=; case: eqP => [e|_]; first by lia.
by apply: ha; lia.
Qed.

Lemma ints_add : ensures False (poly_add A v w) (fun _ => True).
Proof.
rewrite /poly_add; case: eqP => [e|ne] /=; last first.
  case: ltnP => h; first by apply: (ints_add_short _ small); [exact: ltnW|exact: hv|exact: hw].
  by apply: (ints_add_short h _ hw hv); rewrite Z.add_comm.
pose I i (acc : seq E) := size acc <= i.
apply: (ensures_mono (Q := I (0 + size v))) => //.
apply: (@ensures_for _ False 0 _ _ _ I) => // i acc /andP[_]; rewrite add0n => iv sa.
rewrite (vgetE d0) // bind_ret (vgetE d0) -?e // bind_ret.
apply: ensures_bind (bo_add H (hv iv) (hw _) small) _; first by rewrite -e.
move=> a ha; apply: ensures_bind (bo_is_zero H ha) _ => -[] _ /=.
  by apply: ensures_ret; exact: leqW.
apply: ensures_bind (bo_zero H) _ => z _.
have s1 : size (vresize acc i.+1 z) = i.+1 by apply: size_vresize; exact: leqW.
rewrite (vsetE d0); last by rewrite s1.
apply: ensures_ret.
by rewrite /I size_set_nth s1; apply/eq_leq/maxn_idPr.
Qed.
End Add.

Section Neg.
Variables (v : seq E) (B : Z).
Hypothesis hv : forall k, k < size v -> isb B (nth d0 v k).
Hypothesis small : (B <= L)%Z.
Lemma ints_neg : ensures False (poly_neg A v) (fun u => size u = size v /\ forall k, k < size u -> isb B (nth d0 u k)).
Proof.
rewrite /poly_neg; elim: v hv => [|x r IH] h /=; first exact: ensures_ret.
apply: ensures_bind (bo_neg H (h 0 isT) small) _ => y hy.
apply: ensures_bind (IH _) _; first by move=> k; exact: (h k.+1).
move=> u [su hu]; apply: ensures_ret; split=> /=; first by rewrite su.
by case=> [|k] //= ku; exact: hu.
Qed.
End Neg.
End Poly.
