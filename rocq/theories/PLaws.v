(** * PLaws.v -- the contracts of Spec.v imply the laws of Laws.v. *)

From Coq Require Import ZArith.
From mathcomp Require Import all_ssreflect all_algebra zify.
From Verif Require Import Rust Traits RingTac Wp Spec PDefaults Laws.

Set Implicit Arguments.
Unset Strict Implicit.
Unset Printing Implicit Defensive.

Import GRing.Theory.
Local Open Scope ring_scope.

(** ** Integer powers add up *)
Section Zpow.
Variables (V : Type) (op : V -> V -> V) (e : V) (inv : V -> V) (u : V).
Hypothesis opA : associative op.
Hypothesis op1x : left_id e op.
Hypothesis opx1 : right_id e op.
Hypothesis uV : inverse_of op e u (inv u).

Lemma zpow_succ n : zpow op e inv u (Z.succ n) = op u (zpow op e inv u n).
Proof.
case: n => [|k|k] /=; first by rewrite /npow /=.
  by rewrite Pos.add_1_r Pos2Nat.inj_succ.
have [->|hk] := Pos.eq_dec k 1; first by rewrite /npow /= opx1; case: uV => ->.
rewrite (_ : Z.pos_sub 1 k = Zneg (Pos.pred k)) /=; last first.
  by rewrite Z.pos_sub_lt ?Pos.sub_1_r //; case: (k) hk.
rewrite -[in RHS](Pos.succ_pred k) // Pos2Nat.inj_succ /npow /= opA.
by case: uV => -> _; rewrite op1x.
Qed.
Lemma zpow_pred n : zpow op e inv u (Z.pred n) = op (inv u) (zpow op e inv u n).
Proof.
rewrite -[in RHS](Z.succ_pred n) zpow_succ opA.
by case: uV => _ ->; rewrite op1x.
Qed.
Lemma zpow_add m n :
  zpow op e inv u (Z.add m n) = op (zpow op e inv u m) (zpow op e inv u n).
Proof.
elim/Z.peano_ind: m => [|m IH|m IH]; first by rewrite /= op1x.
  by rewrite Z.add_succ_l !zpow_succ IH opA.
by rewrite Z.add_pred_l !zpow_pred IH opA.
Qed.
End Zpow.

Section Laws.
Variables (cfg : Cfg) (p : Prop) (E : Type).

Section Generic.
Variables (V : eqType) (rep : E -> V -> Prop).
(** The elements the laws are stated for: any that denote a value. *)
Variable mm : E -> Prop.
Hypothesis mmP : forall x, mm x -> exists u, rep x u.

Lemma yes m b : answers p m b -> b -> holds p m.
Proof. by move=> h hb; apply: ensures_mono h _ => r ->. Qed.
Lemma agree_ok m1 m2 b c : answers p m1 b -> answers p m2 c -> b = c -> holds p (agree m1 m2).
Proof.
move=> h1 h2 bc; apply: ensures_bind h1 _ => _ ->; apply: ensures_bind h2 _ => _ ->.
by apply: ensures_ret; rewrite bc eqxx.
Qed.
Lemma agree_decides m1 m2 (P Q : Prop) :
  decides p m1 P -> decides p m2 Q -> (P <-> Q) -> holds p (agree m1 m2).
Proof.
move=> h1 h2 PQ; apply: ensures_bind h1 _ => b hb; apply: ensures_bind h2 _ => c hc.
by apply: ensures_ret; apply/eqP; apply/idP/idP => h; [apply/hc/PQ/hb|apply/hb/PQ/hc].
Qed.
Lemma entails_ok m1 m2 b c : answers p m1 b -> answers p m2 c -> (b -> c) ->
  holds p (entails m1 m2).
Proof.
move=> h1 h2 bc; apply: ensures_bind h1 _ => _ ->; apply: ensures_bind h2 _ => _ ->.
by apply: ensures_ret; apply/implyP.
Qed.
Lemma entails_decides m1 m2 (P Q : Prop) :
  decides p m1 P -> decides p m2 Q -> (P -> Q) -> holds p (entails m1 m2).
Proof.
move=> h1 h2 PQ; apply: ensures_bind h1 _ => b hb; apply: ensures_bind h2 _ => c hc.
by apply: ensures_ret; apply/implyP => h; apply/hc/PQ/hb.
Qed.
Lemma both_ok m1 m2 b c : answers p m1 b -> answers p m2 c ->
  answers p (both m1 m2) (b && c).
Proof.
move=> h1 h2; apply: ensures_bind h1 _ => _ ->; apply: ensures_bind h2 _ => _ ->.
exact: ensures_ret.
Qed.
Lemma both_holds m1 m2 : holds p m1 -> holds p m2 -> holds p (both m1 m2).
Proof. exact: both_ok. Qed.
Lemma both_decides m1 m2 (P Q : Prop) :
  decides p m1 P -> decides p m2 Q -> decides p (both m1 m2) (P /\ Q).
Proof.
move=> h1 h2; apply: ensures_bind h1 _ => b hb; apply: ensures_bind h2 _ => c hc.
by apply: ensures_ret; split=> [/andP[/hb ? /hc ?]|[/hb -> /hc ->]].
Qed.
Lemma either_ok m1 m2 b c : answers p m1 b -> answers p m2 c ->
  answers p (either m1 m2) (b || c).
Proof.
move=> h1 h2; apply: ensures_bind h1 _ => _ ->; apply: ensures_bind h2 _ => _ ->.
exact: ensures_ret.
Qed.
Lemma notM_ok m b : answers p m b -> answers p (notM m) (~~ b).
Proof. by move=> h; apply: ensures_bind h _ => _ ->; exact: ensures_ret. Qed.
Lemma decides_answers m (b : bool) : decides p m b -> answers p m b.
Proof. by move=> h; apply: ensures_mono h _ => c h; apply/idP/idP => /h. Qed.

Variable (D : Domain E).
Hypothesis hD : domain_spec p rep D.

Lemma same_ok m1 m2 u v : gives p rep m1 u -> gives p rep m2 v ->
  answers p (same D m1 m2) (u == v).
Proof.
move=> h1 h2; apply: ensures_bind h1 _ => x xu; apply: ensures_bind h2 _ => y yv.
exact: (equals_ok hD).
Qed.
Lemma same_eq m1 m2 u v : gives p rep m1 u -> gives p rep m2 v -> u = v ->
  holds p (same D m1 m2).
Proof. by move=> h1 h2 uv; apply: yes (same_ok h1 h2) _; rewrite uv. Qed.
Lemma member_ok m u : gives p rep m u -> holds p (member D m).
Proof. by move=> h; apply: ensures_bind h _ => x xu; exact: (contains_ok hD xu). Qed.
Lemma gret x u : rep x u -> gives p rep (ret x) u.
Proof. exact: ensures_ret. Qed.
Lemma gbind m (f : E -> M E) u v : gives p rep m u ->
  (forall x, rep x u -> gives p rep (f x) v) -> gives p rep (bind m f) v.
Proof. exact: ensures_bind. Qed.

Lemma domain_laws_ok : domain_laws p mm D.
Proof.
split.
- by move=> x /mmP[u xu]; exact: (contains_ok hD xu).
- by move=> x /mmP[u xu]; apply: yes (equals_ok hD xu xu) _.
- move=> x y /mmP[u xu] /mmP[v yv].
  by apply: agree_ok (equals_ok hD xu yv) (equals_ok hD yv xu) _; rewrite eq_sym.
- move=> x y z /mmP[u xu] /mmP[v yv] /mmP[w zw].
  apply: entails_ok (both_ok (equals_ok hD xu yv) (equals_ok hD yv zw)) (equals_ok hD xu zw) _.
  by case/andP => /eqP-> /eqP->.
Qed.

Section Mult.
Variables (op : V -> V -> V) (e : V).
Hypothesis opA : associative op.

Section Semigroup.
Variable S : Semigroup E.
Hypothesis hS : semigroup_spec p rep op S.

Lemma semigroup_laws_ok : semigroup_laws p mm D S.
Proof.
split.
- move=> x y z /mmP[u xu] /mmP[v yv] /mmP[w zw]; apply: same_eq (esym (opA u v w)).
    by apply: gbind (mul_ok hS xu yv) _ => a au; exact: (mul_ok hS au zw).
  by apply: gbind (mul_ok hS yv zw) _ => a au; exact: (mul_ok hS xu au).
- by move=> x y /mmP[u xu] /mmP[v yv]; exact: member_ok (mul_ok hS xu yv).
- by move=> x y /mmP[u xu] /mmP[v yv]; exact: same_eq (mul_assign_ok hS xu yv) (mul_ok hS xu yv) _.
- by move=> x /mmP[u xu]; exact: same_eq (square_ok hS xu) (mul_ok hS xu xu) _.
- move=> x x' y y' /mmP[u xu] /mmP[u' xu'] /mmP[v yv] /mmP[v' yv'].
  apply: entails_ok (both_ok (equals_ok hD xu xu') (equals_ok hD yv yv'))
    (same_ok (mul_ok hS xu yv) (mul_ok hS xu' yv')) _.
  by case/andP => /eqP-> /eqP->.
Qed.
Lemma mul_commutes_ok : commutative op -> mul_commutes p mm D S.
Proof.
by move=> opC x y /mmP[u xu] /mmP[v yv]; apply: same_eq (mul_ok hS xu yv) (mul_ok hS yv xu) _.
Qed.

Section Monoid.
Hypothesis op1x : left_id e op.
Hypothesis opx1 : right_id e op.
Variable O : Monoid E.
Hypothesis hO : monoid_spec p rep op e O.

Lemma monoid_laws_ok : monoid_laws p mm D S O.
Proof.
split.
- exact: member_ok (one_ok hO).
- move=> x /mmP[u xu]; apply: same_eq (gret xu) (opx1 u).
  by apply: gbind (one_ok hO) _ => o oe; exact: (mul_ok hS xu oe).
- move=> x /mmP[u xu]; apply: same_eq (gret xu) (op1x u).
  by apply: gbind (one_ok hO) _ => o oe; exact: (mul_ok hS oe xu).
- by move=> x /mmP[u xu]; apply: agree_ok (is_one_ok hO xu) (same_ok (gret xu) (one_ok hO)) _.
- move=> x /mmP[u xu]; apply: ensures_bind (try_inv_ok hO xu) _ => -[y [v yv [uv vu]]|_]; last exact: ensures_ret.
  apply: both_holds; first exact: (contains_ok hD yv).
  by apply: both_holds; [apply: same_eq (mul_ok hS xu yv) (one_ok hO) _|
     apply: same_eq (mul_ok hS yv xu) (one_ok hO) _].
- move=> x y /mmP[u xu] /mmP[v yv]; apply: ensures_bind (try_inv_ok hO xu) _ => -[z _|h]; first exact: ensures_ret.
  apply: yes (notM_ok (both_ok (same_ok (mul_ok hS xu yv) (one_ok hO))
                        (same_ok (mul_ok hS yv xu) (one_ok hO)))) _.
  by apply/negP => /andP[/eqP h1 /eqP h2]; apply: (h v).
- move=> x /mmP[u xu]; apply: agree_decides (invertible_ok hO xu) _ (iff_refl _).
  apply: ensures_bind (try_inv_ok hO xu) _ => -[y [v yv uv]|h]; apply: ensures_ret => /=.
    by split=> // _; exists v.
  by split=> // -[v /h].
Qed.

Lemma group_laws_ok inv (G : Group E) :
  (forall x u, rep x u -> inverse_of op e u (inv u)) ->
  (forall n, Z.le (Zneg xH) n -> Z.le n (Zpos xH) -> good_isize cfg n) ->
  group_spec cfg p rep op e inv G -> group_laws p mm D cfg S O G.
Proof.
move=> hV h1 hG; split.
- by move=> x /mmP[u xu]; exact: member_ok (ginv_ok hG xu).
- move=> x /mmP[u xu]; have [h _] := hV _ _ xu; apply: same_eq (one_ok hO) h.
  by apply: gbind (ginv_ok hG xu) _ => y yv; exact: (mul_ok hS xu yv).
- move=> x /mmP[u xu]; have [_ h] := hV _ _ xu; apply: same_eq (one_ok hO) h.
  by apply: gbind (ginv_ok hG xu) _ => y yv; exact: (mul_ok hS yv xu).
- by move=> x /mmP[u xu]; apply: same_eq (gpower_ok hG (h1 _ _ _) xu) (one_ok hO) _.
- by move=> x /mmP[u xu]; apply: same_eq (gpower_ok hG (h1 _ _ _) xu) (gret xu) _ => //; rewrite /= /npow /= opx1.
- by move=> x /mmP[u xu]; apply: same_eq (gpower_ok hG (h1 _ _ _) xu) (ginv_ok hG xu) _ => //; rewrite /= /npow /= opx1.
- move=> m n x /mmP[u xu] im iN imn nm nn nmn.
  apply: same_eq (gpower_ok hG (conj imn nmn) xu) _ (zpow_add opA op1x opx1 (hV _ _ xu) m n).
  apply: gbind (gpower_ok hG (conj im nm) xu) _ => a au.
  by apply: gbind (gpower_ok hG (conj iN nn) xu) _ => b bu; exact: (mul_ok hS au bu).
Qed.
End Monoid.
End Semigroup.

Lemma cmonoid_laws_ok (C : CommMonoid E) : commutative op -> left_id e op ->
  cmonoid_spec p rep op e C -> cmonoid_laws p mm D C.
Proof.
move=> opC op1x hC; have opx1 : right_id e op by move=> v; rewrite opC.
split.
- exact: member_ok (zero_ok hC).
- by move=> x y /mmP[u xu] /mmP[v yv]; exact: member_ok (add_ok hC xu yv).
- move=> x y z /mmP[u xu] /mmP[v yv] /mmP[w zw]; apply: same_eq (esym (opA u v w)).
    by apply: gbind (add_ok hC xu yv) _ => a au; exact: (add_ok hC au zw).
  by apply: gbind (add_ok hC yv zw) _ => a au; exact: (add_ok hC xu au).
- by move=> x y /mmP[u xu] /mmP[v yv]; apply: same_eq (add_ok hC xu yv) (add_ok hC yv xu) _.
- move=> x /mmP[u xu]; apply: same_eq (gret xu) (opx1 u).
  by apply: gbind (zero_ok hC) _ => o oe; exact: (add_ok hC xu oe).
- by move=> x /mmP[u xu]; apply: agree_ok (is_zero_ok hC xu) (same_ok (gret xu) (zero_ok hC)) _.
- by move=> x y /mmP[u xu] /mmP[v yv]; exact: same_eq (add_assign_ok hC xu yv) (add_ok hC xu yv) _.
- by move=> x /mmP[u xu]; exact: same_eq (double_ok hC xu) (add_ok hC xu xu) _.
- by move=> x /mmP[u xu]; apply: same_eq (ntimes_ok hC _ xu) (zero_ok hC) _.
- move=> n x /mmP[u xu] n0; have n1 : Z.le Z0 (Z.add n (Zpos xH)) by lia.
  apply: same_eq (ntimes_ok hC n1 xu) _ _; last first.
    by rewrite (_ : Z.to_nat (Z.add n 1) = (Z.to_nat n).+1) //; lia.
  by apply: gbind (ntimes_ok hC n0 xu) _ => y yv; exact: (add_ok hC xu yv).
- move=> x x' y y' /mmP[u xu] /mmP[u' xu'] /mmP[v yv] /mmP[v' yv'].
  apply: entails_ok (both_ok (equals_ok hD xu xu') (equals_ok hD yv yv'))
    (same_ok (add_ok hC xu yv) (add_ok hC xu' yv')) _.
  by case/andP => /eqP-> /eqP->.
Qed.
End Mult.

(** ** Orders and lattices *)
Section Order.
Variable le : rel V.
Hypothesis hL : order_laws rep le.

Lemma le_eq x u y v : rep x u -> rep y v -> (forall d, le d u = le d v) -> u = v.
Proof.
move=> xu yv h; apply: (le_anti hL xu yv); first by rewrite -h (le_refl hL).
by rewrite h (le_refl hL).
Qed.
Lemma ge_eq x u y v : rep x u -> rep y v -> (forall d, le u d = le v d) -> u = v.
Proof.
move=> xu yv h; apply: (le_anti hL xu yv); first by rewrite h (le_refl hL).
by rewrite -h (le_refl hL).
Qed.
Lemma glbE a b c : is_glb le a b c -> forall d, le d c = le d a && le d b.
Proof.
move=> [ca cb h] d; apply/idP/andP => [dc|[da db]]; last exact: h.
by split; apply: (le_trans hL dc).
Qed.
Lemma lubE a b c : is_lub le a b c -> forall d, le c d = le a d && le b d.
Proof.
move=> [ac bc h] d; apply/idP/andP => [cd|[ad bd]]; last exact: h.
by split; [apply: (le_trans hL ac)|apply: (le_trans hL bc)].
Qed.

Section Partial.
Variable R : PartialOrder E.
Hypothesis hR : order_spec p rep le R.

Lemma order_api_laws_ok : order_api_laws p mm D R.
Proof.
split.
- by move=> x /mmP[u xu]; apply: yes (leq_ok hR xu xu) _; exact: le_refl hL u.
- move=> x y z /mmP[u xu] /mmP[v yv] /mmP[w zw].
  apply: entails_ok (both_ok (leq_ok hR xu yv) (leq_ok hR yv zw)) (leq_ok hR xu zw) _.
  by case/andP => h1 h2; exact: (le_trans hL h1 h2).
- move=> x y /mmP[u xu] /mmP[v yv].
  apply: agree_ok (both_ok (leq_ok hR xu yv) (leq_ok hR yv xu)) (equals_ok hD xu yv) _.
  apply/andP/eqP => [[h1 h2]|->]; first exact: (le_anti hL xu yv h1 h2).
  by rewrite (le_refl hL).
- move=> x y /mmP[u xu] /mmP[v yv]; apply: agree_ok (less_than_ok hR xu yv) _ (andbC _ _).
  exact: both_ok (leq_ok hR xu yv) (notM_ok (equals_ok hD xu yv)).
- move=> x y /mmP[u xu] /mmP[v yv]; apply: agree_ok (comparable_ok hR xu yv) _ erefl.
  exact: either_ok (leq_ok hR xu yv) (leq_ok hR yv xu).
Qed.

Definition pays (m : M E) (P : V -> Prop) : Prop :=
  ensures p m (fun z => exists2 w, rep z w & P w).
Lemma pays_bind m (f : E -> M E) (P Q : V -> Prop) : pays m P ->
  (forall z w, rep z w -> P w -> pays (f z) Q) -> pays (bind m f) Q.
Proof. by move=> h1 h2; apply: ensures_bind h1 _ => z [w zw Pw]; exact: h2 zw Pw. Qed.
Lemma pays_ret x u (P : V -> Prop) : rep x u -> P u -> pays (ret x) P.
Proof. by move=> xu Pu; apply: ensures_ret; exists u. Qed.
Lemma pays_mono m (P Q : V -> Prop) : pays m P -> (forall w, P w -> Q w) -> pays m Q.
Proof. by move=> h i; apply: ensures_mono h _ => z [w zw /i Qw]; exists w. Qed.
Lemma pays_gives m u : gives p rep m u -> pays m (eq u).
Proof. by move=> h; apply: ensures_mono h _ => z zu; exists u. Qed.
Lemma pays_member m P : pays m P -> holds p (member D m).
Proof. by move=> h; apply: ensures_bind h _ => z [w zw _]; exact: (contains_ok hD zw). Qed.
Lemma pays_same m1 m2 (P Q : V -> Prop) : pays m1 P -> pays m2 Q ->
  (forall x u y v, rep x u -> rep y v -> P u -> Q v -> u = v) -> holds p (same D m1 m2).
Proof.
move=> h1 h2 h; apply: ensures_bind h1 _ => x [u xu Pu].
apply: ensures_bind h2 _ => y [v yv Qv]; apply: yes (equals_ok hD xu yv) _.
by apply/eqP; exact: h xu yv Pu Qv.
Qed.
Lemma agree_same m m1 m2 (b : bool) (P Q : V -> Prop) :
  answers p m b -> pays m1 P -> pays m2 Q ->
  (forall x u y v, rep x u -> rep y v -> P u -> Q v -> b = (u == v)) ->
  holds p (agree m (same D m1 m2)).
Proof.
move=> h0 h1 h2 h; apply: ensures_bind h0 _ => _ ->.
apply: (@ensures_bind _ _ _ _ _ (fun r => r = b)); last first.
  by move=> _ ->; apply: ensures_ret; rewrite eqxx.
apply: ensures_bind h1 _ => x [u xu Pu]; apply: ensures_bind h2 _ => y [v yv Qv].
by rewrite (h _ _ _ _ xu yv Pu Qv); exact: (equals_ok hD).
Qed.

Section Lattice.
Variable L : Lattice E.
Hypothesis hLa : lattice_spec p rep le L.

(** The lower bounds (upper bounds) of the result of a composed call. *)
Definition lows (P : pred V) : V -> Prop := fun w => forall d, le d w = P d.
Definition ups (P : pred V) : V -> Prop := fun w => forall d, le w d = P d.
Lemma lows_eq x u y v P Q : rep x u -> rep y v -> lows P u -> lows Q v -> P =1 Q -> u = v.
Proof. by move=> xu yv h1 h2 PQ; apply: (le_eq xu yv) => d; rewrite h1 h2. Qed.
Lemma ups_eq x u y v P Q : rep x u -> rep y v -> ups P u -> ups Q v -> P =1 Q -> u = v.
Proof. by move=> xu yv h1 h2 PQ; apply: (ge_eq xu yv) => d; rewrite h1 h2. Qed.
Lemma pays_meet x u y v : rep x u -> rep y v ->
  pays (meet L x y) (lows (fun d => le d u && le d v)).
Proof. by move=> xu yv; apply: pays_mono (meet_ok hLa xu yv) _ => w; exact: glbE. Qed.
Lemma pays_join x u y v : rep x u -> rep y v ->
  pays (join L x y) (ups (fun d => le u d && le v d)).
Proof. by move=> xu yv; apply: pays_mono (join_ok hLa xu yv) _ => w; exact: lubE. Qed.

Lemma lattice_laws_ok : lattice_laws p mm D R L.
Proof.
split.
- by move=> x y /mmP[u xu] /mmP[v yv]; exact: pays_member (meet_ok hLa xu yv).
- by move=> x y /mmP[u xu] /mmP[v yv]; exact: pays_member (join_ok hLa xu yv).
- move=> x y /mmP[u xu] /mmP[v yv]; apply: pays_same (pays_meet xu yv) (pays_meet yv xu) _.
  by move=> a a' b b' ra rb h1 h2; apply: lows_eq ra rb h1 h2 _ => d; rewrite andbC.
- move=> x y /mmP[u xu] /mmP[v yv]; apply: pays_same (pays_join xu yv) (pays_join yv xu) _.
  by move=> a a' b b' ra rb h1 h2; apply: ups_eq ra rb h1 h2 _ => d; rewrite andbC.
- move=> x y z /mmP[u xu] /mmP[v yv] /mmP[w zw].
  pose P d := le d u && le d v && le d w.
  apply: (@pays_same _ _ (lows P) (lows P)) => [||a a' b b' ra rb h1 h2]; last exact: lows_eq ra rb h1 h2 _.
    apply: pays_bind (pays_meet xu yv) _ => a s ra hs.
    by apply: pays_mono (pays_meet ra zw) _ => t ht d; rewrite ht hs.
  apply: pays_bind (pays_meet yv zw) _ => a s ra hs.
  by apply: pays_mono (pays_meet xu ra) _ => t ht d; rewrite ht hs /P andbA.
- move=> x y z /mmP[u xu] /mmP[v yv] /mmP[w zw].
  pose P d := le u d && le v d && le w d.
  apply: (@pays_same _ _ (ups P) (ups P)) => [||a a' b b' ra rb h1 h2]; last exact: ups_eq ra rb h1 h2 _.
    apply: pays_bind (pays_join xu yv) _ => a s ra hs.
    by apply: pays_mono (pays_join ra zw) _ => t ht d; rewrite ht hs.
  apply: pays_bind (pays_join yv zw) _ => a s ra hs.
  by apply: pays_mono (pays_join xu ra) _ => t ht d; rewrite ht hs /P andbA.
- move=> x y /mmP[u xu] /mmP[v yv].
  apply: (@pays_same _ _ (ups (le u)) (eq u)); last 1 first.
  + by move=> a a' b b' ra rb h1 <-; apply: (ge_eq ra xu) => d; rewrite h1.
  + apply: pays_bind (meet_ok hLa xu yv) _ => a s ra [su sv _].
    apply: pays_mono (pays_join xu ra) _ => t ht d; rewrite ht.
    by apply: andb_idr => h; exact: (le_trans hL su h).
  + exact: pays_ret xu erefl.
- move=> x y /mmP[u xu] /mmP[v yv].
  apply: (@pays_same _ _ (lows (le^~ u)) (eq u)); last 1 first.
  + by move=> a a' b b' ra rb h1 <-; apply: (le_eq ra xu) => d; rewrite h1.
  + apply: pays_bind (join_ok hLa xu yv) _ => a s ra [us vs _].
    apply: pays_mono (pays_meet xu ra) _ => t ht d; rewrite ht.
    by apply: andb_idr => h; exact: (le_trans hL h us).
  + exact: pays_ret xu erefl.
- move=> x y /mmP[u xu] /mmP[v yv].
  apply: agree_same (leq_ok hR xu yv) (meet_ok hLa xu yv) (pays_ret xu erefl) _.
  move=> a a' b b' ra rb hg <-; apply/idP/eqP => [uv|wu]; last by case: hg => _; rewrite wu.
  by apply: (le_eq ra xu) => d; rewrite (glbE hg); apply: andb_idr => h; exact: (le_trans hL h uv).
- move=> x y /mmP[u xu] /mmP[v yv].
  apply: agree_same (leq_ok hR xu yv) (join_ok hLa xu yv) (pays_ret yv erefl) _.
  move=> a a' b b' ra rb hg <-; apply/idP/eqP => [uv|wu]; last by case: hg; rewrite wu.
  by apply: (ge_eq ra yv) => d; rewrite (lubE hg); apply: andb_idl => h; exact: (le_trans hL uv h).
Qed.

(** Distributivity of the mathematical order, as two inequalities between
    whatever greatest lower and least upper bounds there are. *)
Definition distributive_order : Prop :=
  (forall a b c l d g1 g2 m, is_lub le b c l -> is_glb le a l d ->
     is_glb le a b g1 -> is_glb le a c g2 -> is_lub le g1 g2 m -> le d m) /\
  (forall a b c g d l1 l2 m, is_glb le b c g -> is_lub le a g d ->
     is_lub le a b l1 -> is_lub le a c l2 -> is_glb le l1 l2 m -> le m d).

Lemma lattice_distributes_ok : distributive_order -> lattice_distributes p mm D L.
Proof.
move=> [hd1 hd2] x y z /mmP[u xu] /mmP[v yv] /mmP[w zw]; split.
- apply: (@pays_same _ _ (fun d => exists2 l, is_lub le v w l & is_glb le u l d)
     (fun m => exists g1 g2, [/\ is_glb le u v g1, is_glb le u w g2 & is_lub le g1 g2 m])).
  + apply: pays_bind (join_ok hLa yv zw) _ => a l ra hl.
    by apply: pays_mono (meet_ok hLa xu ra) _ => d hd; exists l.
  + apply: pays_bind (meet_ok hLa xu yv) _ => a g1 ra h1.
    apply: pays_bind (meet_ok hLa xu zw) _ => b g2 rb h2.
    by apply: pays_mono (join_ok hLa ra rb) _ => m hm; exists g1, g2.
  move=> a d b m rd rm [l hl hd] [g1 [g2 [h1 h2 hm]]]; apply: (le_anti hL rd rm).
    exact: (hd1 _ _ _ _ _ _ _ _ hl hd h1 h2 hm).
  rewrite (lubE hm) !(glbE hd); have [vl wl _] := hl.
  have [g1u g1v _] := h1; have [g2u g2w _] := h2.
  by rewrite g1u g2u (le_trans hL g1v vl) (le_trans hL g2w wl).
- apply: (@pays_same _ _ (fun d => exists2 g, is_glb le v w g & is_lub le u g d)
     (fun m => exists l1 l2, [/\ is_lub le u v l1, is_lub le u w l2 & is_glb le l1 l2 m])).
  + apply: pays_bind (meet_ok hLa yv zw) _ => a l ra hl.
    by apply: pays_mono (join_ok hLa xu ra) _ => d hd; exists l.
  + apply: pays_bind (join_ok hLa xu yv) _ => a g1 ra h1.
    apply: pays_bind (join_ok hLa xu zw) _ => b g2 rb h2.
    by apply: pays_mono (meet_ok hLa ra rb) _ => m hm; exists g1, g2.
  move=> a d b m rd rm [g hg hd] [l1 [l2 [h1 h2 hm]]]; apply: (le_anti hL rd rm); last first.
    exact: (hd2 _ _ _ _ _ _ _ _ hg hd h1 h2 hm).
  rewrite (glbE hm) !(lubE hd); have [gv gw _] := hg.
  have [ul1 vl1 _] := h1; have [ul2 wl2 _] := h2.
  by rewrite ul1 ul2 (le_trans hL gv vl1) (le_trans hL gw wl2).
Qed.

Section Bounded.
Variables (top bot : V) (B : BoundedOrder E).
Hypothesis hB : bounded_spec p rep le top bot B.

Lemma bounded_laws_ok : bounded_laws p mm D R B.
Proof.
split.
- exact: member_ok (omax_ok hB).
- exact: member_ok (omin_ok hB).
- move=> x /mmP[u xu]; apply: ensures_bind (omax_ok hB) _ => m rm.
  by apply: yes (leq_ok hR xu rm) _; exact: (top_ok hB xu).
- move=> x /mmP[u xu]; apply: ensures_bind (omin_ok hB) _ => m rm.
  by apply: yes (leq_ok hR rm xu) _; exact: (bot_ok hB xu).
Qed.

(** [v] is a complement of [u]. *)
Definition is_compl (u v : V) : Prop := is_glb le u v bot /\ is_lub le u v top.
Lemma boolean_laws_ok (C : BooleanAlgebra E) :
  (forall x u y v z w, rep x u -> rep y v -> rep z w ->
     is_compl u v -> is_compl v w -> w = u) ->
  boolean_spec p rep le top bot C -> boolean_laws p mm D L B C.
Proof.
move=> hu hC; split.
- by move=> x /mmP[u xu]; exact: pays_member (bnot_ok hC xu).
- move=> x /mmP[u xu].
  apply: (@pays_same _ _ (lows (le^~ bot)) (eq bot)).
  + apply: pays_bind (bnot_ok hC xu) _ => y v yv [hg _].
    by apply: pays_mono (pays_meet xu yv) _ => w hw d; rewrite hw (glbE hg).
  + exact: pays_gives (omin_ok hB).
  + by move=> a w b v ra rb hw E1; rewrite -E1 in rb *; apply: (le_eq ra rb) => d; rewrite hw.
- move=> x /mmP[u xu].
  apply: (@pays_same _ _ (ups (le top)) (eq top)).
  + apply: pays_bind (bnot_ok hC xu) _ => y v yv [_ hg].
    by apply: pays_mono (pays_join xu yv) _ => w hw d; rewrite hw (lubE hg).
  + exact: pays_gives (omax_ok hB).
  + by move=> a w b v ra rb hw E1; rewrite -E1 in rb *; apply: (ge_eq ra rb) => d; rewrite hw.
- move=> x /mmP[u xu].
  apply: (@pays_same _ _ (eq u) (eq u)); last by move=> *; congruence.
    apply: pays_bind (bnot_ok hC xu) _ => y v yv uv.
    apply: ensures_mono (bnot_ok hC yv) _ => z [w zw vw]; exists w => //.
    by rewrite (hu _ _ _ _ _ _ xu yv zw uv vw).
  exact: pays_ret xu erefl.
Qed.
End Bounded.
End Lattice.
End Partial.
End Order.
End Generic.
End Laws.
