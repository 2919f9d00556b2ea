(** * PTimesLaw.v -- the contracts imply the laws of TimesLaw.v. *)

From Coq Require Import ZArith.
From mathcomp Require Import all_ssreflect all_algebra zify ssrZ.
From Verif Require Import Rust Traits RingTac Wp Spec PDefaults PIntsZ PGroups Laws PLaws PLaws2 TimesLaw.

Set Implicit Arguments.
Unset Strict Implicit.
Unset Printing Implicit Defensive.

Import GRing.Theory.
Local Open Scope ring_scope.

(** ** Integer multiples and powers *)
Section Zmul.
Lemma int_of_Z_add a b : int_of_Z (Z.add a b) = int_of_Z a + int_of_Z b.
Proof. by lia. Qed.
Lemma int_of_Z_mul a b : int_of_Z (Z.mul a b) = int_of_Z a * int_of_Z b.
Proof. by lia. Qed.
Lemma int_of_Z_opp a : int_of_Z (Z.opp a) = - int_of_Z a.
Proof. by lia. Qed.

Lemma zmulE (V : zmodType) (u : V) n : zmul u n = u *~ int_of_Z n.
Proof.
case: n => [|k|k] //; rewrite (_ : int_of_Z (Zneg k) = - Posz (Pos.to_nat k)); last by lia.
by rewrite mulrNz.
Qed.
Lemma zexpE (F : fieldType) (u : F) n : zexp u n = u ^ int_of_Z n.
Proof.
case: n => [|k|k] //; rewrite (_ : int_of_Z (Zneg k) = - Posz (Pos.to_nat k)); last by lia.
by rewrite -exprnN.
Qed.

Lemma zmul_hom (V W : zmodType) (f : V -> W) : (forall a b, f (a + b) = f a + f b) ->
  forall u n, f (zmul u n) = zmul (f u) n.
Proof.
move=> fD; have f0 : f 0 = 0 by apply: (addrI (f 0)); rewrite -fD !addr0.
have fN a : f (- a) = - f a by apply: (addrI (f a)); rewrite -fD !subrr.
have fM a k : f (a *+ k) = f a *+ k by elim: k => [|k IH]; rewrite ?mulr0n // !mulrS fD IH.
by move=> u [|k|k] /=; rewrite ?fN ?fM.
Qed.
End Zmul.

Section ZpowGroup.
Variables (V : eqType) (op : V -> V -> V) (e : V) (inv : V -> V).
Hypothesis opA : associative op.
Hypothesis op1x : left_id e op.
Hypothesis opx1 : right_id e op.
Local Notation zpow := (zpow op e inv).

Lemma zpow_neg u n : inverse_of op e u (inv u) ->
  inverse_of op e (zpow u n) (zpow u (Z.opp n)).
Proof.
move=> uV; split; rewrite -(zpow_add opA op1x opx1 uV).
  by rewrite Z.add_opp_diag_r.
by rewrite Z.add_opp_diag_l.
Qed.
Lemma zpow_comm u v n : inverse_of op e v (inv v) -> op u v = op v u ->
  op u (zpow v n) = op (zpow v n) u.
Proof.
move=> vV uv; have uv' : op u (inv v) = op (inv v) u.
  have [h1 h2] := vV; rewrite -[LHS]op1x -h2 -!opA (opA v) -uv -(opA u) h1 opx1 //.
elim/Z.peano_ind: n => [|n IH|n IH]; first by rewrite /= op1x opx1.
  by rewrite (zpow_succ opA op1x opx1 vV) opA uv -!opA IH.
by rewrite (zpow_pred opA op1x opx1 vV) opA uv' -!opA IH.
Qed.
Lemma zpow_mul u m n : inverse_of op e u (inv u) ->
  inverse_of op e (zpow u n) (inv (zpow u n)) ->
  zpow u (Z.mul m n) = zpow (zpow u n) m.
Proof.
move=> uV wV; have wE : inv (zpow u n) = zpow u (Z.opp n).
  exact: (inverse_uniq opA op1x opx1 wV (zpow_neg n uV)).
elim/Z.peano_ind: m => [|m IH|m IH] //.
  by rewrite Z.mul_succ_l Z.add_comm (zpow_add opA op1x opx1 uV) (zpow_succ opA op1x opx1 wV) IH.
by rewrite Z.mul_pred_l -Z.add_opp_r Z.add_comm (zpow_add opA op1x opx1 uV)
  (zpow_pred opA op1x opx1 wV) IH wE.
Qed.
Lemma zpow_op u v n : inverse_of op e u (inv u) -> inverse_of op e v (inv v) ->
  inverse_of op e (op u v) (inv (op u v)) -> op u v = op v u ->
  zpow (op u v) n = op (zpow u n) (zpow v n).
Proof.
move=> uV vV wV uv.
have wE : inv (op u v) = op (inv u) (inv v).
  rewrite (inverse_uniq opA op1x opx1 wV (_ : inverse_of op e (op u v) (op (inv u) (inv v)))) //.
  by rewrite {1}uv; exact: inverse_op.
have c1 k : op v (zpow u k) = op (zpow u k) v by exact: zpow_comm.
have c2 k : op (inv v) (zpow u k) = op (zpow u k) (inv v).
  apply: zpow_comm => //; have [h1 h2] := vV.
  by rewrite -[RHS]op1x -h2 -!opA (opA v) -uv -(opA u) h1 opx1.
elim/Z.peano_ind: n => [|n IH|n IH]; first by rewrite /= op1x.
  rewrite !(zpow_succ opA op1x opx1) // IH -!opA; congr op.
  by rewrite !opA c1.
rewrite !(zpow_pred opA op1x opx1) // IH wE -!opA; congr op.
by rewrite !opA c2.
Qed.
Lemma zpow_conj u v n : inverse_of op e u (inv u) -> inverse_of op e v (inv v) ->
  inverse_of op e (op (op v u) (inv v)) (inv (op (op v u) (inv v))) ->
  zpow (op (op v u) (inv v)) n = op (op v (zpow u n)) (inv v).
Proof.
move=> uV vV wV; have [v1 v2] := vV.
have wE : inv (op (op v u) (inv v)) = op (op v (inv u)) (inv v).
  apply: (inverse_uniq opA op1x opx1 wV); have [u1 u2] := uV.
  by split; rewrite -!opA (opA (inv v)) v2 op1x ?(opA u) ?(opA (inv u)) ?u1 ?u2 op1x.
elim/Z.peano_ind: n => [|n IH|n IH]; first by rewrite /= opx1.
  by rewrite !(zpow_succ opA op1x opx1) // IH -!opA (opA (inv v)) v2 op1x.
by rewrite !(zpow_pred opA op1x opx1) // IH wE -!opA (opA (inv v)) v2 op1x.
Qed.
Lemma zpow_inv u n : inverse_of op e u (inv u) -> inverse_of op e (inv u) (inv (inv u)) ->
  zpow u (Z.opp n) = zpow (inv u) n.
Proof.
move=> uV vV; case: n => [|k|k] //=; congr npow.
exact: (inverse_uniq opA op1x opx1 (inverse_sym uV) vV).
Qed.
Lemma zpow_one n : inverse_of op e e (inv e) -> zpow e n = e.
Proof.
move=> [h _]; have ie : inv e = e by rewrite -[LHS]op1x.
by case: n => [|k|k] //=; rewrite ?ie; elim: (Pos.to_nat k) => //= j ->.
Qed.
End ZpowGroup.

Lemma ensures_assoc p X Y W (m : M X) (f : X -> M Y) (g : Y -> M W) (Q : W -> Prop) :
  ensures p (let! x := m in let! y := f x in g y) Q ->
  ensures p (let! y := (let! x := m in f x) in g y) Q.
Proof.
have e k : (let! y := (let! x := m in f x) in g y)%rust k = (let! x := m in let! y := f x in g y)%rust k.
  by rewrite /bind; case: (m k).
case=> [[v [[n h] Qv]]|[hp [n h]]].
  by left; exists v; split=> //; exists n => k nk; rewrite e h.
by right; split=> //; exists n => k nk; rewrite e h.
Qed.
Lemma ensures_retl p X Y (x : X) (f : X -> M Y) (Q : Y -> Prop) :
  ensures p (f x) Q -> ensures p (let! y := ret x in f y) Q.
Proof. by rewrite bind_ret. Qed.

(** Reads off the value of a composed call; the contracts are in the context. *)
Ltac gv1 := first
  [ eassumption
  | eapply zero_ok; eassumption | eapply one_ok; eassumption
  | eapply add_ok; eassumption | eapply sub_ok; eassumption | eapply neg_ok; eassumption
  | eapply double_ok; eassumption | eapply mul_ok; eassumption | eapply square_ok; eassumption
  | eapply ginv_ok; eassumption | eapply int_ok; eassumption
  | eapply ztimes_ok; eassumption | eapply gpower_ok; eassumption
  | eapply ntimes_ok; eassumption
  | eapply finv_ok; eassumption | eapply fdiv_ok; eassumption | eapply fpower_ok; eassumption ].
Ltac gv := lazymatch goal with
  | |- gives _ _ (bind _ _) _ =>
      eapply gbind; [gv | let x := fresh "x" in let h := fresh "h" in intros x h; gv]
  | |- gives _ _ (ret _) _ => eapply gret; eassumption
  | |- _ => gv1
  end.
(** Runs a composed call, naming what is known of the intermediate results. *)
Ltac walk := lazymatch goal with
  | |- holds _ (same _ _ _) => rewrite /holds /same; walk
  | |- ensures _ (same _ _ _) _ => rewrite /same; walk
  | |- ensures _ (bind (bind _ _) _) _ => apply: ensures_assoc; walk
  | |- ensures _ (bind (ret _) _) _ => apply: ensures_retl; walk
  | |- ensures _ (bind _ _) _ =>
      eapply ensures_bind; [gv1 | let x := fresh "x" in let h := fresh "h" in intros x h; cbv beta in h; walk]
  | |- ensures _ (equals _ _ _) _ => eapply yes; [eapply equals_ok; eassumption | ]
  | |- _ => idtac
  end.
Ltac sameby := eapply same_eq; [eassumption | gv | gv | ].

Section Contracts.
Variables (cfg : Cfg) (p : Prop) (E : Type).

Section Abelian.
Variables (V : zmodType) (rep : E -> V -> Prop) (mm : E -> Prop).
Hypothesis mmP : forall x, mm x -> exists u, rep x u.
Variable A : AbelianAlg E.
Hypothesis hA : abelian_alg_spec cfg p rep A.

Lemma additive_laws_ok : additive_laws cfg p mm A.
Proof.
case: hA => hD hC hB; split.
- by move=> x /mmP[u xu]; sameby; rewrite opprK.
- by sameby; rewrite oppr0.
- by move=> x y /mmP[u xu] /mmP[v yv]; sameby; rewrite opprD.
- by move=> x /mmP[u xu]; sameby; rewrite subrr.
- by move=> x /mmP[u xu]; sameby; rewrite subr0.
- by move=> x /mmP[u xu]; sameby; rewrite sub0r.
- by move=> x y /mmP[u xu] /mmP[v yv]; sameby; rewrite opprB.
- by move=> x y /mmP[u xu] /mmP[v yv]; split; sameby; rewrite ?addrK ?subrK.
- move=> x y /mmP[u xu] /mmP[v yv].
  apply: (@agree_ok _ _ _ (u - v == 0)) (equals_ok hD xu yv) (subr_eq0 u v).
  by apply: ensures_bind (sub_ok hB xu yv) _ => z zw; exact: (is_zero_ok hC zw).
- move=> x y z /mmP[u xu] /mmP[v yv] /mmP[w zw].
  apply: agree_ok (same_ok hD (add_ok hC xu zw) (add_ok hC yv zw)) (equals_ok hD xu yv) _.
  exact: (inj_eq (addIr w)).
- by move=> x /mmP[u xu] f; sameby; rewrite /= mulr2n.
- by move=> n x /mmP[u xu] f n0; sameby; rewrite npow_mulrn; case: n n0 {f}.
- by move=> n x /mmP[u xu] f f'; split; sameby; rewrite !zmulE int_of_Z_opp ?mulrNz ?mulNrz.
- by move=> n x y /mmP[u xu] /mmP[v yv] f; sameby; rewrite !zmulE mulrzDr.
- by move=> n x y /mmP[u xu] /mmP[v yv] f; sameby; rewrite !zmulE mulrzBl.
- by move=> n f; sameby; rewrite !zmulE mul0rz.
- by move=> m n x /mmP[u xu] f1 f2 f3; sameby; rewrite !zmulE int_of_Z_mul mulrzA_C.
Qed.
End Abelian.

Section Ring.
Variables (V : zmodType) (rep : E -> V -> Prop) (mm : E -> Prop) (op : V -> V -> V) (e : V).
Hypothesis mmP : forall x, mm x -> exists u, rep x u.
Hypothesis opA : associative op.
Hypothesis op1x : left_id e op.
Hypothesis opx1 : right_id e op.
Hypothesis opDr : forall a b c : V, op a (b + c) = op a b + op a c.
Hypothesis opDl : forall a b c : V, op (a + b) c = op a c + op b c.
Variable A : RingAlg E.
Hypothesis hA : ring_alg_spec cfg p rep op e A.

Lemma op0x a : op 0 a = 0.
Proof. by apply: (addrI (op 0 a)); rewrite -opDl !addr0. Qed.
Lemma opx0 a : op a 0 = 0.
Proof. by apply: (addrI (op a 0)); rewrite -opDr !addr0. Qed.
Lemma opNx a b : op (- a) b = - op a b.
Proof. by apply: (addrI (op a b)); rewrite -opDl !subrr op0x. Qed.
Lemma opxN a b : op a (- b) = - op a b.
Proof. by apply: (addrI (op a b)); rewrite -opDr !subrr opx0. Qed.
Lemma op_zmulr a b n : op a (zmul b n) = zmul (op a b) n.
Proof. exact: (zmul_hom (f := op a)). Qed.
Lemma op_zmull a b n : op (zmul a n) b = zmul (op a b) n.
Proof. by apply: (zmul_hom (f := op^~ b)) => c d; exact: opDl. Qed.

Lemma int_laws_ok : int_laws cfg p mm A.
Proof.
case: hA => -[hD hS hO] hC hB hU; split.
- by move=> n f; exact: (member_ok hD (int_ok hU f)).
- by move=> f; sameby.
- by move=> f; sameby; rewrite /= mulr1n.
- by move=> m n f1 f2 f3; sameby; rewrite !zmulE int_of_Z_add mulrzDl.
- by move=> m n f1 f2 f3; sameby; rewrite !zmulE -Z.add_opp_r int_of_Z_add int_of_Z_opp mulrzBr.
- by move=> n f1 f2; sameby; rewrite !zmulE int_of_Z_opp mulrNz.
- by move=> m n f1 f2 f3; sameby; rewrite op_zmulr op_zmull op1x !zmulE int_of_Z_mul mulrzA.
- by move=> n x /mmP[u xu] f; split; sameby; rewrite ?op_zmulr ?op_zmull ?op1x ?opx1.
- by move=> n x y /mmP[u xu] /mmP[v yv] f; split; sameby; rewrite ?op_zmulr ?op_zmull.
- by move=> x y /mmP[u xu] /mmP[v yv]; split; sameby; rewrite ?opNx ?opxN ?opprK.
- by move=> x /mmP[u xu]; sameby; rewrite opNx opxN opprK.
- by move=> x y z /mmP[u xu] /mmP[v yv] /mmP[w zw]; split; sameby;
    rewrite ?opDr ?opDl ?opNx ?opxN.
Qed.
End Ring.

Section Group.
Variables (V : eqType) (rep : E -> V -> Prop) (mm : E -> Prop).
Variables (op : V -> V -> V) (e : V) (inv : V -> V).
Hypothesis mmP : forall x, mm x -> exists u, rep x u.
Hypothesis opA : associative op.
Hypothesis op1x : left_id e op.
Hypothesis opx1 : right_id e op.
Hypothesis hV : forall x u, rep x u -> inverse_of op e u (inv u).
Variable A : GroupAlg E.
Hypothesis hA : group_alg_spec cfg p rep op e inv A.
Local Notation zpow := (zpow op e inv).
Local Notation pays := (pays p rep).

Lemma op_inj u v w : inverse_of op e w (inv w) ->
  (op u w == op v w) = (u == v) /\ (op w u == op w v) = (u == v).
Proof.
move=> [w1 w2]; split; apply/eqP/eqP => [h|-> //].
  by rewrite -(opx1 u) -(opx1 v) -w1 !opA h.
by rewrite -(op1x u) -(op1x v) -w2 -!opA h.
Qed.

Lemma power_laws_ok : power_laws cfg p mm A.
Proof.
case: hA => -[hD hS hO] hG.
split.
- by move=> x /mmP[u xu]; walk; apply/eqP; apply: (inverse_uniq opA op1x opx1 (hV h)); exact: inverse_sym (hV xu).
- by walk; apply/eqP; have [h' _] := hV h; rewrite -[LHS]op1x.
- move=> x y /mmP[u xu] /mmP[v yv]; walk; apply/eqP; apply: (inverse_uniq opA op1x opx1 (hV h)).
  by apply: inverse_op => //; [exact: hV xu|exact: hV yv].
- move=> x y z /mmP[u xu] /mmP[v yv] /mmP[w zw]; have [h1 h2] := op_inj u v (hV zw).
  by split; [apply: agree_ok (same_ok hD (mul_ok hS xu zw) (mul_ok hS yv zw)) (equals_ok hD xu yv) _|
     apply: agree_ok (same_ok hD (mul_ok hS zw xu) (mul_ok hS zw yv)) (equals_ok hD xu yv) _].
- move=> x y /mmP[u xu] /mmP[v yv]; have [h1 h2] := hV xu.
  by split; walk; [rewrite opA h1 op1x|rewrite -opA h2 opx1].
- move=> x /mmP[u xu]; apply: ensures_bind (try_inv_ok hO xu) _ => -[y [v yv hv]|hn]; last first.
    by case: (hn (inv u)); exact: hV xu.
  by walk; apply/eqP; exact: (inverse_uniq opA op1x opx1 hv (hV xu)).
- move=> x /mmP[u xu]; apply: yes_decides (invertible_ok hO xu) _.
  by exists (inv u); exact: hV xu.
- by move=> x /mmP[u xu] f; walk; rewrite /= /npow /= opx1.
- move=> n x /mmP[u xu] f f'; have hn := zpow_neg opA op1x opx1 n (hV xu); split; walk; apply/eqP.
    exact: (inverse_uniq opA op1x opx1 hn (hV h0)).
  by apply: (zpow_inv opA op1x opx1); [exact: hV xu|exact: hV h0].
- by move=> n f; walk; apply/eqP; apply: (zpow_one op1x); exact: hV h.
- move=> m n x /mmP[u xu] f1 f2 f3; walk; apply/eqP.
  by apply: (zpow_mul opA op1x opx1); [exact: hV xu|exact: hV h0].
- move=> n x y /mmP[u xu] /mmP[v yv] f.
  apply: ensures_bind (same_ok hD (mul_ok hS xu yv) (mul_ok hS yv xu)) _ => _ ->.
  case: (eqVneq (op u v)) => uv; last first.
    apply: (@ensures_bind _ _ _ _ _ (fun _ => True)); last by move=> *; exact: ensures_ret.
    by apply: (@ensures_mono _ _ _ (fun r => r = (zpow (op u v) n == op (zpow u n) (zpow v n))));
      [apply: (same_ok hD); gv|].
  apply: (@ensures_bind _ _ _ _ _ (fun r => r = true)); last by move=> _ ->; exact: ensures_ret.
  walk; apply/eqP; apply: (zpow_op opA op1x opx1) => //; [exact: hV xu|exact: hV yv|exact: hV h].
- move=> n x y /mmP[u xu] /mmP[v yv] f; walk; apply/eqP.
  by apply: (zpow_conj opA op1x opx1); [exact: hV xu|exact: hV yv|exact: hV h1].
Qed.
End Group.

Section Field.
Variables (F : fieldType) (rep : E -> F -> Prop) (mm : E -> Prop).
Hypothesis mmP : forall x, mm x -> exists u, rep x u.
Variable A : FieldAlg E.
Hypothesis hA : field_alg_spec cfg p rep A.

Lemma oppr_neq0 (a : F) : a != 0 -> - a != 0.
Proof. by rewrite oppr_eq0. Qed.

Lemma zexp_neq0 (a : F) n : a != 0 -> zexp a n != 0.
Proof. by move=> a0; rewrite zexpE expfz_neq0. Qed.

Ltac nz := first [eassumption | apply: mulf_neq0; nz | apply: invr_neq0; nz | apply: oppr_neq0; nz | apply: zexp_neq0; nz].
Ltac fv1 := first
  [ eapply finv_ok; [eassumption|eassumption|nz]
  | eapply fdiv_ok; [eassumption|eassumption|eassumption|nz]
  | eapply fpower_ok; [eassumption|eassumption|eassumption|nz]
  | gv1 ].
Ltac fv := lazymatch goal with
  | |- gives _ _ (bind _ _) _ =>
      eapply gbind; [fv | let x := fresh "x" in let h := fresh "h" in intros x h; fv]
  | |- gives _ _ (ret _) _ => eapply gret; eassumption
  | |- _ => fv1
  end.
Ltac samef := eapply same_eq; [eassumption | fv | fv | ].

Lemma field_power_laws_ok : field_power_laws cfg p mm A.
Proof.
case: hA => -[[[[hD hS hO] hC hB _] _] _] hF; split.
- by move=> x /mmP[a xa] /(is_zero_value hC xa) /negbT a0; samef; rewrite invrK.
- move=> x y /mmP[a xa] /mmP[b yb] /(is_zero_value hC xa) /negbT a0 /(is_zero_value hC yb) /negbT b0.
  by samef; rewrite invfM.
- by move=> x /mmP[a xa] /(is_zero_value hC xa) /negbT a0; samef; rewrite invrN.
- by move=> x y /mmP[a xa] /mmP[b yb] /(is_zero_value hC yb) /negbT b0; samef.
- by move=> x /mmP[a xa] /(is_zero_value hC xa) /negbT a0; samef; rewrite divff.
- move=> x y z /mmP[a xa] /mmP[b yb] /mmP[c zc] /(is_zero_value hC yb) /negbT b0
    /(is_zero_value hC zc) /negbT c0.
  by samef; rewrite invfM mulrACA divff // mulr1.
- move=> x y u v /mmP[a xa] /mmP[b yb] /mmP[c uc] /mmP[d vd] /(is_zero_value hC yb) /negbT b0
    /(is_zero_value hC vd) /negbT d0.
  by samef; rewrite addf_div.
- by move=> x /mmP[a xa] /(is_zero_value hC xa) /negbT a0 f; samef.
- move=> x /mmP[a xa] f; have [a0|a0] := eqVneq a 0; last by samef; rewrite zexpE expr1z.
  by apply: (same_eq hD) (gret p xa) _; [apply: (fpower_zero hF); rewrite -a0|].
- move=> x /mmP[a xa] f; have [a0|a0] := eqVneq a 0; last by samef; rewrite zexpE.
  apply: (same_eq hD) (square_ok hS xa) _; [by apply: (fpower_zero hF); rewrite -a0|].
  by rewrite a0 mulr0.
- by move=> x /mmP[a xa] /(is_zero_value hC xa) /negbT a0 f; samef; rewrite zexpE.
- by move=> m n x /mmP[a xa] /(is_zero_value hC xa) /negbT a0 f1 f2 f3; samef;
    rewrite !zexpE int_of_Z_add expfzDr.
- move=> m n x /mmP[a xa] f1 f2 f3; have [a0|a0] := eqVneq a 0; last first.
    by samef; rewrite !zexpE int_of_Z_mul exprz_exp mulrC.
  rewrite a0 in xa; apply: (same_eq hD) (fpower_zero hF _ xa) _ erefl.
  by apply: gbind (fpower_zero hF n xa) _ => y y0; exact: (fpower_zero hF).
- move=> n x y /mmP[a xa] /mmP[b yb] f.
  have [a0|a0] := eqVneq a 0; last have [b0|b0] := eqVneq b 0.
  + rewrite a0 in xa; apply: (@same_eq _ _ _ _ _ hD _ _ 0 0) => //.
      by apply: gbind (mul_ok hS xa yb) _ => z; rewrite mul0r => z0; exact: (fpower_zero hF).
    apply: gbind (fpower_zero hF n xa) _ => u u0.
    have [b0|b0] := eqVneq b 0.
      rewrite b0 in yb; apply: gbind (fpower_zero hF n yb) _ => v v0.
      by have := mul_ok hS u0 v0; rewrite mul0r.
    by apply: gbind (fpower_ok hF f yb b0) _ => v v0; have := mul_ok hS u0 v0; rewrite mul0r.
  + rewrite b0 in yb; apply: (@same_eq _ _ _ _ _ hD _ _ 0 0) => //.
      by apply: gbind (mul_ok hS xa yb) _ => z; rewrite mulr0 => z0; exact: (fpower_zero hF).
    apply: gbind (fpower_ok hF f xa a0) _ => u u0; apply: gbind (fpower_zero hF n yb) _ => v v0.
    by have := mul_ok hS u0 v0; rewrite mulr0.
  + by samef; rewrite !zexpE exprMz_comm ?unitfE //; exact: mulrC.
Qed.
End Field.
End Contracts.
