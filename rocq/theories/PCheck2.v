(** * PCheck2.v -- when the remaining methods of CheckedInts panic. *)

From Coq Require Import ZArith Lia Bool.
From mathcomp Require Import all_ssreflect.
From Verif Require Import Rust Traits MInts Wp ZFacts PIntsZ NumSpec PChecked PNum.

Set Implicit Arguments.
Unset Strict Implicit.
Unset Printing Implicit Defensive.
Local Open Scope Z_scope.

Section CI.
Variables (cfg : Cfg) (w : Z).
Implicit Types x y z n : Z.
Local Notation CI := (CheckedInts cfg w).

Lemma ci_assign x y :
  checked (fits w (- x)) (neg_assign CI x) (- x) /\
  checked (fits w (- y) /\ fits w (x - y)) (sub_assign CI x y) (x - y).
Proof.
have [_ _ hn _] := ci_arith cfg w x y.
split; first exact: hn.
have [_ _ [n1 n2] _] := ci_arith cfg w y x.
have [[a1 a2] _ _ _] := ci_arith cfg w x (- y).
have e : x + - y = x - y by lia.
rewrite e in a1 a2; split=> [[h1 h2]|h].
  by apply: returns_bind (n1 h1) _; exact: a1.
have [/fitsP hy|/fitsP hy] := boolP (in_i w (- y)); last by apply: panics_bind; exact: n2.
by apply: panics_bind2 (n1 hy) _; apply: a2 => h'; apply: h.
Qed.

Lemma ci_consts x y :
  [/\ returns (zero CI) 0, returns (one CI) 1, returns (is_zero CI x) (x =? 0) &
      returns (is_one CI x) (x =? 1)] /\
  [/\ returns (equals CI x y) (x =? y), returns (contains CI x) true,
      returns (try_inv CI x) (if Z.abs x =? 1 then Some x else None) &
      returns (invertible CI x) (Z.abs x =? 1)].
Proof.
have e : (Z.abs x =? 1) = (x =? 1) || (x =? -1).
  apply/idP/orP => [/Z.eqb_eq h|[/Z.eqb_eq|/Z.eqb_eq] ->] //.
  have [->|->] : x = 1 \/ x = -1 by lia.
    by left.
  by right.
split; split; try exact: returns_ret; last by rewrite e; exact: returns_ret.
by rewrite e /= /checked_ints_try_inv /checked_ints_invertible bind_ret; case: ifP => _; exact: returns_ret.
Qed.

Lemma ci_assoc x y : 2 <= w -> fits w x -> fits w y ->
  [/\ checked (fits w (Z.abs x)) (associate_repr CI x) (Z.abs x),
      checked (x <> 0) (associate_coef CI x) (Z.sgn x) &
      checked (~ min_by_m1 w x y) (associates CI x y) (Z.abs x =? Z.abs y)].
Proof.
move=> w2 hx hy; split.
- rewrite /= /checked_ints_associate_repr; case: Z.ltb_spec => x0.
    have -> : Z.abs x = - x by lia.
    by have [] := ci_arith cfg w x y.
  have -> : Z.abs x = x by lia.
  by split=> [_|//]; exact: returns_ret.
- rewrite /= /checked_ints_associate_coef; case: Z.eqb_spec => x0 /=.
    by split=> // _; apply: panics_bind; exact: panics_panic.
  split=> // _; apply: returns_bind (returns_ret _) _; case: Z.ltb_spec => x1.
    by rewrite Z.sgn_neg //; exact: returns_ret.
  by rewrite Z.sgn_pos; [exact: returns_ret|lia].
have [b [hb [b1 b2]]] := ci_divisible cfg w2 hx hy.
have [c [hc [c1 c2]]] := ci_divisible cfg w2 hy hx.
have -> : (Z.abs x =? Z.abs y) = b && c.
  apply/idP/idP => [/Z.eqb_eq h|/andP[/hb d1 /hc d2]].
    by apply/andP; split; [apply/hb|apply/hc]; apply/Z.divide_abs_l; rewrite ?h -?h;
      apply/Z.divide_abs_r; rewrite ?h -?h; apply: Z.divide_refl.
  by apply/Z.eqb_eq; have [->|->] := Z.divide_antisym y x d1 d2; lia.
rewrite /= /default_associates /andM; split=> h; last first.
  by apply: panics_bind; exact: b2.
apply: returns_bind (b1 h) _; case: b hb {b1 b2} => hb; last exact: returns_ret.
apply: c1 => -[ey ex]; have [k hk] := hb.1 isT.
have : 2 <= 2 ^ (w - 1) by rewrite -[X in X <= _]Z.pow_1_r; apply: Z.pow_le_mono_r; lia.
move: hk; rewrite ey ex => hk p2.
have [k0|k0] : k <= 0 \/ 1 <= k by lia.
  by have := Z.mul_nonneg_nonneg (- k) (2 ^ (w - 1)) ltac:(lia) ltac:(lia); lia.
by have := Z.mul_le_mono_nonneg 1 k 2 (2 ^ (w - 1)) ltac:(lia) k0 ltac:(lia) p2; lia.
Qed.
End CI.
