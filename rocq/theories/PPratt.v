(** * PPratt.v -- certificates for prime numbers. *)

From Coq Require Import ZArith Lia Znumtheory.
From mathcomp Require Import all_ssreflect all_fingroup all_algebra all_solvable all_field ssrZ zify.
From Verif Require Import Rust Traits MInts MConstr Wp Spec PDefaults ModSpec PModProps PFinite PFF PRsa.

Set Implicit Arguments.
Unset Strict Implicit.
Unset Printing Implicit Defensive.

Import GRing.Theory GroupScope.

Lemma order_certified (gT : finGroupType) (u : gT) n : (0 < n)%N -> u ^+ n = 1 ->
  (forall q, prime.prime q -> (q %| n)%N -> u ^+ (n %/ q) != 1) -> #[u] = n.
Proof.
move=> n0 un h; have /dvdnP[m nE] : (#[u] %| n)%N by rewrite order_dvdn un.
have [m1|m1] := leqP m 1.
  case: m m1 nE => [|[|m]] // _ nE; last by rewrite nE mul1n.
  by rewrite nE mul0n in n0.
have /dvdnP[c mE] := pdiv_dvd m; have pq := pdiv_prime m1.
have q0 := prime_gt0 pq.
have qn : (pdiv m %| n)%N by rewrite nE dvdn_mulr // pdiv_dvd.
case/eqP: (h _ pq qn); apply/eqP; rewrite -order_dvdn nE {1}mE mulnAC mulnK //.
exact: dvdn_mull.
Qed.

Lemma totient_prime k : (1 < k)%N -> (k.-1 <= totient k)%N -> prime.prime k.
Proof.
move=> k1 tk; apply/negPn/negP => np.
have /primePn[k2|[d /andP[d1 dk] dvd]] := np; first by move: k1; case: (k) k2 => [|[|]].
have : (totient k < k.-1)%N; last by rewrite ltnNge tk.
rewrite totient_count_coprime (big_ltn (ltnW k1)) /coprime gcdn0 gtn_eqF // add0n.
rewrite (@big_cat_nat _ _ _ d) //=; try exact: ltnW.
rewrite [X in (_ + X)%N]big_ltn //= (gcdn_idPr dvd) gtn_eqF // add0n.
have le m n : (\sum_(m <= i < n) (gcdn k i == 1) <= n - m)%N.
  rewrite -[X in (_ <= X)%N]muln1 -sum_nat_const_nat; apply: leq_sum => i _; exact: leq_b1.
have := le 1%N d; have := le d.+1 k; move: (\sum_(_ <= i < _) _)%N (\sum_(_ <= i < d) _)%N => a b.
lia.
Qed.

Section Nat.
Variables (k : nat).
Hypothesis k1 : (1 < k)%N.

Lemma pratt x : (expn x k.-1 %% k = 1)%N ->
  (forall q, prime.prime q -> (q %| k.-1)%N -> (expn x (k.-1 %/ q) %% k != 1)%N) -> prime.prime k.
Proof.
move=> xk hx; have k0 : (0 < k.-1)%N by case: (k) k1 => [|[|]].
have cop : coprime k x.
  rewrite -(coprime_pexpr _ _ k0) /coprime -gcdn_modr xk gcdn1 //.
have xu : (x%:R : 'Z_k)%R \is a GRing.unit by rewrite unitZpE.
pose u := FinRing.unit 'Z_k xu.
have uX n : (u ^+ n == 1) = (expn x n %% k == 1)%N.
  rewrite -val_eqE /= FinRing.val_unitX /= -natrX -val_eqE /= val_Zp_nat //.
have o : #[u] = k.-1.
  apply: order_certified => // [|q pq qk]; first by apply/eqP; rewrite uX xk.
  by rewrite uX; exact: hx.
apply: totient_prime => //; rewrite -o -(card_units_Zp (ltnW k1)).
apply: subset_leq_card; rewrite cycle_subG; exact: in_setT.
Qed.

Lemma pratt_exists : prime.prime k -> exists x, [/\ (x < k)%N, (expn x k.-1 %% k = 1)%N &
  forall q, prime.prime q -> (q %| k.-1)%N -> (expn x (k.-1 %/ q) %% k != 1)%N].
Proof.
move=> pk; have sk : size (enum 'F_k) = k by rewrite -cardE card_Fp.
have [g] := primitive (enum_uniq 'F_k) (fun u => mem_enum _ u); rewrite sk => hg.
have gE : ((g : nat)%:R : 'F_k)%R = g by exact: natr_Zp.
have gX n : (expn g n %% k == 1)%N = (g ^+ n == 1)%R.
  rewrite -{2}gE -natrX -val_eqE /= val_Fp_nat // /=.
exists g; split.
- by rewrite -[X in (_ < X)%N](Fp_cast pk); exact: ltn_ord.
- by apply/eqP; rewrite gX prim_expr_order.
move=> q pq qk; rewrite gX -(prim_order_dvd hg); apply/negP => /dvdn_leq.
have k0 : (0 < k.-1)%N by case: (k) k1 => [|[|]].
have q0 : (0 < k.-1 %/ q)%N by rewrite divn_gt0 ?prime_gt0 // dvdn_leq.
by move=> /(_ q0); rewrite leqNgt ltn_Pdiv // prime_gt1.
Qed.
End Nat.
