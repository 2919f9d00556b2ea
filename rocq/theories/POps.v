(** * POps.v -- numbers of calls of the base: the records and the general counting lemmas. *)

From Coq Require Import ZArith Lia.
From mathcomp Require Import all_ssreflect zify.
From Verif Require Import Rust Traits MConstr MOps OpsSpec.

Set Implicit Arguments.
Unset Strict Implicit.
Unset Printing Implicit Defensive.

(** ** The labels change nothing *)
Section Records.

Lemma records_ret A (a : A) : records (wret a) (ret a).
Proof. by []. Qed.
Lemma records_call A o (m : M A) : records (call o m) m.
Proof. by move=> k; rewrite /unlabelled /call /bind; case: (m k). Qed.
Lemma records_free A (m : M A) : records (free m) m.
Proof. by move=> k; rewrite /unlabelled /free /bind; case: (m k). Qed.
Lemma records_bind A B (w : W A) (f : A -> W B) m g : records w m ->
  (forall a, records (f a) (g a)) -> records (wbind w f) (bind m g).
Proof.
move=> h1 h2 k; rewrite /bind -h1 /unlabelled /wbind /bind.
case: (w k) => [[a t]||] //=; rewrite -h2 /unlabelled.
by case: (f a k).
Qed.
Lemma records_if A b (w1 w2 : W A) m1 m2 : records w1 m1 -> records w2 m2 ->
  records (if b then w1 else w2) (if b then m1 else m2).
Proof. by case: b. Qed.
Lemma records_not w m : records w m -> records (w_not w) (notM m).
Proof. by move=> h; apply: records_bind. Qed.
Lemma records_and w1 w2 m1 m2 : records w1 m1 -> records w2 m2 -> records (w_and w1 w2) (andM m1 m2).
Proof. by move=> h1 h2; apply: records_bind => // -[]. Qed.
Lemma records_map A B (f : A -> W B) g s : (forall x, records (f x) (g x)) ->
  records (w_map f s) (mapM g s).
Proof.
move=> h; elim: s => [|x s IH] //=; apply: records_bind => // y; exact: records_bind.
Qed.
Lemma records_map2 A B C (f : A -> B -> W C) g s t : (forall x y, records (f x y) (g x y)) ->
  records (w_map2 f s t) (map2M g s t).
Proof.
move=> h; elim: s t => [|x s IH] [|y t] //=; apply: records_bind => // z; exact: records_bind.
Qed.
Lemma records_all A (f : A -> W bool) g s : (forall x, records (f x) (g x)) ->
  records (w_all f s) (allM g s).
Proof. by move=> h; elim: s => [|x s IH] //=; exact: records_and. Qed.
Lemma records_all2 A B (f : A -> B -> W bool) g s t : (forall x y, records (f x y) (g x y)) ->
  records (w_all2 f s t) (all2M g s t).
Proof. by move=> h; elim: s t => [|x s IH] [|y t] //=; exact: records_and. Qed.
Lemma records_for S (f : nat -> S -> W S) g lo c s : (forall i s, records (f i s) (g i s)) ->
  records (w_for lo c f s) (for_loop lo c g s).
Proof. by move=> h; elim: c lo s => [|c IH] lo s //=; exact: records_bind. Qed.
Lemma records_for_rev S (f : nat -> S -> W S) g c s : (forall i s, records (f i s) (g i s)) ->
  records (w_for_rev c f s) (for_rev c g s).
Proof. by move=> h; elim: c s => [|c IH] s //=; exact: records_bind. Qed.
Lemma records_for_ret S R (f : nat -> S -> W (S + R)) g lo c s :
  (forall i s, records (f i s) (g i s)) -> records (w_for_ret lo c f s) (for_loop_ret lo c g s).
Proof. by move=> h; elim: c lo s => [|c IH] lo s //=; apply: records_bind => // -[]. Qed.
Lemma records_for_rev_ret S R (f : nat -> S -> W (S + R)) g c s :
  (forall i s, records (f i s) (g i s)) -> records (w_for_rev_ret c f s) (for_rev_ret c g s).
Proof. by move=> h; elim: c s => [|c IH] s //=; apply: records_bind => // -[]. Qed.
Lemma records_find f g lo c : (forall i, records (f i) (g i)) ->
  records (w_find lo c f) (findM lo c g).
Proof. by move=> h; elim: c lo => [|c IH] lo //=; apply: records_bind => // -[]. Qed.
Lemma records_while S (c : S -> W bool) (f : S -> W S) c' g s :
  (forall s, records (c s) (c' s)) -> (forall s, records (f s) (g s)) ->
  records (w_while c f s) (while_loop c' g s).
Proof.
move=> h1 h2 k; rewrite /unlabelled /w_while /while_loop.
have h n : records (w_while_fuel n c f s) (while_fuel n c' g s).
  elim: n s => [|n IH] s //=; apply: records_bind => // -[] //; exact: records_bind.
exact: (h k k).
Qed.
End Records.

Ltac rec_with tac := repeat first
  [ tac | exact: records_ret | exact: records_call | exact: records_free
  | apply: records_bind => [|?] | apply: records_not | apply: records_and
  | apply: records_map => ? | apply: records_map2 => ? ? | apply: records_all => ?
  | apply: records_all2 => ? ? | apply: records_for => ? ? | apply: records_for_rev => ? ?
  | apply: records_for_ret => ? ? | apply: records_for_rev_ret => ? ? | apply: records_find => ?
  | apply: records_while => ? | apply: records_if
  | match goal with |- records (match ?x with _ => _ end) _ => destruct x end ].
Ltac rec := rec_with fail.

Section Structures.
Variable E : Type.
Implicit Types (x y : E) (v u : seq E).

Lemma power_loop_rec o d f g num x y :
  records (w_power_loop o d f g num x y) (power_loop f g num x y).
Proof. by apply: records_while => -[[a b] c]; rec. Qed.
Lemma ntimes_rec z f g num x : records (w_ntimes z f g num x) (default_ntimes z f g num x).
Proof. by rec_with ltac:(exact: power_loop_rec). Qed.
Lemma gpower_rec cfg z f g i num x :
  records (w_gpower cfg z f g i num x) (default_gpower cfg z f g i num x).
Proof. by rec_with ltac:(exact: power_loop_rec). Qed.
Lemma gcd_rec z r x y : records (w_gcd z r x y) (default_gcd z r x y).
Proof. by rec. Qed.
Lemma extended_gcd_rec iz o z m s q x y :
  records (w_extended_gcd iz o z m s q x y) (default_extended_gcd iz o z m s q x y).
Proof.
have h n : records (w_extended_gcd_fuel n iz o z m s q x y)
    (extended_gcd_fuel n iz o z m s q x y).
  by elim: n x y => [|n IH] x y //=; rec_with ltac:(exact: IH).
by move=> k; exact: (h k k).
Qed.

Lemma vector1_rec n o f v : records (w_vector1 n o f v) (do! assert_len1 n v in mapM f v).
Proof. by rec. Qed.
Lemma vector2_rec n o f v u : records (w_vector2 n o f v u) (do! assert_len2 n v u in map2M f v u).
Proof. by rec. Qed.

Lemma poly_mul_rec A S v u : records (w_poly_mul A S v u) (poly_mul A S v u).
Proof. by rec. Qed.
Lemma poly_add_rec A v u : records (w_poly_add A v u) (poly_add A v u).
Proof. by rec. Qed.
Lemma poly_neg_rec A v : records (w_poly_neg A v) (poly_neg A v).
Proof. by rec. Qed.
Lemma poly_try_div_rec A v u : records (w_poly_try_div A v u) (poly_try_div A v u).
Proof. by rec. Qed.
Lemma poly_trim_rec A v i : records (w_poly_trim_index A v i) (poly_trim_index A v i).
Proof. by apply: records_while => j; rec. Qed.
Lemma poly_quo_rem_rec A v u : records (w_poly_quo_rem A v u) (poly_quo_rem A v u).
Proof. by rec_with ltac:(exact: poly_trim_rec). Qed.
Lemma poly_gcd_rec A v u : records (w_poly_gcd A v u) (gcd (PolyEucl A) v u).
Proof. by rec_with ltac:(exact: poly_quo_rem_rec). Qed.

Section Matrix.
Variables (cfg : Cfg) (A : FieldAlg E) (n : nat).
Lemma mul_row_rec v i x : records (w_mul_row A n v i x) (mul_row A n v i x).
Proof. by rec. Qed.
Lemma add_rows_rec v i j x : records (w_add_rows A n v i j x) (add_rows A n v i j x).
Proof. by rec. Qed.
Lemma find_row_rec v i : records (w_find_row A n v i) (find_row A n v i).
Proof. by rec. Qed.
Lemma clear_below_rec v i : records (w_det_clear_below A n v i) (det_clear_below A n v i).
Proof. by rec_with ltac:(exact: add_rows_rec). Qed.
Lemma determinant_rec v : records (w_determinant A n v) (determinant A n v).
Proof.
by rec_with ltac:(first [exact: find_row_rec | exact: mul_row_rec | exact: clear_below_rec]).
Qed.
Lemma matrix_mul_rec v u : records (w_matrix_mul A n v u) (matrix_mul A n v u).
Proof. by rec. Qed.
Lemma matrix_int_rec m : records (w_matrix_int A n m) (matrix_int A n m).
Proof.
apply: records_bind => [|x]; first exact: records_call.
move=> k; rewrite /= /unlabelled /wbind /call /free /bind /ret /=.
by case: (zero A k) => [z||] //=; case: for_loop.
Qed.
Lemma matrix_is_one_rec v : records (w_matrix_is_one A n v) (matrix_is_one A n v).
Proof. by apply: records_bind => [|o]; [exact: matrix_int_rec|rec]. Qed.
Lemma clear_others_rec vi i : records (w_inv_clear_others A n vi i) (inv_clear_others A n vi i).
Proof. by rec; case: b => v u; rec_with ltac:(exact: add_rows_rec). Qed.
Lemma matrix_try_inv_rec v : records (w_matrix_try_inv cfg A n v) (matrix_try_inv cfg A n v).
Proof.
rewrite /w_matrix_try_inv /matrix_try_inv /debug_assert.
by rec_with ltac:(first [exact: matrix_int_rec | exact: find_row_rec | exact: mul_row_rec |
  exact: clear_others_rec | exact: matrix_is_one_rec]).
Qed.
Lemma matrix_invertible_rec v : records (w_matrix_invertible A n v) (matrix_invertible A n v).
Proof. by rec_with ltac:(exact: determinant_rec). Qed.
End Matrix.
End Structures.
