(** * PIndex.v -- the index arithmetic of matrices and polynomials does not overflow. *)

From Coq Require Import ZArith Lia List.
From mathcomp Require Import all_ssreflect zify.
From Verif Require Import Rust Traits MConstr MIndex IndexSpec Wp.

Set Implicit Arguments.
Unset Strict Implicit.
Unset Printing Implicit Defensive.

(** ** Calls that behave in the same way for every bound *)
Section Ext.
Implicit Types A B S R : Type.

Lemma bind_ext A B (m m' : M A) (f f' : A -> M B) :
  m =1 m' -> (forall k a, m k = Done a -> f a =1 f' a) -> bind m f =1 bind m' f'.
Proof. by move=> h hf k; rewrite /bind -h; case e: (m k) => [a||] //; exact: hf e k. Qed.

Lemma bind_ext2 A B (m : M A) (f f' : A -> M B) :
  (forall a, f a =1 f' a) -> bind m f =1 bind m f'.
Proof. by move=> hf; apply: bind_ext => // k a _; exact: hf. Qed.

Lemma for_ext S lo cnt (b b' : nat -> S -> M S) s :
  (forall i t, (lo <= i < lo + cnt)%N -> b i t =1 b' i t) ->
  for_loop lo cnt b s =1 for_loop lo cnt b' s.
Proof.
elim: cnt lo s => [|c IH] lo s h //=; apply: bind_ext => [|_ t _]; first by apply: h; lia.
by apply: IH => i t' hi; apply: h; lia.
Qed.

Lemma for_rev_ext S cnt (b b' : nat -> S -> M S) s :
  (forall i t, (i < cnt)%N -> b i t =1 b' i t) -> for_rev cnt b s =1 for_rev cnt b' s.
Proof.
elim: cnt s => [|c IH] s h //=; apply: bind_ext => [|_ t _]; first by apply: h; lia.
by apply: IH => i t' hi; apply: h; lia.
Qed.

Lemma for_ret_ext S R lo cnt (b b' : nat -> S -> M (S + R)) s :
  (forall i t, (lo <= i < lo + cnt)%N -> b i t =1 b' i t) ->
  for_loop_ret lo cnt b s =1 for_loop_ret lo cnt b' s.
Proof.
elim: cnt lo s => [|c IH] lo s h //=; apply: bind_ext => [|_ [t|r] _] //.
  by apply: h; lia.
by apply: IH => i t' hi; apply: h; lia.
Qed.

Lemma for_rev_ret_ext S R cnt (b b' : nat -> S -> M (S + R)) s :
  (forall i t, (i < cnt)%N -> b i t =1 b' i t) -> for_rev_ret cnt b s =1 for_rev_ret cnt b' s.
Proof.
elim: cnt s => [|c IH] s h //=; apply: bind_ext => [|_ [t|r] _] //.
  by apply: h; lia.
by apply: IH => i t' hi; apply: h; lia.
Qed.

Lemma findM_ext lo cnt (f f' : nat -> M bool) :
  (forall i, (lo <= i < lo + cnt)%N -> f i =1 f' i) -> findM lo cnt f =1 findM lo cnt f'.
Proof.
elim: cnt lo => [|c IH] lo h //=; apply: bind_ext => [|_ [] _] //; first by apply: h; lia.
by apply: IH => i hi; apply: h; lia.
Qed.

Lemma findM_range lo cnt (f : nat -> M bool) k r :
  findM lo cnt f k = Done (Some r) -> (lo <= r < lo + cnt)%N.
Proof.
elim: cnt lo => [|c IH] lo //=; rewrite /bind; case: (f lo k) => [[]||] //=.
  by case=> <-; lia.
by move/IH; lia.
Qed.

Lemma while_ext S (I : S -> Prop) (c c' : S -> M bool) (b b' : S -> M S) s :
  (forall s, I s -> c s =1 c' s) ->
  (forall s k, I s -> c s k = Done true -> b s =1 b' s) ->
  (forall s k k' t, I s -> c s k = Done true -> b s k' = Done t -> I t) ->
  I s -> while_loop c b s =1 while_loop c' b' s.
Proof.
move=> hc hb hI i k; rewrite /while_loop; move: {1 3}k => m.
elim: m s i => [|m IH] s i //=; rewrite /bind -hc //; case e: (c s k) => [[]||] //.
rewrite -(hb _ _ i e); case e': (b s k) => [t||] //.
by apply: IH; exact: hI i e e'.
Qed.
End Ext.

(** ** Arithmetic that fits *)
Section Fits.
Variable cfg : Cfg.

Definition fits (m : nat) : Prop := (Z.of_nat m <= umax (ptr_bits cfg))%Z.

Lemma fits_le m m' : (m <= m')%N -> fits m' -> fits m.
Proof. by rewrite /fits; lia. Qed.

Lemma prim_usizeE m : fits m -> prim_usize cfg (Z.of_nat m) = ret m.
Proof.
rewrite /fits /prim_usize /is_usize /in_u => h; rewrite ifT ?Nat2Z.id //.
by apply/andP; split; [case: Z.leb_spec|case: Z.leb_spec]; lia.
Qed.

Lemma uaddE a b : fits (a + b) -> uadd cfg a b = ret (a + b).
Proof.
by move=> h; rewrite -prim_usizeE // /uadd; congr prim_usize; lia.
Qed.

Lemma umulE a b : fits (a * b) -> umul cfg a b = ret (a * b).
Proof.
by move=> h; rewrite -prim_usizeE // /umul; congr prim_usize; lia.
Qed.

Lemma usubE a b : (b <= a)%N -> fits a -> usub cfg a b = ret (a - b).
Proof.
move=> ba h; rewrite -prim_usizeE; last by apply: fits_le h; lia.
by rewrite /usub; congr prim_usize; lia.
Qed.
End Fits.

(** ** MatrixRing *)
Section Matrix.
Variables (cfg : Cfg) (E : Type) (A : FieldAlg E) (n : nat).
Hypothesis nn : fits cfg (n * n).
Hypothesis ptr : (2 <= ptr_bits cfg)%Z.
Implicit Types v u : seq E.

Lemma row_fits row : (row < n)%N -> umul cfg row n = ret (row * n).
Proof. by move=> rn; apply: umulE; apply: fits_le nn; rewrite leq_mul2r ltnW ?orbT. Qed.

Lemma row_col_le row col : (row < n)%N -> (col <= n)%N -> (row * n + col <= n * n)%N.
Proof.
move=> rn cn; apply: (@leq_trans (row.+1 * n)); first by rewrite mulSn addnC leq_add2r.
by rewrite leq_mul2r rn orbT.
Qed.

Lemma entry_fits row col : (row < n)%N -> (col <= n)%N ->
  uadd cfg (row * n) col = ret (row * n + col).
Proof. by move=> rn cn; apply: uaddE; apply: fits_le nn; exact: row_col_le. Qed.

Lemma len_fits : u_matrix_len cfg n = ret (matrix_len n).
Proof. exact: umulE. Qed.

Lemma next_fits col : (col < n)%N -> uadd cfg col 1 = ret col.+1.
Proof.
move=> cn; rewrite uaddE ?addn1 //; apply: fits_le nn.
by apply: (leq_trans cn); rewrite leq_pmull //; case: (n) cn.
Qed.

Lemma u_transposeE v : u_matrix_transpose cfg n v =1 matrix_transpose n v.
Proof.
rewrite /u_matrix_transpose len_fits !bind_ret.
apply: bind_ext2 => _; apply: for_ext => row s hr; apply: for_ext => col t hc.
by rewrite row_fits ?bind_ret ?entry_fits ?bind_ret; try lia.
Qed.

Lemma u_mul_rowE v row c : (row < n)%N -> u_mul_row cfg A n v row c =1 mul_row A n v row c.
Proof. by move=> rn k; rewrite /u_mul_row row_fits // bind_ret entry_fits // bind_ret addKn. Qed.

Lemma u_add_rowsE v row1 row2 c : (row1 < n)%N -> (row2 < n)%N ->
  u_add_rows cfg A n v row1 row2 c =1 add_rows A n v row1 row2 c.
Proof.
move=> r1 r2; rewrite /u_add_rows !row_fits // !bind_ret.
by apply: for_ext => col w hc; rewrite !entry_fits //; lia.
Qed.

Lemma u_swap_rowsE v row1 row2 : (row1 < n)%N -> (row2 < n)%N ->
  u_swap_rows cfg n v row1 row2 =1 swap_rows n v row1 row2.
Proof.
move=> r1 r2; rewrite /u_swap_rows !row_fits // !bind_ret.
by apply: for_ext => col w hc; rewrite !entry_fits // ?bind_ret; try lia.
Qed.

Lemma u_find_rowE v col : (col < n)%N -> u_find_row cfg A n v col =1 find_row A n v col.
Proof.
move=> cn; apply: findM_ext => row hr.
by rewrite row_fits ?bind_ret ?entry_fits ?bind_ret; try lia.
Qed.

Lemma find_row_lt v col k row : (col < n)%N -> find_row A n v col k = Done (Some row) -> (row < n)%N.
Proof. by move=> cn /findM_range; lia. Qed.

Lemma u_det_clear_belowE v col : (col < n)%N ->
  u_det_clear_below cfg A n v col =1 det_clear_below A n v col.
Proof.
move=> cn; rewrite /u_det_clear_below next_fits // bind_ret.
apply: for_ext => row w hr; have rn : (row < n)%N by lia.
rewrite row_fits // bind_ret entry_fits // ?bind_ret; last by lia.
do 2 apply: bind_ext2 => ?; case: ifP => // _.
by apply: bind_ext2 => ?; exact: u_add_rowsE.
Qed.

Lemma u_determinantE v : u_determinant cfg A n v =1 determinant A n v.
Proof.
apply: bind_ext2 => d; apply: bind_ext => //; apply: for_ret_ext => col [w e] hc.
have cn : (col < n)%N by lia.
apply: bind_ext => [|k [row|] //]; first exact: u_find_rowE.
rewrite u_find_rowE // => /(find_row_lt cn) rn.
apply: bind_ext => [|_ w' _]; first by case: ifP => // _; exact: u_swap_rowsE.
rewrite row_fits // bind_ret entry_fits // ?bind_ret; last by lia.
do 3 apply: bind_ext2 => ?; apply: bind_ext => [|_ ? _]; first exact: u_mul_rowE.
by apply: bind_ext => [|_ ? _]; first exact: u_det_clear_belowE.
Qed.

Lemma u_matrix_containsE v : u_matrix_contains cfg A n v =1 contains (MatrixRing cfg A n) v.
Proof. by move=> k; rewrite /u_matrix_contains len_fits bind_ret. Qed.

Lemma u_matrix_equalsE v u : u_matrix_equals cfg A n v u =1 equals (MatrixRing cfg A n) v u.
Proof.
move=> k; rewrite /u_matrix_equals len_fits bind_ret /=.
by case: (size v == _); rewrite /= ?len_fits ?bind_ret.
Qed.

Lemma u_matrix_mulE v u : u_matrix_mul cfg A n v u =1 mul (MatrixRing cfg A n) v u.
Proof.
rewrite /u_matrix_mul len_fits bind_ret; apply: bind_ext => [k|_ _ _].
  by case: (size v == _); rewrite /= ?bind_ret.
apply: bind_ext => [|_ w _]; first exact: u_transposeE.
rewrite bind_ret; apply: for_ext => row s hr; apply: for_ext => col t hc.
apply: bind_ext2 => z; apply: bind_ext => //; apply: for_ext => i e hi.
rewrite row_fits ?bind_ret ?entry_fits ?bind_ret; try lia.
by apply: bind_ext2 => ?; rewrite row_fits ?bind_ret ?entry_fits ?bind_ret; try lia.
Qed.

Lemma u_matrix_intE k : u_matrix_int cfg A n k =1 int (MatrixRing cfg A n) k.
Proof.
do 2 apply: bind_ext2 => ?; apply: for_ext => i w hi.
have f1 : fits cfg (n + 1).
  have [n1|n1] := leqP n 1.
    apply: (@fits_le _ _ 2); first by lia.
    by rewrite /fits /umax; have := Z.pow_le_mono_r 2 2 _ erefl ptr; lia.
  apply: fits_le nn; apply: (@leq_trans (n * 2)); first by lia.
  by rewrite leq_mul2l n1 orbT.
rewrite uaddE // bind_ret umulE ?bind_ret //; apply: fits_le nn.
have [m nE] : exists m, n = m.+1 by exists n.-1; lia.
move: hi; rewrite nE => hi; apply: (@leq_trans (m * (m.+1 + 1))); first by rewrite leq_mul2r; lia.
by rewrite mulnDr muln1 mulSn; lia.
Qed.

Lemma u_inv_clear_othersE vi col : (col < n)%N ->
  u_inv_clear_others cfg A n vi col =1 inv_clear_others A n vi col.
Proof.
move=> cn; apply: for_ext => row [w invs] hr; have rn : (row < n)%N by lia.
case: ifP => // _; rewrite row_fits // bind_ret entry_fits // ?bind_ret; last by lia.
do 2 apply: bind_ext2 => ?; case: ifP => // _; apply: bind_ext2 => ?.
apply: bind_ext => [|_ ? _]; first exact: u_add_rowsE.
by apply: bind_ext => [|_ ? _]; first exact: u_add_rowsE.
Qed.

Lemma u_matrix_try_invE v : u_matrix_try_inv cfg A n v =1 try_inv (MatrixRing cfg A n) v.
Proof.
apply: bind_ext => [|_ j _]; first exact: u_matrix_intE.
apply: bind_ext => [|_ [[w i]|] _] //.
  apply: for_ret_ext => col [w i] hc; have cn : (col < n)%N by lia.
  apply: bind_ext => [|k [row|] //]; first exact: u_find_rowE.
  rewrite u_find_rowE // => /(find_row_lt cn) rn.
  apply: bind_ext => [|_ [w' i'] _].
    case: ifP => // _; apply: bind_ext => [|_ ? _]; first exact: u_swap_rowsE.
    by apply: bind_ext => [|_ ? _]; first exact: u_swap_rowsE.
  rewrite row_fits // bind_ret entry_fits // ?bind_ret; last by lia.
  do 2 apply: bind_ext2 => ?; apply: bind_ext => [|_ ? _]; first exact: u_mul_rowE.
  apply: bind_ext => [|_ ? _]; first exact: u_mul_rowE.
  by apply: bind_ext => [|_ ? _]; first exact: u_inv_clear_othersE.
apply: bind_ext => [k|_ _ _] //; rewrite /debug_assert; case: ifP => // _.
apply: (bind_ext _ _ k) => // k'; rewrite /matrix_is_one.
apply: (bind_ext _ _ k') => [|_ z _]; first exact: u_matrix_intE.
exact: u_matrix_equalsE.
Qed.

Lemma u_matrix_invertibleE v : u_matrix_invertible cfg A n v =1 invertible (MatrixRing cfg A n) v.
Proof. by apply: bind_ext => [|_ d _]; first exact: u_determinantE. Qed.

End Matrix.

Lemma new_fits cfg n : returns (matrix_new cfg n) tt -> fits cfg (n * n).
Proof.
case=> k /(_ k (leqnn k)); rewrite /matrix_new /assert; case: ifP => // /andP[_].
by rewrite /fits; case: Z.leb_spec => //; lia.
Qed.

Lemma matrix_indices_ok cfg E (A : FieldAlg E) n :
  (2 <= ptr_bits cfg)%Z -> returns (matrix_new cfg n) tt -> matrix_indices cfg A n.
Proof.
move=> ptr /new_fits nn; split.
- by move=> k; rewrite len_fits.
- exact: u_matrix_containsE.
- exact: u_matrix_equalsE.
- exact: u_matrix_mulE.
- exact: u_matrix_intE.
- exact: u_matrix_try_invE.
- exact: u_matrix_invertibleE.
- exact: u_transposeE.
- exact: u_determinantE.
Qed.

(** ** PolynomialAlgebra *)
Section Poly.
Variables (cfg : Cfg) (E : Type).
Implicit Types v u : seq E.
Hypothesis ptr : (2 <= ptr_bits cfg)%Z.

Local Notation vec_len := (@vec_length cfg E).

Lemma two_imax : (2 * imax (ptr_bits cfg) + 1 = umax (ptr_bits cfg))%Z.
Proof.
by rewrite /imax /umax {2}(_ : ptr_bits cfg = Z.succ (ptr_bits cfg - 1)) ?Z.pow_succ_r; lia.
Qed.

Lemma len_sum v u : vec_len v -> vec_len u -> fits cfg (size v + size u).
Proof. by rewrite /vec_length /fits; have := two_imax; lia. Qed.
Lemma len_one v : vec_len v -> fits cfg (size v + 1).
Proof.
rewrite /vec_length /fits; have := two_imax.
by rewrite /imax; have := Z.pow_le_mono_r 2 1 (ptr_bits cfg - 1) erefl; lia.
Qed.
Lemma len_fit v : vec_len v -> fits cfg (size v).
Proof. by move=> h; apply: fits_le (len_one h); lia. Qed.
Lemma last_fits v : vec_len v -> size v != 0 -> usub cfg (size v) 1 = ret (size v - 1).
Proof. by move=> h v0; apply: usubE; [lia|exact: len_fit]. Qed.

Lemma u_poly_degreeE v : vec_len v -> u_poly_degree cfg v =1 ret (poly_degree v).
Proof.
by move=> hv k; rewrite /u_poly_degree /poly_degree; case: eqVneq => // v0; rewrite last_fits.
Qed.
Lemma u_poly_leading_coefE v : vec_len v -> u_poly_leading_coef cfg v =1 poly_leading_coef v.
Proof.
move=> hv k; rewrite /u_poly_leading_coef /poly_leading_coef.
by case: eqVneq => // v0; rewrite last_fits.
Qed.
Lemma u_poly_containsE (A : AbelianAlg E) v : vec_len v -> u_poly_contains cfg A v =1 poly_contains A v.
Proof.
move=> hv; rewrite /u_poly_contains /poly_contains; case: eqVneq => // v0.
by apply: bind_ext2 => b; case: ifP => // _; rewrite last_fits.
Qed.

Lemma u_poly_mulE (A : AbelianAlg E) S v u : vec_len v -> vec_len u ->
  u_poly_mul cfg A S v u =1 poly_mul A S v u.
Proof.
move=> hv hu; rewrite /u_poly_mul /poly_mul; case: ifP => // /norP [v0 u0].
have f := len_sum hv hu.
rewrite uaddE // bind_ret usubE //; last by lia.
rewrite !bind_ret usubE //; last by lia.
rewrite bind_ret; apply: bind_ext2 => z; apply: for_ext => i s hi; apply: for_ext => j t hj.
do 3 apply: bind_ext2 => ?; have fij : fits cfg (i + j) by apply: fits_le f; lia.
by rewrite uaddE // bind_ret; do 2 apply: bind_ext2 => ?; rewrite bind_ret.
Qed.

Lemma u_poly_addE (A : AbelianAlg E) v u : vec_len v -> vec_len u ->
  u_poly_add cfg A v u =1 poly_add A v u.
Proof.
move=> hv hu; rewrite /u_poly_add /poly_add; case: ifP => // _.
apply: for_ext => i s hi; do 4 apply: bind_ext2 => ?; case: ifP => // _.
rewrite uaddE ?bind_ret; last by apply: fits_le (len_fit hv); lia.
by rewrite addn1.
Qed.

Lemma mapM_size A B (f : A -> M B) s k t : mapM f s k = Done t -> size t = size s.
Proof.
elim: s t => [|x s IH] t /=; first by case=> <-.
rewrite /bind; case: (f x k) => [y||] //; case e: (mapM f s k) => [ys||] // [<-].
by rewrite /= (IH _ e).
Qed.

Lemma u_poly_ztimesE (A : AbelianAlg E) num v : vec_len v ->
  u_poly_ztimes cfg A num v =1 poly_ztimes A num v.
Proof.
move=> hv; apply: bind_ext => // k e /mapM_size se; apply: bind_ext => // {k}.
apply: for_rev_ret_ext => i t hi; do 2 apply: bind_ext2 => ?; case: ifP => // _.
rewrite uaddE ?bind_ret; last by apply: fits_le (len_fit hv); lia.
by rewrite addn1.
Qed.

Lemma u_poly_try_divE (A : IDomAlg E) v u : vec_len v -> vec_len u ->
  u_poly_try_div cfg A v u =1 poly_try_div A v u.
Proof.
move=> hv hu; rewrite /u_poly_try_div /poly_try_div.
apply: bind_ext => // k0 a; rewrite /assert; case: ifP => // u0 _ {k0 a}.
case: ltnP => // uv; have f := len_sum hv hu.
have fv := len_fit hv; have fl := last_fits hu u0.
rewrite uaddE // bind_ret usubE //; last by lia.
rewrite bind_ret usubE // bind_ret uaddE ?bind_ret; last by apply: fits_le fv; lia.
apply: bind_ext2 => z; rewrite fl bind_ret; do 3 apply: bind_ext2 => ?.
have sq : size (vresize [::] (size v - size u + 1) z) = size v - size u + 1.
  by rewrite /vresize size_cat size_nseq /= subn0.
apply: bind_ext => [|k [[q r]|] _] //.
apply: for_rev_ret_ext => i [q r]; rewrite sq => hi.
rewrite uaddE ?bind_ret; last by apply: fits_le fv; lia.
rewrite usubE ?bind_ret; [|lia|by apply: fits_le fv; lia].
apply: bind_ext2 => ?; apply: bind_ext2 => -[?|] //.
do 2 apply: bind_ext2 => ?; rewrite bind_ret; apply: bind_ext => //.
apply: for_ext => j t hj; do 2 apply: bind_ext2 => ?.
by rewrite uaddE //; apply: fits_le fv; lia.
Qed.

Lemma u_poly_associate_reprE (A : IDomAlg E) v : vec_len v ->
  u_poly_associate_repr cfg A v =1 poly_associate_repr A v.
Proof.
move=> hv k; rewrite /u_poly_associate_repr /poly_associate_repr.
by case: eqVneq => // v0; rewrite last_fits.
Qed.

Lemma u_poly_associate_coefE (A : IDomAlg E) v : vec_len v ->
  u_poly_associate_coef cfg A v =1 poly_associate_coef A v.
Proof.
move=> hv; apply: bind_ext => // k a; rewrite /assert; case: ifP => // v0 _.
by rewrite last_fits.
Qed.

Lemma u_poly_trim_indexE (A : AbelianAlg E) r i : fits cfg i ->
  u_poly_trim_index cfg A r i =1 poly_trim_index A r i.
Proof.
move=> fi; apply: (while_ext (I := fits cfg)) => // [j fj|j k fj|j k k' t fj].
- by case: ltnP => // j0; rewrite usubE.
- by case: ltnP => // j0 _; rewrite usubE.
- case: ltnP => // j0 _; rewrite usubE // => -[<-]; apply: fits_le fj; lia.
Qed.

Lemma u_poly_quo_remE (A : FieldAlg E) v u : vec_len v -> vec_len u ->
  u_poly_quo_rem cfg A v u =1 poly_quo_rem A v u.
Proof.
move=> hv hu; rewrite /u_poly_quo_rem /poly_quo_rem.
apply: bind_ext => // k0 a; rewrite /assert; case: ifP => // u0 _ {k0 a}.
case: ltnP => // uv; have fv := len_fit hv; have fl := last_fits hu u0.
have f1 : fits cfg (size v - size u + 1) by apply: fits_le fv; lia.
rewrite usubE // bind_ret uaddE // !bind_ret uaddE // bind_ret.
apply: bind_ext2 => z; rewrite fl bind_ret; do 3 apply: bind_ext2 => ?.
have sq : size (vresize [::] (size v - size u + 1) z) = size v - size u + 1.
  by rewrite /vresize size_cat size_nseq /= subn0.
apply: bind_ext => [|k [q r] _].
  apply: for_rev_ext => i [q r]; rewrite sq => hi.
  rewrite uaddE ?bind_ret; last by apply: fits_le fv; lia.
  rewrite usubE ?bind_ret; [|lia|by apply: fits_le fv; lia].
  do 4 apply: bind_ext2 => ?; rewrite bind_ret; apply: bind_ext => //.
  apply: for_ext => j t hj; do 2 apply: bind_ext2 => ?.
  have fij : fits cfg (i + j) by apply: fits_le fv; lia.
  by rewrite uaddE.
rewrite bind_ret; apply: bind_ext => //; apply: u_poly_trim_indexE.
by apply: fits_le (len_fit hu); lia.
Qed.
End Poly.

Lemma poly_indices_ok cfg E : (2 <= ptr_bits cfg)%Z -> poly_indices cfg E.
Proof.
move=> ptr; split.
- exact: u_poly_degreeE.
- exact: u_poly_leading_coefE.
- exact: u_poly_containsE.
- exact: u_poly_addE.
- exact: u_poly_ztimesE.
- exact: u_poly_mulE.
- exact: u_poly_try_divE.
- exact: u_poly_associate_reprE.
- exact: u_poly_associate_coefE.
- exact: u_poly_quo_remE.
Qed.

(** ** Permutations *)
Section Perm.
Variables (cfg : Cfg) (n : nat).
Hypotheses (ptr : (32 <= ptr_bits cfg)%Z) (n32 : is_u32 n).
Implicit Types v u w : seq nat.

Lemma as_usizeE a : is_u32 a -> as_usize cfg a = a.
Proof.
rewrite /is_u32 /as_usize => h; rewrite Z.mod_small ?Nat2Z.id //; split; first by lia.
by apply: Z.lt_le_trans h _; apply: Z.pow_le_mono_r.
Qed.

Lemma as_u32E i : is_u32 i -> as_u32 i = i.
Proof. by move=> h; rewrite /as_u32 Z.mod_small ?Nat2Z.id //; split=> //; lia. Qed.

Lemma u32_cons a v : u32_vector (a :: v) -> is_u32 a /\ u32_vector v.
Proof.
by move=> h; split=> [|b bv]; apply: h; rewrite inE ?eqxx // bv orbT.
Qed.

Lemma c_debug_lenE v : c_debug_len cfg n v = debug_len cfg n v.
Proof. by rewrite /c_debug_len as_usizeE. Qed.

Lemma perm_casts_ok : perm_casts cfg n.
Proof.
split=> /=.
- move=> v hv; rewrite /c_perm_contains /perm_contains as_usizeE //; case: ifP => // _.
  elim: v (nseq n false) hv => [|a v IH] w //= /u32_cons [ha hv].
  rewrite as_usizeE //; apply: bind_ext2 => b; case: ifP => // _.
  by apply: bind_ext2 => w'; exact: IH.
- move=> v u hv; rewrite /c_perm_mul /perm_mul !c_debug_lenE as_usizeE //.
  do 2 apply: bind_ext2 => _; elim: v 0 (nseq n 0) hv => [|a v IH] i w //= /u32_cons [ha hv].
  by rewrite as_usizeE //; do 2 apply: bind_ext2 => ?; exact: IH.
- move=> v u hv; rewrite /c_perm_mul_assign /perm_mul_assign !c_debug_lenE.
  do 2 apply: bind_ext2 => _; elim: v hv => [|a v IH] //= /u32_cons [ha hv].
  rewrite as_usizeE //; apply: bind_ext2 => ?; apply: bind_ext => //; exact: IH.
- rewrite /c_perm_one as_usizeE //; apply: for_ext => i w hi k.
  by rewrite as_usizeE //; move: n32; rewrite /is_u32; lia.
- move=> v hv; rewrite /c_perm_is_one /perm_is_one c_debug_lenE; apply: bind_ext2 => _.
  elim: v 0 hv => [|a v IH] i //= /u32_cons [ha hv]; rewrite as_usizeE //.
  by case: ifP => // _; exact: IH.
- move=> v hv sv; rewrite /c_perm_try_inv /perm_try_inv c_debug_lenE as_usizeE //.
  apply: bind_ext2 => _; apply: bind_ext => //.
  have : (Z.of_nat (0 + size v) <= 2 ^ 32)%Z by [].
  elim: v 0 (nseq n 0) hv {sv} => [|a v IH] i w //= /u32_cons [ha hv] si.
  rewrite as_usizeE // as_u32E; last by rewrite /is_u32; lia.
  by apply: bind_ext2 => w'; apply: IH => //; lia.
Qed.
End Perm.

(** Targets of 16 bits. *)
Definition bits16 (checks : bool) : Cfg := mkCfg checks checks 16%Z.
