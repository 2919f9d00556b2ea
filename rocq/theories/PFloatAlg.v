(** * PFloatAlg.v -- vectors, polynomials and matrices over floats. *)

From Coq Require Import ZArith Reals Lra Lia SpecFloat.
From mathcomp Require Import all_ssreflect.
From Flocq Require Import Core BinarySingleNaN.
From Verif Require Import Rust Traits MInts MConstr MFloats Wp PSim ProfSpec HaltSpec PHSim PHalt
  PHalt2 PHalt3 PHaltF FloatSpec FloatAlgSpec PFloat PFloat3 PFloat4 Refuted.

Set Implicit Arguments.
Unset Strict Implicit.
Unset Printing Implicit Defensive.

Local Notation T := (fun _ => True).

Section Floats.
Variables (cfg : Cfg) (prec emax : Z).
Context (hp : Prec_gt_0 prec) (he : Prec_lt_emax prec emax).
Local Notation F := (binary_float prec emax).
Local Notation A := (ApproxFloats cfg hp he).
Local Notation Q := (@finite prec emax).

Lemma finite_result_ends (x : F) : halts Q (finite_result x) (finite_result x).
Proof. by apply: hsim_bind (hsim_assert _) _ => _ h; exact: hsim_ret. Qed.
Lemma finite_Bone : Q (Bone (prec := prec)).
Proof. exact: is_finite_Bone. Qed.
Lemma finite_small n x : small_num n -> Q x -> halts Q (floats_times hp he n x) (floats_times hp he n x).
Proof.
rewrite /small_num => hn Qx; have pg : Z.lt 0 prec by []. have pe : Z.lt prec emax by [].
pose c2 := mkCfg true true 2.
have w0 : Z.lt 0 (ptr_bits c2) by []. have wm : Z.le (ptr_bits c2) emax by rewrite /c2 /=; lia.
have hi : is_isize c2 n by apply/andP; split; apply/Z.leb_le; rewrite /= /imin /imax /=; lia.
have hx : float_is x (B2R x) by [].
have hn2 : Z.le (Z.abs n) (2 ^ prec) by have := Z.pow_pos_nonneg 2 prec; lia.
have [v hv [h _]] := times_rounds hp he w0 wm hi hn2 hx.
left; exists v; split; first exact: hv.
have e : (Rabs (rounded prec emax (IZR n * B2R x)) <= Rabs (B2R x))%R.
  have [->|[->|->]] : n = 0%Z \/ n = 1%Z \/ n = (-1)%Z by lia.
  - rewrite Rmult_0_l /rounded round_0 Rabs_R0; exact: Rabs_pos.
  - rewrite Rmult_1_l (rnd_gf (gf hx)); exact: Rle_refl.
  - rewrite (_ : (-1 * B2R x)%R = (- B2R x)%R); last by lra.
    by rewrite (rnd_opp prec emax) Rabs_Ropp (rnd_gf (gf hx)); exact: Rle_refl.
have no : ~ overflows prec emax (IZR n * B2R x).
  by rewrite /overflows; have := bounded hx; lra.
by have [] := h no.
Qed.
Lemma finite_floats_ring : ring_alg_rel halts small_num Q (floats_ring hp he) (floats_ring hp he).
Proof.
have ha : rel2 halts Q (floats_add hp he) (floats_add hp he).
  by move=> x y _ _; exact: finite_result_ends.
have hn : rel1 halts Q (@floats_neg prec emax) (@floats_neg prec emax).
  by move=> x _; exact: finite_result_ends.
have hz : halts Q (@floats_zero prec emax) (@floats_zero prec emax).
  by apply: hsim_ret; rewrite /finite.
have ho : halts Q (floats_one hp he) (floats_one hp he) by apply: hsim_ret; exact: finite_Bone.
have hd : rel1 halts Q (default_double (floats_add hp he)) (default_double (floats_add hp he)).
  by move=> x Qx; exact: ha.
have ht : rel1o halts Q (floats_try_inv hp he) (floats_try_inv hp he).
  move=> x _; apply: hsim_bind ho _ => o _; apply: hsim_ret.
  by case: ifP.
split; [split| | |]; split;
  try by [repeat intro; exact: finite_result_ends|repeat intro; exact: hsim_ret|exact: ho].
- exact: ht.
- by move=> n _ x Qx; exact: (hsim_ntimes _ hz ha hd Qx).
- exact: (hsim_sub_assign hn ha).
- by move=> n okn x Qx; exact: finite_small.
- by move=> n okn; apply: halt_int ho => x Qx; exact: finite_small.
Qed.
Lemma finite_floats : field_alg_rel halts small_num Q A A.
Proof.
apply: halt_field_alg; first exact: finite_floats_ring; last by case: (sane_floats cfg hp he).
have hR := finite_floats_ring.
have hv : rel2 halts Q (floats_div hp he) (floats_div hp he).
  move=> x y _ Qy; apply: hsim_bind (is_zero_rel hR Qy) _ => b _.
  by apply: hsim_bind (hsim_assert _) _ => _ _; exact: finite_result_ends.
split; [|exact: hv|].
  by move=> x Qx; apply: hsim_bind (one_rel (ri_monoid_alg_rel hR)) _ => o Qo; exact: hv.
move=> n okn; apply: halt_fpower okn; first exact: hR.
  exact: is_zero_rel hR.
exact: zero_rel hR.
Qed.
End Floats.

Section Towers.
Variables (cfg : Cfg) (prec emax : Z).
Context (hp : Prec_gt_0 prec) (he : Prec_lt_emax prec emax).
Local Notation F := (binary_float prec emax).
Local Notation A := (ApproxFloats cfg hp he).
Local Notation Q := (@finite prec emax).
Local Notation V := (in_vec Q).
Local Notation r := halts.
Local Notation ok := small_num.

Lemma finite_towers n :
  [/\ ring_alg_rel r ok V (VectorRing cfg n A) (VectorRing cfg n A),
      eucl_alg_rel r ok V (PolyEucl A) (PolyEucl A),
      ring_alg_rel r ok V (MatrixRing cfg A n) (MatrixRing cfg A n) &
      forall v, V v -> r Q (determinant A n v) (determinant A n v)].
Proof.
have h := finite_floats cfg hp he; have hR := finite_floats_ring hp he.
have o1 : ok 1%Z by rewrite /small_num; lia.
split; [exact: halt_vector_ring hR|exact: halt_poly_eucl h| |].
  apply: (halt_matrix_ring (n := n) h) => // v Qv.
  by apply: halt_debug; exact: (halt_matrix_is_one n h o1 Qv).
by move=> v Qv; exact: (halt_determinant n h).
Qed.
(** Any multiplicity and exponent *)
Lemma finite_groups E (P : E -> Prop) (B : RingAlg E) : ring_alg_rel r ok P B B ->
  group_alg_rel r every_num P (AdditiveGroup cfg B) (AdditiveGroup cfg B) /\
  group_alg_rel r every_num P (MultiplicativeGroup cfg B) (MultiplicativeGroup cfg B).
Proof.
move=> h; split; last exact: halt_multiplicative (ri_monoid_alg_rel h).
by have [[hD _ _] hC hG _] := h; exact: halt_additive hD hC (neg_rel hG).
Qed.
Lemma finite_powers n :
  [/\ forall k, rel1 r Q (fpower A k) (fpower A k),
      group_alg_rel r every_num V (MultiplicativeGroup cfg (VectorRing cfg n A))
        (MultiplicativeGroup cfg (VectorRing cfg n A)) /\
      group_alg_rel r every_num V (AdditiveGroup cfg (VectorRing cfg n A))
        (AdditiveGroup cfg (VectorRing cfg n A)),
      group_alg_rel r every_num V (MultiplicativeGroup cfg (PolyEucl A))
        (MultiplicativeGroup cfg (PolyEucl A)) /\
      group_alg_rel r every_num V (AdditiveGroup cfg (PolyEucl A))
        (AdditiveGroup cfg (PolyEucl A)) &
      group_alg_rel r every_num V (MultiplicativeGroup cfg (MatrixRing cfg A n))
        (MultiplicativeGroup cfg (MatrixRing cfg A n)) /\
      group_alg_rel r every_num V (AdditiveGroup cfg (MatrixRing cfg A n))
        (AdditiveGroup cfg (MatrixRing cfg A n))].
Proof.
have [h1 h2 h3 _] := finite_towers n; have hR := finite_floats_ring hp he.
split.
- move=> k; have ek : every_num k by [].
  apply: halt_fpower ek; first exact: hR.
    exact: is_zero_rel hR.
  exact: zero_rel hR.
- by have [] := finite_groups h1.
- by have [] := finite_groups (halt_poly_ring hR).
- by have [] := finite_groups h3.
Qed.
Lemma finite_times n k :
  rel1 r V (ztimes (VectorRing cfg n A) k) (ztimes (VectorRing cfg n A) k) /\
  rel1 r V (ztimes (MatrixRing cfg A n) k) (ztimes (MatrixRing cfg A n) k).
Proof.
have ek : every_num k by [].
have [[[h1 _ _] h2 h3 _] _ [[h4 _ _] h5 h6 _] _] := finite_towers n.
by split; [apply: halt_ztimes h1 h2 _ ek|apply: halt_ztimes h4 h5 _ ek];
  [exact: neg_rel h3|exact: neg_rel h6].
Qed.

Variable tie : F -> F -> bool.
Lemma finite_lattice : lattice_alg_rel r Q (ApproxFloats_lattice tie) (ApproxFloats_lattice tie).
Proof.
have hl : rel2b r Q (@floats_leq prec emax) (@floats_leq prec emax).
  by move=> x y _ _; exact: hsim_ret.
have hq : rel2b r Q (fun x y => ret (Beqb x y)) (fun x y => ret (Beqb x y)).
  by move=> x y _ _; exact: hsim_ret.
split; [split; split|split] => //.
- by move=> x _; exact: hsim_ret.
- exact: halt_less_than hq hl.
- exact: halt_comparable hl.
- by move=> x y Qx Qy; apply: hsim_ret; rewrite /float_min; do !case: ifP => // _.
- by move=> x y Qx Qy; apply: hsim_ret; rewrite /float_max; do !case: ifP => // _.
Qed.
Lemma finite_vector_lattice n :
  lattice_alg_rel r V (VectorLattice n (ApproxFloats_lattice tie))
    (VectorLattice n (ApproxFloats_lattice tie)).
Proof. exact: halt_vector_lattice finite_lattice. Qed.
End Towers.

(** ** What goes wrong *)
Lemma map_B2SF (u v : seq f64) :
  map (fun x : f64 => B2SF x) u = map (fun x : f64 => B2SF x) v -> u = v.
Proof. by elim: u v => [|x u IH] [|y v] //= [/B2SF_inj-> /IH->]. Qed.
Lemma shows_all_run (n : nat) m s :
  (forall k, match m (n + k) with Done v => map (fun x : f64 => B2SF x) v = s | _ => False end) ->
  shows_all m s.
Proof.
move=> h; have := h 0; case e: (m (n + 0)) => [v| |] // hv; exists v => //; exists n => k /subnKC <-.
have := h (k - n); case: (m (n + (k - n))) => [u| |] // hu; congr Done.
by apply: map_B2SF; rewrite hu hv.
Qed.
Lemma shows_some_run (n : nat) m s :
  (forall k, match m (n + k) with
             | Done (Some v) => map (fun x : f64 => B2SF x) v = s | _ => False end) ->
  shows_some m s.
Proof.
move=> h; have := h 0; case e: (m (n + 0)) => [[v|]| |] // hv; exists v => //; exists n => k /subnKC <-.
have := h (k - n); case: (m (n + (k - n))) => [[u|]| |] // hu; congr (Done (Some _)).
by apply: map_B2SF; rewrite hu hv.
Qed.
Ltac show_all n := apply: (shows_all_run (n := n)) => k; vm_compute; reflexivity.
Ltac show_some n := apply: (shows_some_run (n := n)) => k; vm_compute; reflexivity.

Local Notation fl n := (f64_num n 0).
Local Notation Poly := (PolyEucl (F64 debug64)).

(** Two equal rows: the determinant is not zero, the matrix is invertible, and the release
    build returns an inverse of it, the debug build panics. *)
Lemma float_singular :
  let m := [:: fl 49; fl 1; fl 49; fl 1] in
  [/\ shows (determinant (F64 debug64) 2 m) (S754_finite false 6896136929411072 (-100)),
      returns (invertible (MatrixRing debug64 (F64 debug64) 2) m) true,
      shows_some (try_inv (MatrixRing release64 (F64 release64) 2) m)
        [:: S754_finite false 5882252574524729 (-5); S754_finite true 5882252574524729 (-5);
            S754_finite true 9007199254740991 0; S754_finite false 4503599627370496 1] &
      panics (try_inv (MatrixRing debug64 (F64 debug64) 2) m)].
Proof. by split; [show 10%N|run 10%N|show_some 10%N|run 10%N]. Qed.
(** The matrix (49) is inverted by the release build, the debug build panics. *)
Lemma float_inverse :
  [/\ returns (invertible (MatrixRing debug64 (F64 debug64) 1) [:: fl 49]) true,
      shows_some (try_inv (MatrixRing release64 (F64 release64) 1) [:: fl 49])
        [:: S754_finite false 5882252574524729 (-58)] &
      panics (try_inv (MatrixRing debug64 (F64 debug64) 1) [:: fl 49])].
Proof. by split; [run 10%N|show_some 10%N|run 10%N]. Qed.
(** A product of members is no member, multiplication does not commute, and x + 1 and
    49 x + 49 are relative primes. *)
Lemma float_polynomials :
  [/\ let p := [:: f64_num 1 (-1000)] in
      [/\ returns (contains Poly p) true, shows_all (mul Poly p p) [:: S754_zero false] &
          returns (let! q := mul Poly p p in contains Poly q) false],
      let p := [:: fl 1; fl 1; fl 1] in let q := [:: fl 1; f64_num 1 (-53); f64_num 1 (-53)] in
      returns (let! s := mul Poly p q in let! t := mul Poly q p in equals Poly s t) false,
      shows_all (rem Poly [:: fl 1; fl 1] [:: fl 49; fl 49]) [:: S754_finite false (2 ^ 52) (-105)] &
      returns (relative_primes Poly [:: fl 1; fl 1] [:: fl 49; fl 49]) true].
Proof.
by cbv zeta; split; [split; [run 10%N|show_all 10%N|run 10%N]|run 10%N|show_all 10%N|run 10%N].
Qed.
