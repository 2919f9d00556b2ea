(** * PPlace2.v -- matrices stay matrices in panicking in-place methods. *)

From Coq Require Import ZArith Lia List.
From mathcomp Require Import all_ssreflect all_algebra zify.
From Verif Require Import Rust Traits MInts MConstr MPlace MemberSpec ParSpec PlaceSpec Wp.
From Verif Require Import Spec RingSpec PMat PMember PPar3 PPar4 PPlace.

Set Implicit Arguments.
Unset Strict Implicit.
Unset Printing Implicit Defensive.

Lemma vec_par_eq E (v w : seq E) : vec_par eq v w <-> v = w.
Proof.
split=> [|<-]; last by elim: v => [|x v IH].
by elim: v w => [|x v IH] [|y w] //= [-> /IH ->].
Qed.
Lemma alike_vec_eq E (m : M (seq E)) : alike (vec_par eq) m m -> alike eq m m.
Proof.
by move=> [h1 h2]; split=> k; [have := h1 k|have := h2 k]; case: (m k) => // v [w rw /vec_par_eq e];
  exists w.
Qed.

Lemma Forall2_size A B (R : A -> B -> Prop) v w : Forall2 R v w -> size v = size w.
Proof. by elim=> // a b v' w' _ _ /= ->. Qed.

Section Matrix.
Variables (cfg : Cfg) (p : Prop) (E : Type) (F : fieldType) (rep : E -> F -> Prop).
Variable A : FieldAlg E.
Variable n : nat.
Local Notation mem := (fun x => exists u, rep x u).

Lemma matrix_member_iff v :
  (exists N : 'M[F]_n, matrix_of rep v N) <-> vector_member (n * n) mem v.
Proof.
split=> [[N [r [vr sr _]]]|[sv ev]].
  split; first by rewrite -sr (Forall2_size vr).
  move=> i x iv; elim: vr i iv => [|a b v' r' ab _ IH] [|i] //= iv; first by exists b.
  exact: IH.
have [r vr] : exists r, Forall2 rep v r.
  elim: v {sv} ev => [|a v IH] ev; first by exists [::].
  have [b ab] := ev 0%nat a isT; have [|r vr] := IH; first by move=> i x iv; exact: (ev i.+1 x iv).
  by exists (b :: r); constructor.
exists (\matrix_(i, j) r`_(i * n + j))%R; exists r; split=> //.
  by rewrite -sv (Forall2_size vr).
by move=> i j; rewrite mxE.
Qed.

Hypothesis hF : field_alg_spec cfg p rep A.
Hypothesis hc : Z.le 2 (ptr_bits cfg).

Lemma matrix_keeps (ok : Z -> Prop) P : ok (Zpos xH) -> field_alg_par ok eq A A ->
  tracks A P -> keeps mem P -> keeps (vector_member (n * n) mem) (matrix_places A n P).
Proof.
move=> ok1 par tp kp; have [_ _ h] := vector_ok (n * n) cfg tp.
have [_ ka kn] := h mem kp; have [[[m1 m2] _ _] [u1 u2] _ _] := matrix_places_ok cfg n tp.
have pr := par_matrix_ring cfg n par ok1.
split=> //.
have [cm _ _ _] := closed_ring_alg_ok (MatrixRing_ok hF n hc).
split.
  move=> x y mx my; apply: (holds_ok (m1 x y)) (mx).
  - by apply: alike_vec_eq; apply: (mul_assign_par pr); apply/vec_par_eq.
  - by move=> k z; exact: u1.
  move=> z h1; apply/matrix_member_iff.
  by have [] := cl_mul_assign cm (proj2 (matrix_member_iff x) mx) (proj2 (matrix_member_iff y) my) h1.
move=> x mx; apply: (holds_ok (m2 x)) (mx).
- by apply: alike_vec_eq; apply: (square_par pr); apply/vec_par_eq.
- by move=> k z; exact: u2.
move=> z h1; apply/matrix_member_iff.
by have [] := cl_square cm (proj2 (matrix_member_iff x) mx) h1.
Qed.
Lemma matrix_keeps_of (ok : Z -> Prop) P : ok (Zpos xH) -> field_alg_par ok eq A A ->
  tracks A P -> keeps mem P ->
  keeps (fun v => exists N : 'M[F]_n, matrix_of rep v N) (matrix_places A n P).
Proof.
move=> ok1 par tp kp; apply: keeps_iff (matrix_keeps ok1 par tp kp) => v.
by split=> /matrix_member_iff.
Qed.
End Matrix.
