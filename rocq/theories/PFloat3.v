(** * PFloat3.v -- floats: finite results, and the methods that do not round correctly. *)

From Coq Require Import ZArith Reals Lra Lia SpecFloat.
From mathcomp Require Import all_ssreflect.
From Flocq Require Import Core BinarySingleNaN.
From Verif Require Import Rust Traits Wp MFloats FloatSpec PFloat ProfSpec Refuted.

Set Implicit Arguments.
Unset Strict Implicit.
Unset Printing Implicit Defensive.

Section Floats.
Variables (cfg : Cfg) (prec emax : Z).
Context (prec_gt_0 : Prec_gt_0 prec) (prec_lt_emax : Prec_lt_emax prec emax).
Local Notation F := (binary_float prec emax).
Local Notation A := (ApproxFloats cfg prec_gt_0 prec_lt_emax).
Local Notation fin := (@finite prec emax).
Local Notation fone := (@Bone prec emax prec_gt_0 prec_lt_emax).
Local Notation any := (fun _ => True).
Implicit Types (x y z v : F).

Lemma fin_result v : ensures True (finite_result v) fin.
Proof.
rewrite /finite_result; case e: (is_finite v); last exact: ensures_panic.
exact: ensures_ret.
Qed.
Lemma fin_add x y : ensures True (add A x y) fin. Proof. exact: fin_result. Qed.
Lemma fin_mul x y : ensures True (mul A x y) fin. Proof. exact: fin_result. Qed.
Lemma fin_one : ensures True (one A) fin.
Proof. by apply: ensures_ret; exact: is_finite_Bone. Qed.
Lemma fin_zero : ensures True (zero A) fin.
Proof. exact: ensures_ret. Qed.
Lemma fin_div x y : ensures True (fdiv A x y) fin.
Proof.
apply: ensures_bret; case: (Beqb _ _); first exact: ensures_panic.
exact: fin_result.
Qed.
Lemma fin_nonzero y : ensures True (assert_nonzero A y) any.
Proof. by rewrite /assert_nonzero /=; apply: ensures_bret; case: (Beqb _ _); [exact: ensures_panic|exact: ensures_ret]. Qed.
Lemma fin_is_zero x : ensures True (is_zero A x) any.
Proof. exact: ensures_ret. Qed.
Lemma fin_inv x : ensures True (finv A x) fin.
Proof. by apply: ensures_bret; exact: fin_div. Qed.
Lemma fin_try_inv x : ensures True (try_inv A x) (in_option fin).
Proof. by apply: ensures_bret; apply: ensures_ret; case: ifP. Qed.

Lemma fin_loop (op : F -> F -> M F) dbl n x r :
  (forall x y, ensures True (op x y) fin) -> (forall x, ensures True (dbl x) fin) ->
  fin x -> fin r -> ensures True (power_loop op dbl n x r) (fun s => fin s.2).
Proof.
move=> hop hdbl fx fr.
apply: (@ensures_while _ True _ _ (fun s => fin s.1.2 /\ fin s.2) _ (fun s => Z.to_nat s.1.1)).
  by [].
move=> [[m e] q] [/= fe fq]; apply: ensures_ret; case: Z.gtb_spec => hm //.
apply: (@ensures_bind _ _ _ _ _ fin).
  by case: ifP => _; [exact: ensures_ret|exact: hop].
move=> q' fq'; apply: ensures_bind (hdbl e) _ => e' fe'; apply: ensures_ret; split=> //=.
apply/ltP; have : Z.lt (Z.quot m 2) m by apply: Z.quot_lt; lia.
have : Z.le 0 (Z.quot m 2) by apply: Z.quot_pos; lia.
lia.
Qed.

Lemma fin_power n x : fin x -> ensures True (fpower A n x) fin.
Proof.
move=> fx; apply: ensures_bind (fin_is_zero x) _ => -[] _; first exact: fin_zero.
apply: (@ensures_bind _ _ _ _ _ (fun s => fin s.2)).
  case: ifP => _; last exact: ensures_ret.
  apply: (@ensures_bind _ _ _ _ _ any).
    rewrite /prim_i; case: ifP => _; first exact: ensures_ret.
    by case: ifP => _; [exact: ensures_panic|exact: ensures_ret].
  move=> m _; apply: (@ensures_bind _ _ _ _ _ fin).
    apply: ensures_bind (fin_try_inv x) _ => -[e /= fe|_]; first exact: ensures_ret.
    exact: ensures_panic.
  by move=> e fe; exact: ensures_ret.
move=> s fs; apply: ensures_bind fin_one _ => o fo.
apply: ensures_bind (fin_loop _ _ _ fs fo) _ => [y z|y|r fr]; [exact: fin_mul| |exact: ensures_ret].
exact: fin_mul.
Qed.

Lemma fin_ntimes n x : fin x -> ensures True (ntimes A n x) fin.
Proof.
move=> fx; apply: ensures_bind fin_zero _ => o fo.
apply: ensures_bind (fin_loop _ _ _ fx fo) _ => [y z|y|r fr]; [exact: fin_add| |exact: ensures_ret].
exact: fin_add.
Qed.

Lemma fin_quo_rem x y : ensures True (quo_rem A x y) (in_pair fin).
Proof.
apply: ensures_bind (fin_nonzero y) _ => _ _; apply: ensures_bind (fin_div x y) _ => q fq.
by apply: ensures_bind fin_zero _ => z fz; exact: ensures_ret.
Qed.

(** The recursion of extended_gcd stops after one step. *)
Lemma ensures_later T p (m m' : M T) Q k : (forall n, k <= n -> m n = m' n) ->
  ensures p m' Q -> ensures p m Q.
Proof.
move=> e [[v [[n hn] Qv]]|[hp [n hn]]]; [left; exists v; split=> //|right; split=> //];
  exists (maxn k n) => j; rewrite geq_max => /andP[kj nj]; rewrite e //; exact: hn.
Qed.
Lemma fin_extended_gcd x y : fin x -> fin y -> ensures True (extended_gcd A x y) (in_triple fin).
Proof.
move=> fx fy.
have f1 : fin fone by exact: is_finite_Bone.
pose m' : M (F * F * F) :=
  if Beqb y (B754_zero false) then ret (x, fone, B754_zero false)
  else let! qr := quo_rem A x y in
       let! vq := mul A (B754_zero false) qr.1 in
       let! z := sub A fone vq in
       ret (y, B754_zero false, z).
suff e n : 2 <= n -> extended_gcd A x y n = m' n; last first.
  case: n => [|[|n]] // _; rewrite /m' /=.
  rewrite /default_extended_gcd /= /floats_is_zero /floats_one /floats_zero.
  rewrite /floats_mul /floats_sub /bind /ret /=.
  case: (Beqb y _) => //=.
  rewrite /field_quo_rem /assert_nonzero /= /floats_div /floats_is_zero /finite_result /bind /ret /=.
  case: (Beqb y _) => //=; rewrite /assert; case: (is_finite _) => //=.
apply: (ensures_later e); rewrite /m'; case: ifP => _; first by apply: ensures_ret; do !split.
apply: ensures_bind (fin_quo_rem x y) _ => qr _; apply: ensures_bind (fin_mul _ _) _ => vq _.
apply: ensures_bind (fin_result _) _ => z fz; apply: ensures_ret; by do !split.
Qed.

Lemma floats_settle :
  [/\ domain_rel settles fin A A, semigroup_rel settles fin A A,
      monoid_rel settles fin A A, cmonoid_rel settles fin A A &
      [/\ rel1 settles fin (neg A) (neg A), rel1 settles fin (neg_assign A) (neg_assign A),
          rel2 settles fin (sub A) (sub A) & rel2 settles fin (sub_assign A) (sub_assign A)]] /\
  [/\ idom_rel settles fin A A, eucl_rel settles fin A A & field_rel settles (fun _ => True) fin A A].
Proof.
have hneg x : ensures True (neg A x) fin by exact: fin_result.
have hdiv x y : ensures True (divisible A x y) any.
  apply: ensures_bind (fin_is_zero y) _ => -[] _; first exact: fin_is_zero.
  apply: (@ensures_bind _ _ _ _ _ any); last by move=> r _; exact: ensures_ret.
  by apply: ensures_bind (fin_div x y) _ => z _; exact: ensures_ret.
have hgcd x y : ensures True (gcd A x y) fin.
  apply: (@ensures_bind _ _ _ _ _ any).
    apply: ensures_bind (fin_is_zero x) _ => -[] _; [exact: fin_is_zero|exact: ensures_ret].
  by move=> -[] _; [exact: fin_zero|exact: fin_one].
have hinv x : ensures True (invertible A x) any.
  by apply: ensures_bind (fin_try_inv x) _ => -[] *; exact: ensures_ret.
split; split.
- by split; repeat intro; exact: ensures_ret.
- by split; repeat intro; exact: fin_mul.
- split=> [|x fx|x fx|x fx]; [exact: fin_one| |exact: fin_try_inv|exact: hinv].
  by apply: ensures_bind fin_one _ => o _; exact: ensures_ret.
- split=> [|x fx|x y fx fy|x y fx fy|x fx|n x fx];
    [exact: fin_zero|exact: fin_is_zero|exact: fin_add|exact: fin_add|exact: fin_add|].
  exact: fin_ntimes.
- split=> [x _|x _|x y _ _|x y _ _]; [exact: hneg|exact: hneg|exact: fin_result|].
  by apply: ensures_bind (hneg y) _ => z _; exact: fin_add.
- split=> [x y _ _|x y _ _|x y _ _|x _|x _]; [|exact: hdiv| | |exact: fin_inv].
  + by apply: ensures_bind (fin_div x y) _ => z fz; exact: ensures_ret.
  + by apply: ensures_bind (hdiv x y) _ => -[] _; [exact: hdiv|exact: ensures_ret].
  + by apply: ensures_bind (fin_is_zero x) _ => -[] _; [exact: fin_zero|exact: fin_one].
- split=> [x y _ _|x y _ _|x y _ _|x y _ _|x y _ _|x y _ _|x y fx fy|x y _ _].
  + exact: fin_quo_rem.
  + by apply: ensures_bind (fin_nonzero y) _ => _ _; exact: fin_div.
  + by apply: ensures_bind (fin_nonzero y) _ => _ _; exact: fin_zero.
  + by apply: ensures_bind (fin_is_zero x) _ => -[] _; [exact: ensures_ret|exact: fin_is_zero].
  + exact: hgcd.
  + apply: (@ensures_bind _ _ _ _ _ any).
      apply: ensures_bind (fin_is_zero x) _ => -[] _; [exact: ensures_ret|exact: fin_is_zero].
    by move=> -[] _; [exact: fin_zero|exact: fin_one].
  + exact: fin_extended_gcd.
  + by apply: ensures_bind (hgcd x y) _ => g _; exact: hinv.
- by split=> [x _|x y _ _|n _ x fx]; [exact: fin_inv|exact: fin_div|exact: fin_power].
Qed.
End Floats.

(** ** Running the model *)
Lemma shows_run (n : nat) prec emax (m : M (binary_float prec emax)) s :
  (forall k, match m (n + k) with Done v => B2SF v = s | _ => False end) -> shows m s.
Proof.
move=> h; have := h 0; case e: (m (n + 0)) => [v| |] // hv; exists v => //; exists n => k /subnKC <-.
have := h (k - n); case: (m (n + (k - n))) => [u| |] // hu; congr Done.
by apply: B2SF_inj; rewrite hu hv.
Qed.
Ltac show n := apply: (shows_run (n := n)) => k; vm_compute; reflexivity.

(** The number [m * 2^e], rounded *)
Definition f64_num (m e : Z) : f64 := binary_normalize 53 1024 prec64 emax64 mode_NE m e false.
Definition f64_max : f64 := f64_num (2 ^ 53 - 1) 971.
Definition f64_tiny : f64 := f64_num 1 (-1074).
Definition f64_x : f64 := f64_num 6762440766893005 (-52).
Definition f64_y : f64 := f64_num 5556458751665950 (-52).

Lemma f64_times_infinite cfg : shows (ztimes (F64 cfg) 2 f64_max) (S754_infinity false).
Proof. show 0%N. Qed.
(** 3 * (2^53 + 1) is rounded twice: the result 3 * 2^53 is not the nearest number. *)
Lemma f64_times_twice cfg :
  shows (ztimes (F64 cfg) (2 ^ 53 + 1) (f64_num 3 0)) (S754_finite false (3 * 2 ^ 51) 2) /\
  B2SF (f64_num (3 * 2 ^ 53 + 4) 0) = S754_finite false (3 * 2 ^ 51 + 1) 2.
Proof. by split; [show 0%N|vm_compute]. Qed.
(** Seven times [f64_x] by repeated addition; the next smaller float is nearer. *)
Lemma f64_ntimes_far cfg :
  shows (ntimes (F64 cfg) 7 f64_x) (S754_finite false 5917135671031380 (-49)) /\
  (Z.abs (8 * 5917135671031379 - 7 * 6762440766893005) <
   Z.abs (8 * 5917135671031380 - 7 * 6762440766893005))%Z.
Proof. by split; first show 10%N. Qed.
(** The third power of [f64_y]; the next larger float is nearer. *)
Lemma f64_power_far cfg :
  shows (fpower (F64 cfg) 3 f64_y) (S754_finite false 8458137385004868 (-52)) /\
  (Z.abs (2 ^ 104 * 8458137385004869 - 5556458751665950 ^ 3) <
   Z.abs (2 ^ 104 * 8458137385004868 - 5556458751665950 ^ 3))%Z.
Proof. by split; first show 10%N. Qed.
(** The least positive float has no inverse. *)
Lemma f64_inv_tiny cfg : panics (finv (F64 cfg) f64_tiny) /\
  returns (try_inv (F64 cfg) f64_tiny) None.
Proof. by split; run 0%N. Qed.
