(** * PExactRun.v -- the exact floats, with checks that compute. *)

From Coq Require Import ZArith Reals Lra Lia SpecFloat FunctionalExtensionality.
From mathcomp Require Import all_ssreflect.
From Flocq Require Import Core BinarySingleNaN.
From Verif Require Import Rust Traits MFloats FloatSpec ExactSpec.

Set Implicit Arguments.
Unset Strict Implicit.
Unset Printing Implicit Defensive.

(** Numbers [a * 2 ^ e] *)
Definition dval (a : Z * Z) : R := (IZR a.1 * bpow radix2 a.2)%R.
Definition deq (a b : Z * Z) : bool :=
  let e := Z.min a.2 b.2 in (a.1 * 2 ^ (a.2 - e) =? b.1 * 2 ^ (b.2 - e))%Z.
Definition dmul (a b : Z * Z) : Z * Z := (a.1 * b.1, a.2 + b.2)%Z.
Definition dadd (a b : Z * Z) : Z * Z :=
  let e := Z.min a.2 b.2 in (a.1 * 2 ^ (a.2 - e) + b.1 * 2 ^ (b.2 - e), e)%Z.
Definition dneg (a : Z * Z) : Z * Z := (- a.1, a.2)%Z.

Lemma dval_at a e : (e <= a.2)%Z -> dval a = (IZR (a.1 * 2 ^ (a.2 - e)) * bpow radix2 e)%R.
Proof.
move=> h; rewrite mult_IZR /dval Rmult_assoc; congr Rmult.
have <- : bpow radix2 (a.2 - e) = IZR (2 ^ (a.2 - e)) by rewrite -(IZR_Zpower radix2) //=; lia.
by rewrite -bpow_plus; congr bpow; lia.
Qed.
Lemma deqE a b : deq a b = Req_bool (dval a) (dval b).
Proof.
rewrite /deq; set e := Z.min _ _; have p := bpow_gt_0 radix2 e.
rewrite (@dval_at a e); last by rewrite /e; lia.
rewrite (@dval_at b e); last by rewrite /e; lia.
case: Req_bool_spec => h.
  apply/Z.eqb_eq; apply: eq_IZR; apply: Rmult_eq_reg_r h _; lra.
by apply/Z.eqb_neq => h'; apply: h; rewrite h'.
Qed.
Lemma dmulE a b : dval (dmul a b) = (dval a * dval b)%R.
Proof. by rewrite /dval /= mult_IZR bpow_plus; ring. Qed.
Lemma daddE a b : dval (dadd a b) = (dval a + dval b)%R.
Proof.
rewrite /dadd; set e := Z.min _ _.
rewrite (@dval_at a e); last by rewrite /e; lia.
rewrite (@dval_at b e); last by rewrite /e; lia.
by rewrite /dval /= plus_IZR; ring.
Qed.
Lemma dnegE a : dval (dneg a) = (- dval a)%R.
Proof. by rewrite /dval /= opp_IZR; ring. Qed.
Lemma deq0 a : (a.1 =? 0)%Z = Req_bool (dval a) 0.
Proof.
have p := bpow_gt_0 radix2 a.2; case: Req_bool_spec => h; last first.
  by apply/Z.eqb_neq => h'; apply: h; rewrite /dval h' Rmult_0_l.
apply/Z.eqb_eq; apply: eq_IZR; apply: (Rmult_eq_reg_r (bpow radix2 a.2)); last lra.
by rewrite Rmult_0_l.
Qed.

Section RunFloats.
Variables (cfg : Cfg) (prec emax : Z).
Context (prec_gt_0 : Prec_gt_0 prec) (prec_lt_emax : Prec_lt_emax prec emax).
Local Notation F := (binary_float prec emax).
Local Notation A := (ApproxFloats cfg prec_gt_0 prec_lt_emax).

Definition dy (x : F) : Z * Z :=
  match x with B754_finite s m e _ => (cond_Zopp s (Zpos m), e) | _ => (0, 0)%Z end.
Lemma dyE (x : F) : B2R x = dval (dy x).
Proof. by case: x => [s|s||s m e h] //=; rewrite /dval /= Rmult_0_l. Qed.

Definition checked (b : F -> bool) (m : M F) : M F :=
  let! z := m in
  do! assert (is_finite z && b z) in
  ret z.
Definition run_mul (x y : F) : M F := checked (fun z => deq (dy z) (dmul (dy x) (dy y))) (mul A x y).
Definition run_add (x y : F) : M F := checked (fun z => deq (dy z) (dadd (dy x) (dy y))) (add A x y).
Definition run_neg (x : F) : M F := checked (fun z => deq (dy z) (dneg (dy x))) (neg A x).
Definition run_sub (x y : F) : M F :=
  checked (fun z => deq (dy z) (dadd (dy x) (dneg (dy y)))) (sub A x y).
Definition run_times (n : Z) (x : F) : M F :=
  checked (fun z => deq (dy z) (dmul (n, 0%Z) (dy x))) (ztimes A n x).
Definition dinv (z y : F) : bool :=
  if ((dy y).1 =? 0)%Z then ((dy z).1 =? 0)%Z else deq (dmul (dy z) (dy y)) (1, 0)%Z.
Definition ddiv (z x y : F) : bool :=
  if ((dy y).1 =? 0)%Z then ((dy z).1 =? 0)%Z else deq (dmul (dy z) (dy y)) (dy x).
Definition run_div (x y : F) : M F := checked (fun z => ddiv z x y) (fdiv A x y).
Definition run_inv (x : F) : M F := checked (fun z => dinv z x) (finv A x).
Definition run_try_inv (x : F) : M (option F) :=
  let! o := try_inv A x in
  match o with
  | Some z => let! z := checked (fun z => dinv z x) (ret z) in ret (Some z)
  | None => do! assert ((dy x).1 =? 0)%Z in ret None
  end.
Definition run_ring : RingAlg F :=
  let add_assign := default_add_assign run_add in
  let double := default_double run_add in
  mkRingAlg
    (mkMonoidAlg A
      (mkSemigroup run_mul (default_mul_assign run_mul) (default_square run_mul))
      (mkMonoid (one A) (is_one A) run_try_inv (default_invertible run_try_inv)))
    (mkCommMonoid (zero A) (is_zero A) run_add add_assign double
      (default_ntimes (zero A) add_assign double))
    (mkAbelianGroup run_neg (default_neg_assign run_neg) run_sub
      (default_sub_assign run_neg add_assign) run_times)
    (mkUnitaryRing (default_int run_times (one A))).
Definition RunFloats : FieldAlg F :=
  field_alg run_ring
    (mkField run_inv run_div (default_fpower cfg run_ring (is_zero A) (zero A))).

Lemma checkedE b v m : (forall z, b z = Req_bool (B2R z) v) -> checked b m = exactly v m.
Proof.
move=> h; rewrite /checked /exactly; congr bind.
by apply: functional_extensionality => z; rewrite h.
Qed.
Lemma dinvE z y : dinv z y = Req_bool (B2R z) (/ B2R y).
Proof.
rewrite /dinv !dyE !deq0 deqE dmulE; case: (Req_bool_spec (dval (dy y))) => [->|h].
  by rewrite Rinv_0.
rewrite (_ : dval (1, 0)%Z = 1%R); last by rewrite /dval /= Rmult_1_l.
case: (Req_bool_spec (dval (dy z)) _) => e.
  by rewrite e Rinv_l //; apply: Req_bool_true.
by apply: Req_bool_false => e'; apply: e; apply: (Rmult_eq_reg_r (dval (dy y))); rewrite ?Rinv_l.
Qed.
Lemma ddivE z x y : ddiv z x y = Req_bool (B2R z) (B2R x / B2R y).
Proof.
rewrite /ddiv !dyE !deq0 deqE dmulE; case: (Req_bool_spec (dval (dy y))) => [->|h].
  by rewrite /Rdiv Rinv_0 Rmult_0_r.
case: (Req_bool_spec (dval (dy z)) _) => e.
  by rewrite e /Rdiv Rmult_assoc Rinv_l // Rmult_1_r; apply: Req_bool_true.
apply: Req_bool_false => e'; apply: e; apply: (Rmult_eq_reg_r (dval (dy y))) => //.
by rewrite e' /Rdiv Rmult_assoc Rinv_l // Rmult_1_r.
Qed.

Lemma RunFloatsE : ExactFloats cfg prec_gt_0 prec_lt_emax = RunFloats.
Proof.
have em : exact_mul cfg prec_gt_0 prec_lt_emax = run_mul.
  apply: functional_extensionality => x; apply: functional_extensionality => y; apply/esym/checkedE => z.
  by rewrite !dyE deqE dmulE.
have ea : exact_add cfg prec_gt_0 prec_lt_emax = run_add.
  apply: functional_extensionality => x; apply: functional_extensionality => y; apply/esym/checkedE => z.
  by rewrite !dyE deqE daddE.
have en : exact_neg cfg prec_gt_0 prec_lt_emax = run_neg.
  apply: functional_extensionality => x; apply/esym/checkedE => z.
  by rewrite !dyE deqE dnegE.
have es : exact_sub cfg prec_gt_0 prec_lt_emax = run_sub.
  apply: functional_extensionality => x; apply: functional_extensionality => y; apply/esym/checkedE => z.
  by rewrite !dyE deqE daddE dnegE.
have et : exact_times cfg prec_gt_0 prec_lt_emax = run_times.
  apply: functional_extensionality => n; apply: functional_extensionality => x; apply/esym/checkedE => z.
  by rewrite !dyE deqE dmulE {2}/dval /= Rmult_1_r.
have ed : exact_div cfg prec_gt_0 prec_lt_emax = run_div.
  apply: functional_extensionality => x; apply: functional_extensionality => y; apply/esym/checkedE => z.
  exact: ddivE.
have ei : exact_inv cfg prec_gt_0 prec_lt_emax = run_inv.
  by apply: functional_extensionality => x; apply/esym/checkedE => z; exact: dinvE.
have eu : exact_try_inv cfg prec_gt_0 prec_lt_emax = run_try_inv.
  apply: functional_extensionality => x; rewrite /exact_try_inv /run_try_inv; congr bind.
  apply: functional_extensionality => -[z|]; last by rewrite dyE -deq0.
  by rewrite (checkedE (v := / B2R x)) // => w; exact: dinvE.
by rewrite /ExactFloats /RunFloats /exact_ring /run_ring em ea en es et ed ei eu.
Qed.
End RunFloats.
