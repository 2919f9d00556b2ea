(** * RingTac.v -- [cring]: proves identities of commutative rings over mathcomp's
    [comRingType], by reflection into the standard library's ring normaliser. *)

From Coq Require Import ZArith Ring_theory Ring_polynom InitialRing BinList.
From mathcomp Require Import all_ssreflect all_algebra.

Set Implicit Arguments.
Unset Strict Implicit.
Unset Printing Implicit Defensive.

Import GRing.Theory.
Local Open Scope ring_scope.

Inductive rexp :=
| RX (n : positive) | RO | RI
| RAdd (a b : rexp) | RMul (a b : rexp) | ROpp (a : rexp)
| RPow (a : rexp) (n : nat) | RMuln (a : rexp) (n : nat).

Section Correct.
Variable R : comRingType.

Fixpoint reval (l : seq R) (e : rexp) : R :=
  match e with
  | RX n => BinList.nth 0 n l
  | RO => 0
  | RI => 1
  | RAdd a b => reval l a + reval l b
  | RMul a b => reval l a * reval l b
  | ROpp a => - reval l a
  | RPow a n => reval l a ^+ n
  | RMuln a n => reval l a *+ n
  end.

Fixpoint rconv (e : rexp) : PExpr Z :=
  match e with
  | RX n => PEX _ n
  | RO => PEO
  | RI => PEI
  | RAdd a b => PEadd (rconv a) (rconv b)
  | RMul a b => PEmul (rconv a) (rconv b)
  | ROpp a => PEopp (rconv a)
  | RPow a n => PEpow (rconv a) (N.of_nat n)
  | RMuln a n => PEmul (PEc (Z.of_nat n)) (rconv a)
  end.

Lemma comring_theory :
  @ring_theory R 0 1 +%R *%R (fun a b => a - b) -%R eq.
Proof.
split; [exact: add0r|exact: addrC|exact: addrA|exact: mul1r|exact: mulrC
       |exact: mulrA|exact: mulrDl|by []|exact: subrr].
Qed.

Let Rsth := Eqsth R.
Let Reqe := Eq_ext (@GRing.add R) (@GRing.mul R) (@GRing.opp R).
Let ARth := Rth_ARth Rsth Reqe comring_theory.
Let morph := gen_phiZ_morph Rsth Reqe comring_theory.
Let powth := pow_N_th (1 : R) *%R Rsth.
Let divth := triv_div_th Rsth Reqe ARth morph.
Let phi := gen_phiZ (0 : R) 1 +%R *%R -%R.

Lemma phi_nat n : phi (Z.of_nat n) = n%:R.
Proof.
elim: n => // n IH; rewrite Nat2Z.inj_succ -Z.add_1_l /phi (morph_add morph) -/phi IH.
by rewrite mulrS.
Qed.

Lemma rconv_ok l e :
  reval l e =
  PEeval 0 1 +%R *%R (fun a b => a - b) -%R phi id_phi_N (pow_N 1 *%R) l (rconv e).
Proof.
elim: e => //= [a -> b ->|a -> b ->|a ->|a -> n|a -> n] //.
  rewrite (rpow_pow_N powth) /id_phi_N; case: n => [|n] //=.
  set x := PEeval _ _ _ _ _ _ _ _ _ _ _.
  suff h k : pow_pos *%R x k = x ^+ Pos.to_nat k by rewrite h SuccNat2Pos.id_succ.
  elim/Pos.peano_ind: k => [|k IH]; first by rewrite expr1.
  rewrite (pow_pos_succ Rsth (Eq_ext *%R *%R -%R).(Rmul_ext) (@mulrA R)) IH.
  by rewrite Pos2Nat.inj_succ exprS.
by rewrite phi_nat mulr_natl.
Qed.

Definition rnorm (e : rexp) : Pol Z :=
  norm_subst Z0 (Zpos xH) Z.add Z.mul Z.sub Z.opp Zeq_bool (triv_div Z0 (Zpos xH) Zeq_bool)
    0 nil (rconv e).

Lemma rnorm_correct l e1 e2 :
  Peq Zeq_bool (rnorm e1) (rnorm e2) = true -> reval l e1 = reval l e2.
Proof.
move=> h; rewrite !rconv_ok.
exact: (ring_correct Rsth Reqe ARth morph powth divth 0 l nil _ _ I h).
Qed.
End Correct.

Ltac cr_mem x l :=
  match l with
  | nil => constr:(false)
  | x :: _ => constr:(true)
  | _ :: ?l' => cr_mem x l'
  end.
Ltac cr_add x l :=
  let b := cr_mem x l in
  match b with true => l | false => constr:(x :: l) end.
Ltac cr_atoms t l :=
  match t with
  | @GRing.add _ ?a ?b => let l := cr_atoms a l in cr_atoms b l
  | @GRing.mul _ ?a ?b => let l := cr_atoms a l in cr_atoms b l
  | @GRing.opp _ ?a => cr_atoms a l
  | @GRing.exp _ ?a _ => cr_atoms a l
  | @GRing.natmul _ ?a _ => cr_atoms a l
  | GRing.zero _ => l
  | GRing.one _ => l
  | _ => cr_add t l
  end.
Ltac cr_index x l n :=
  match l with
  | x :: _ => n
  | _ :: ?l' => let m := eval vm_compute in (Pos.succ n) in cr_index x l' m
  end.
Ltac cr_reify t l :=
  match t with
  | @GRing.add _ ?a ?b =>
      let a := cr_reify a l in let b := cr_reify b l in constr:(RAdd a b)
  | @GRing.mul _ ?a ?b =>
      let a := cr_reify a l in let b := cr_reify b l in constr:(RMul a b)
  | @GRing.opp _ ?a => let a := cr_reify a l in constr:(ROpp a)
  | @GRing.exp _ ?a ?n => let a := cr_reify a l in constr:(RPow a n)
  | @GRing.natmul _ ?a ?n => let a := cr_reify a l in constr:(RMuln a n)
  | GRing.zero _ => constr:(RO)
  | GRing.one _ => constr:(RI)
  | _ => let n := cr_index t l constr:(xH) in constr:(RX n)
  end.
Ltac cring_in R :=
  match goal with
  | |- @eq _ ?a ?b =>
      let l := cr_atoms a constr:(@nil (GRing.ComRing.sort R)) in
      let l := cr_atoms b l in
      let ra := cr_reify a l in
      let rb := cr_reify b l in
      exact (@rnorm_correct R l ra rb (erefl true))
  end.
Ltac cring :=
  match goal with
  | |- @eq ?T _ _ => let R := constr:([comRingType of T]) in cring_in R
  end.

Section Test.
Variable R : idomainType.
Lemma cring_test (a b c : R) : (a + b) ^+ 2 * c - 2%:R * (a * b) * c = b * c * b + c * a ^+ 2 + 0 * c.
Proof. cring. Qed.
End Test.
