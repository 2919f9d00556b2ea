(** * PCount2.v -- how many values [contains] accepts. *)

From Coq Require Import ZArith Znumtheory Lia List FinFun.
From mathcomp Require Import all_ssreflect all_fingroup all_algebra ssrZ zify.
From Verif Require Import Rust Traits MInts MConstr Wp Spec PropSpec RingSpec ModSpec NumSpec.
From Verif Require Import TowerSpec MemberSpec CountSpec.
From Verif Require Import PIntsZ PInts ZFacts PModProps PMember PPerm POrdProps PCount.

Set Implicit Arguments.
Unset Strict Implicit.
Unset Printing Implicit Defensive.

(** ** Lists without repetitions *)
Lemma NoDup_cat (A : Type) (s t : list A) :
  NoDup s -> NoDup t -> (forall x, In x s -> In x t -> False) -> NoDup (s ++ t).
Proof.
move=> ns nt h; elim: s ns h => //= x s IH /NoDup_cons_iff[nx ns] h.
constructor; last by apply: IH => // y ys; apply: h; right.
by move/in_app_iff => [//|xt]; apply: (h x) => //; left.
Qed.

Lemma NoDup_flat_map (A B : Type) (f : A -> list B) (s : list A) :
  NoDup s -> (forall x, NoDup (f x)) ->
  (forall x y z, In z (f x) -> In z (f y) -> x = y) -> NoDup (flat_map f s).
Proof.
move=> nd nf dis; elim: s nd => [|x s IH] nd /=; first by constructor.
have [h _] := NoDup_cons_iff x s; have [nx ns] := h nd.
apply: NoDup_cat; [exact: nf|exact: IH|].
move=> z zx /in_flat_map[y [ys zy]]; apply: nx.
by rewrite (dis x y z zx zy).
Qed.

Lemma length_flat_map_const (A B : Type) (f : A -> list B) (s : list A) k :
  (forall x, length (f x) = k) -> length (flat_map f s) = (length s * k)%nat.
Proof. by move=> h; elim: s => //= x s IH; rewrite app_length h IH. Qed.

Fixpoint all_vectors (E : Type) (s : list E) (n : nat) : list (list E) :=
  if n is n'.+1 then flat_map (fun x => map (cons x) (all_vectors s n')) s else [:: [::]].

Lemma all_vectors_in E (s : list E) n v :
  In v (all_vectors s n) <-> size v = n /\ forall x, In x v -> In x s.
Proof.
elim: n v => [|n IH] v /=.
  split=> [[<-|//]|[/size0nil -> _]]; [by split|by left].
rewrite in_flat_map; split=> [[x [xs /in_map_iff[w [<- /IH[sw hw]]]]]|].
  by split=> [|y /= [<-|/hw]] //=; rewrite sw.
case: v => [|x v] [] //= [sv] h; exists x; split; first by apply: h; left.
by apply/in_map_iff; exists v; split=> //; apply/IH; split=> // y yv; apply: h; right.
Qed.

Lemma all_vectors_nodup E (s : list E) n : NoDup s -> NoDup (all_vectors s n).
Proof.
move=> ns; elim: n => [|n IH] /=; first by constructor; [case|constructor].
apply: NoDup_flat_map => //.
- by move=> x; apply: FinFun.Injective_map_NoDup => // v w [].
- by move=> x y z /in_map_iff[v [<- _]] /in_map_iff[w [[-> _] _]].
Qed.

Lemma all_vectors_size E (s : list E) n : length (all_vectors s n) = (length s ^ n)%nat.
Proof.
elim: n => [|n IH] //=; rewrite (@length_flat_map_const _ _ _ _ (length s ^ n)) ?expnS //.
by move=> x; rewrite map_length.
Qed.

Section Vectors.
Variables (E : Type) (mem : E -> Prop) (k : nat).
Hypothesis hk : has_members mem k.

Lemma vectors_count n :
  has_members (fun v => size v = n /\ forall x, In x v -> mem x) (k ^ n)%nat.
Proof.
have [s [ns <- hs]] := hk; exists (all_vectors s n); split.
- exact: all_vectors_nodup.
- exact: all_vectors_size.
move=> v; rewrite all_vectors_in; split=> -[-> h]; split=> // x /h; by rewrite hs.
Qed.
End Vectors.

Lemma members_app (E : Type) (P Q : E -> Prop) k l : (forall x, P x -> Q x -> False) ->
  has_members P k -> has_members Q l -> has_members (fun x => P x \/ Q x) (k + l)%nat.
Proof.
move=> dis [s [ns <- hs]] [t [nt <- ht]]; exists (s ++ t); split.
- by apply: NoDup_cat => // x /hs px /ht; exact: dis.
- exact: app_length.
- by move=> x; rewrite in_app_iff hs ht.
Qed.

Lemma members_map (E T : Type) (f : E -> T) (P : E -> Prop) (Q : T -> Prop) k :
  (forall x y, f x = f y -> x = y) -> (forall y, Q y <-> exists2 x, f x = y & P x) ->
  has_members P k -> has_members Q k.
Proof.
move=> inj h [s [ns <- hs]]; exists (map f s); split.
- exact: FinFun.Injective_map_NoDup.
- exact: map_length.
- move=> y; rewrite in_map_iff h; split=> [[x [<- /hs]]|[x <- /hs]]; by exists x.
Qed.

Lemma members_prod (E T : Type) (P : E -> Prop) (Q : T -> Prop) k l :
  has_members P k -> has_members Q l -> has_members (fun x => P x.1 /\ Q x.2) (k * l)%nat.
Proof.
move=> [s [ns <- hs]] [t [nt <- ht]].
exists (flat_map (fun x => map (pair x) t) s); split.
- apply: NoDup_flat_map => //.
  + by move=> x; apply: FinFun.Injective_map_NoDup => // v w [].
  + by move=> x y z /in_map_iff[v [<- _]] /in_map_iff[w [[-> _] _]].
- by rewrite (@length_flat_map_const _ _ _ _ (length t)) // => x; rewrite map_length.
- move=> [x y]; rewrite in_flat_map /=; split=> [[x' [xs /in_map_iff[y' [[<- <-] yt]]]]|[/hs xs /ht yt]].
    by split; [apply/hs|apply/ht].
  by exists x; split=> //; apply/in_map_iff; exists y.
Qed.

(** ** What [contains] accepts *)
Lemma allM_true (E : Type) (f : E -> M bool) v :
  returns (allM f v) true <-> forall x, In x v -> returns (f x) true.
Proof.
elim: v => [|x v IH] /=; first by split=> // _; exact: returns_ret.
split=> [[n h]|h].
  have h1 : returns (f x) true.
    exists n => j nj; have := h j nj; rewrite /andM /bind.
    by case: (f x j) => // -[].
  have h2 : returns (allM f v) true.
    exists n => j nj; have := h j nj; rewrite /andM /bind.
    by case: (f x j) => // -[].
  by move=> y [<-|yv] //; move/IH: h2; apply.
have hx : returns (f x) true by apply: h; left.
have hv : returns (allM f v) true by apply/IH => y yv; apply: h; right.
by rewrite /andM; apply: returns_bind hx _.
Qed.

Lemma vector_accepted (E : Type) (A : Domain E) n v :
  accepted (vector_domain n A) v <-> size v = n /\ forall x, In x v -> accepted A x.
Proof.
rewrite /accepted /=; case: eqP => /= sv.
  by rewrite allM_true; split=> [|[]].
split=> [h|[]] //; have := returns_det h (returns_ret _); by [].
Qed.

Lemma vectors_accepted (E : Type) (A : Domain E) k n :
  has_members (accepted A) k -> has_members (accepted (vector_domain n A)) (k ^ n)%nat.
Proof.
move=> /vectors_count/(_ n); apply: has_members_iff => v; by rewrite vector_accepted.
Qed.

Lemma matrices_accepted (E : Type) (A : FieldAlg E) k n :
  has_members (accepted A) k -> has_members (accepted (matrix_domain A n)) (k ^ (n * n))%nat.
Proof. exact: vectors_accepted. Qed.

Section Polys.
Variables (E : Type) (A : AbelianAlg E) (k : nat) (z : E).
Hypotheses (hk : has_members (accepted A) k) (az : accepted A z).
Hypothesis z0 : returns (is_zero A z) true.
Hypothesis nz : forall x, accepted A x -> x <> z -> returns (is_zero A x) false.

Lemma poly_accepted v x0 : accepted (poly_domain A) v <->
  (forall x, In x v -> accepted A x) /\ (v = [::] \/ last x0 v <> z).
Proof.
rewrite /accepted /= /poly_contains.
case: (eqVneq (size v) 0%nat) => [/size0nil ->|sv].
  split=> [_|_]; last exact: returns_ret.
  by split=> //; left.
have l : ((size v).-1 < size v)%nat by rewrite ltn_predL lt0n.
have vE : vget v (size v - 1) = ret (last x0 v).
  by rewrite subn1 (vgetE x0 l) nth_last.
split=> [[n h]|[h [v0|lz]]]; last 1 first.
- apply: returns_bind; first by apply/allM_true; exact: h.
  rewrite /= vE; apply: returns_bind (returns_ret _) _; rewrite /notM.
  apply: (@returns_bind _ _ _ _ false); last by exists 0%nat.
  apply: nz => //; apply: h.
  by move: sv; case: (v) => //= x w _; elim: w x => [|y w IH] x; [left|right; apply: IH].
- split.
    apply/allM_true; exists n => j nj; have := h j nj; rewrite /bind.
    by case: (allM _ _ j) => // -[].
  right=> lz; have : returns (notM (is_zero A z)) true.
    exists n => j nj; have := h j nj; rewrite vE lz /bind.
    by case: (allM _ _ j) => // -[].
  have e : returns (notM (is_zero A z)) false by apply: (@returns_bind _ _ _ _ true) => //; exists 0%nat.
  by move=> /(returns_det e).
- by rewrite v0 in sv.
Qed.

Lemma nonzero_count : has_members (fun x => accepted A x /\ x <> z) k.-1.
Proof.
have [s [ns sk hs]] := hk.
have zs : In z s by apply/hs.
have [s1 [s2 sE]] := in_split z s zs.
exists (s1 ++ s2); split.
- by apply: (NoDup_remove_1 _ _ z); rewrite -sE.
- by rewrite -sk sE !app_length /=; lia.
- have nz2 : ~ In z (s1 ++ s2) by apply: NoDup_remove_2; rewrite -sE.
  move=> x; move: (hs x); rewrite sE !in_app_iff /= => h; split=> [h1|[/h h1 xz]].
    split; first by apply/h; tauto.
    by move=> xz; apply: nz2; rewrite in_app_iff -xz.
  by case: h1 => [|[zx|]]; [left|case: xz|right].
Qed.

Lemma polys_accepted d :
  has_members (fun v => accepted (poly_domain A) v /\ (size v <= d)%nat) (k ^ d)%nat.
Proof.
elim: d => [|d IH].
  exists [:: [::]]; split=> //; first by constructor; [case|constructor].
  move=> v /=; split=> [[<-|//]|[_]]; last by rewrite leqn0 => /nilP ->; left.
  by split=> //; exact: returns_ret.
have k0 : (0 < k)%nat.
  by have [s [_ <- hs]] := hk; have := proj2 (hs z) az; case: (s).
have -> : (k ^ d.+1 = k ^ d + k ^ d * k.-1)%nat by rewrite -mulnS prednK // mulnC expnS.
pose Q v := exists2 y : seq E * E, rcons y.1 y.2 = v &
  (size y.1 = d /\ forall x, In x y.1 -> accepted A x) /\ (accepted A y.2 /\ y.2 <> z).
have hQ : has_members Q (k ^ d * k.-1)%nat.
  apply: (@members_map _ _ (fun y : seq E * E => rcons y.1 y.2)) (members_prod (vectors_count hk d) nonzero_count).
  - by move=> [v x] [w y] /= /rcons_inj[-> ->].
  - by [].
have QE v : Q v <-> accepted (poly_domain A) v /\ size v = d.+1.
  split=> [[[w x] /= <- [[sw hw] [ax xz]]]|[/(poly_accepted v z)[h [->//|lz]] sv]].
    split; last by rewrite size_rcons sw.
    apply/(poly_accepted _ z); split; last by right; rewrite last_rcons.
    by move=> y; rewrite -cats1 => /in_app_iff[/hw|/= [<-|]].
  case/lastP: v sv h lz => // w x; rewrite size_rcons last_rcons => -[sw] h xz.
  have hin y : In y w -> accepted A y.
    by move=> yw; apply: h; rewrite -cats1; apply/in_app_iff; left.
  exists (w, x) => //=; split=> //; split=> //; apply: h.
  by rewrite -cats1; apply/in_app_iff; right; left.
apply: has_members_iff (members_app _ IH hQ) => [v|v [_ h] /QE[_ sv]]; last by rewrite sv ltnn in h.
rewrite QE; split=> [[[h hs]|[h hs]]|[h hs]]; first by split=> //; lia.
  by split=> //; lia.
have [e|e] : size v = d.+1 \/ (size v <= d)%nat by lia.
  by right.
by left.
Qed.
End Polys.

(** ** Residues *)
Lemma residues_count k : Z.le 0 k ->
  has_members (fun x => Z.le 0 x /\ Z.lt x k) (Z.to_nat k).
Proof.
move=> k0; exists (map Z.of_nat (List.seq 0 (Z.to_nat k))); split.
- by apply: FinFun.Injective_map_NoDup; [move=> a b; lia|exact: seq_NoDup].
- by rewrite map_length seq_length.
- move=> x; rewrite in_map_iff; split=> [[n [<- /in_seq]]|]; first lia.
  move=> [h1 h2]; exists (Z.to_nat x); split; first lia.
  by apply/in_seq; lia.
Qed.

Lemma decides_accepted (E : Type) (ty mem : E -> Prop) (A : Domain E) x :
  contains_decides False ty mem A -> ty x -> accepted A x <-> mem x.
Proof.
move=> h tx; have [[b [rb hb]]|[[]]] := h x tx; rewrite -hb.
by split=> [/(returns_det rb)|e]; rewrite // /accepted -e.
Qed.

Lemma modular_accepted cfg m : m <> Z0 ->
  has_members (accepted (QuotientRing cfg ZZ m)) (Z.to_nat (Z.abs m)) /\
  has_members (accepted (QuotientField cfg ZZ m)) (Z.to_nat (Z.abs m)).
Proof.
move=> m0; have [h1 h2 _ _] := @modular_decides cfg False 2 m m0 (Z.le_refl _).
have h := @residues_count (Z.abs m) (Z.abs_nonneg m).
by split; apply: has_members_iff h => x; [have := decides_accepted h1 (x := x) I|
  have := decides_accepted h2 (x := x) I]; tauto.
Qed.

Lemma modular_checked_accepted cfg w m : m <> Z0 -> Z.le 2 w -> in_i w m ->
  has_members (fun x => in_i w x /\ accepted (QuotientRing cfg (CheckedInts cfg w) m) x)
    (Z.to_nat (Z.abs m)) /\
  has_members (fun x => in_i w x /\ accepted (QuotientField cfg (CheckedInts cfg w) m) x)
    (Z.to_nat (Z.abs m)).
Proof.
move=> m0 w2 /(in_iP w) im; have [_ _ h1 h2] := @modular_decides cfg False w m m0 w2.
have h := @residues_count (Z.abs m) (Z.abs_nonneg m).
have hi x : Z.le 0 x -> Z.lt x (Z.abs m) -> in_i w x.
  move=> x1 x2; apply/(in_iP w); move: im; rewrite /imin /imax.
  by have : Z.lt 0 (Z.pow 2 (w - 1)); [apply: Z.pow_pos_nonneg; lia|lia].
split; apply: has_members_iff h => x.
  split=> [[x1 x2]|[ix /(decides_accepted h1 ix)]] //.
  by have ix := hi x x1 x2; split=> //; apply/(decides_accepted h1 ix).
split=> [[x1 x2]|[ix /(decides_accepted h2 ix)]] //.
by have ix := hi x x1 x2; split=> //; apply/(decides_accepted h2 ix).
Qed.

(** ** Permutations *)
Lemma permutations_accepted cfg n :
  has_members (accepted (Permutations cfg n)) n`!.
Proof.
have [h1 [h2 [h3 h4]]] := permutation_bijective n.
have := @members_count _ _ (@permutation_of n) (enum {: {perm 'I_n}}) h2 h3 (fun u _ => h1 u) (enum_uniq _).
rewrite -cardE h4; apply: has_members_iff => v.
rewrite /accepted permutation_accepted; split=> [[s]|[s]]; by exists s; rewrite ?mem_enum.
Qed.
