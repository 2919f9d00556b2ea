(** * PBool.v -- every finite Boolean algebra is a power of the two-element one. *)

From mathcomp Require Import all_ssreflect.
From Verif Require Import Rust Traits MInts MConstr FiniteSpec Wp CountSpec PCount2.

Set Implicit Arguments.
Unset Strict Implicit.
Unset Printing Implicit Defensive.

Import Order.Theory.

(** ** Atoms *)
Section Atoms.
Local Open Scope order_scope.
Variables (disp : unit) (B : finCDistrLatticeType disp).
Implicit Types u v a b : B.

Definition atom a := (a != 0) && [forall b, (b <= a) ==> (b == 0) || (b == a)].

Lemma atom_below u : u != 0 -> exists2 a, atom a & a <= u.
Proof.
move=> u0; pose P b := (b != 0) && (b <= u).
have Pu : P u by rewrite /P u0 lexx.
case: (arg_minnP (fun b => #|[pred c | c <= b]|) Pu) => a /andP[a0 au] amin.
exists a => //; rewrite /atom a0 /=; apply/forallP => b; apply/implyP => ba.
case: eqP => //= /eqP b0; have := amin b; rewrite /P b0 (le_trans ba au) => /(_ isT) h.
have sub : [pred c | c <= b] \subset [pred c | c <= a].
  by apply/subsetP => c; rewrite !inE => cb; exact: le_trans cb ba.
have e : #|[pred c | c <= b]| = #|[pred c | c <= a]|.
  by apply/eqP; rewrite eqn_leq h subset_leq_card.
by have := subset_cardP e sub a; rewrite !inE lexx eq_le ba => ->.
Qed.

Lemma atom_meet a u v : (a <= u `&` v) = (a <= u) && (a <= v).
Proof. exact: lexI. Qed.

Lemma atom_cap a u : atom a -> a <= u \/ a `&` u = 0.
Proof.
case/andP=> _ /forallP/(_ (a `&` u)); rewrite leIl /= => /orP[/eqP -> | /eqP e].
  by right.
by left; rewrite -e leIr.
Qed.

Lemma atom_neq0 a : atom a -> (a <= 0) = false.
Proof. by case/andP=> a0 _; rewrite lex0 (negbTE a0). Qed.

Lemma atom_join a u v : atom a -> (a <= u `|` v) = (a <= u) || (a <= v).
Proof.
move=> ha; apply/idP/orP => [h|[] h]; last 2 first.
- exact: lexUl.
- exact: lexUr.
have [au|au0] := atom_cap u ha; first by left.
have [av|av0] := atom_cap v ha; first by right.
have : a `&` (u `|` v) = 0 by rewrite meetUr au0 av0 joinxx.
by rewrite (meet_idPl h) => a0; move: (atom_neq0 ha); rewrite a0 lexx.
Qed.

Lemma atom_compl a u : atom a -> (a <= ~` u) = ~~ (a <= u).
Proof.
move=> ha; apply/idP/idP => [h|].
  apply/negP => au; have : a <= u `&` ~` u by rewrite lexI au.
  by rewrite meetxC atom_neq0.
have : a <= u `|` ~` u by rewrite joinxC lex1.
by rewrite atom_join // => /orP[->|].
Qed.

Lemma le_atoms u v : (forall a, atom a -> a <= u -> a <= v) -> u <= v.
Proof.
move=> h; apply/negPn/negP => uv.
have : u `&` ~` v != 0 by rewrite -subE sub_eq0.
move=> /atom_below[a ha]; rewrite lexI atom_compl // => /andP[au].
by rewrite (h a).
Qed.

Lemma atom_joins a (P : pred B) : atom a ->
  (a <= \join_(b | atom b && P b) b) = P a.
Proof.
move=> ha; apply/idP/idP => [|Pa]; last by apply: (joins_sup (j := a)); rewrite ha.
have : forall r : seq B, a <= \join_(b <- r | atom b && P b) b -> P a.
  elim=> [|b r IH]; first by rewrite big_nil atom_neq0.
  rewrite big_cons; case: andP => [[hb Pb]|_] //; rewrite atom_join // => /orP[ab|] //.
  move: hb => /andP[_ /forallP/(_ a)]; rewrite ab /= => /orP[/eqP a0|/eqP -> //].
  by move: (atom_neq0 ha); rewrite a0 lexx.
exact.
Qed.

Definition atoms := enum atom.
Definition bits u := [seq a <= u | a <- atoms].

Lemma size_bits u : size (bits u) = #|atom|.
Proof. by rewrite size_map -cardE. Qed.

Lemma bits_le u v : all2 implb (bits u) (bits v) = (u <= v).
Proof.
have -> : all2 implb (bits u) (bits v) = all (fun a => (a <= u) ==> (a <= v)) atoms.
  by rewrite /bits; elim: atoms => //= a s ->.
apply/allP/idP => [h|uv a _]; last by apply/implyP => au; exact: le_trans au uv.
by apply: le_atoms => a ha; apply/implyP; apply: h; rewrite mem_enum.
Qed.

Lemma bits_inj : injective bits.
Proof.
by move=> u v e; apply/le_anti; rewrite -!bits_le e andbb; elim: (bits v) => //= -[] s.
Qed.

Lemma bits_surj (x : seq bool) : size x = #|atom| -> exists u, bits u = x.
Proof.
move=> sx; have sa : size atoms = #|atom| by rewrite -cardE.
exists (\join_(b | atom b && nth false x (index b atoms)) b).
apply: (@eq_from_nth _ false); rewrite size_bits // => i im.
have [b0 hb0] : exists b, b \in atom by apply/card_gt0P; exact: leq_ltn_trans im.
rewrite (nth_map b0) ?sa //.
have hi : nth b0 atoms i \in atoms by rewrite mem_nth ?sa.
rewrite atom_joins; last by move: hi; rewrite mem_enum.
by rewrite index_uniq ?sa ?enum_uniq.
Qed.

Lemma card_bits : #|B| = (2 ^ #|atom|)%N.
Proof.
pose f u : #|atom|.-tuple bool := Tuple (introT eqP (size_bits u)).
have fi : injective f by move=> u v /(congr1 val); exact: bits_inj.
rewrite -[LHS](card_image fi) -[in RHS]card_bool -card_tuple; apply: eq_card => x.
rewrite inE; apply/imageP.
have [u e] := bits_surj (eqP (valP x)); exists u => //; exact: val_inj.
Qed.
End Atoms.

(** ** Calls on lists of bits *)
Section Calls.
Variable T : Type.
Implicit Types (f g : T -> bool) (s : seq T).

Lemma map2M_ret (h : bool -> bool -> bool) f g s :
  returns (map2M (fun x y => ret (h x y)) (map f s) (map g s))
    [seq h (f a) (g a) | a <- s].
Proof.
elim: s => [|a s IH] /=; first exact: returns_ret.
by apply: (returns_bind (returns_ret _)); apply: (returns_bind IH); exact: returns_ret.
Qed.
Lemma mapM_ret (h : bool -> bool) f s :
  returns (mapM (fun x => ret (h x)) (map f s)) [seq h (f a) | a <- s].
Proof.
elim: s => [|a s IH] /=; first exact: returns_ret.
by apply: (returns_bind (returns_ret _)); apply: (returns_bind IH); exact: returns_ret.
Qed.
Lemma all2M_ret (h : bool -> bool -> bool) (x y : seq bool) : size x = size y ->
  returns (all2M (fun x y => ret (h x y)) x y) (all2 h x y).
Proof.
elim: x y => [|a x IH] [|b y] //=; first by move=> _; exact: returns_ret.
case=> /IH hx; rewrite /andM; apply: (returns_bind (returns_ret _)).
by case: (h a b) => //=; exact: returns_ret.
Qed.
End Calls.

Section Code.
Variables (disp : unit) (B : finCDistrLatticeType disp).
Local Notation n := #|@atom disp B|.
Local Notation A := (VectorBoolean n BB_boolean).

Lemma len2 C (m : M C) w (u v : B) : returns m w ->
  returns (do! assert_len2 n (bits u) (bits v) in m) w.
Proof.
by move=> h; rewrite /assert_len2 !size_bits eqxx /=; apply: (returns_bind (returns_ret _)).
Qed.

Lemma boolean_codeP : boolean_code A (@bits disp B).
Proof.
have hle (u v : B) : returns (leq A (bits u) (bits v)) (u <= v)%O.
  rewrite -bits_le; apply: (@len2 _ (all2M (fun x y => ret (implb x y)) _ _)).
  by apply: all2M_ret; rewrite !size_bits.
have heq (u v : B) : returns (equals A (bits u) (bits v)) (u == v).
  have -> : (u == v) = all2 Bool.eqb (bits u) (bits v).
    rewrite -(inj_eq (@bits_inj _ _)); have : size (bits u) = size (bits v) by rewrite !size_bits.
    elim: (bits u) (bits v) => [|a x IH] [|b y] //= [/IH <-]; rewrite eqseq_cons.
    by case: a b => -[].
  apply: (@len2 _ (all2M (fun x y => ret (Bool.eqb x y)) _ _)).
  by apply: all2M_ret; rewrite !size_bits.
split=> //.
- exact: bits_inj.
- move=> x; rewrite -/(accepted A x).
  rewrite (vector_accepted BB_boolean n x).
  split=> [[sx _]|[u <-]]; first exact: bits_surj.
  by rewrite size_bits; split=> // y _; exact: returns_ret.
- apply: returns_bind (returns_ret _) _.
  have -> : bits (1%O : B) = vector_diagonal n true; last exact: returns_ret.
  rewrite /bits /vector_diagonal cardE -/(atoms B); elim: (atoms B) => //= a s ->.
  by rewrite lex1.
- apply: returns_bind (returns_ret _) _.
  have -> : bits (0%O : B) = vector_diagonal n false; last exact: returns_ret.
  rewrite /bits /vector_diagonal cardE -/(atoms B).
  have : all (@atom _ B) (atoms B) by apply/allP => a; rewrite mem_enum.
  by elim: (atoms B) => //= a s IH /andP[ha /IH ->]; rewrite atom_neq0.
- move=> u v; rewrite lt_neqAle /= /default_less_than.
  apply: (@returns_bind _ _ _ _ (u != v)).
    by apply: (returns_bind (heq u v)); exact: returns_ret.
  by case: (u != v); [exact: hle|exact: returns_ret].
- move=> u v; apply: (returns_bind (hle u v)); rewrite /Order.comparable.
  by case: (u <= v)%O => /=; [exact: returns_ret|exact: hle].
- move=> u v; have h := map2M_ret andb (Order.le^~ u) (Order.le^~ v) (atoms B).
  suff e : [seq (a <= u)%O && (a <= v)%O | a <- atoms B] = bits (Order.meet u v)
    by rewrite e in h; exact: len2 h.
  by apply: eq_map => a; rewrite lexI.
- move=> u v; have h := map2M_ret orb (Order.le^~ u) (Order.le^~ v) (atoms B).
  suff e : [seq (a <= u)%O || (a <= v)%O | a <- atoms B] = bits (Order.join u v)
    by rewrite e in h; exact: len2 h.
  by apply/eq_in_map => a; rewrite mem_enum => ha; rewrite atom_join.
- move=> u; have h := mapM_ret negb (Order.le^~ u) (atoms B).
  have e : [seq ~~ (a <= u)%O | a <- atoms B] = bits (Order.compl u).
    by apply/eq_in_map => a; rewrite mem_enum => ha; rewrite atom_compl.
  rewrite e in h; rewrite /= /assert_len1 size_bits eqxx.
  exact: (returns_bind (returns_ret _) h).
Qed.
End Code.

Lemma every_boolean_algebra (disp : unit) (B : finCDistrLatticeType disp) :
  exists (n : nat) (code : B -> seq bool),
    boolean_code (VectorBoolean n BB_boolean) code /\ #|B| = (2 ^ n)%N.
Proof. by exists #|@atom disp B|, (@bits disp B); split; [exact: boolean_codeP|exact: card_bits]. Qed.
