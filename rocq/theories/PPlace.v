(** * PPlace.v -- what in-place methods leave behind after a panic. *)

From Coq Require Import ZArith Lia List.
From mathcomp Require Import all_ssreflect zify.
From Verif Require Import Rust Traits MInts MConstr MPlace MemberSpec ParSpec PlaceSpec Wp.
From Verif Require Import Spec PInts PMember PPar4.

Set Implicit Arguments.
Unset Strict Implicit.
Unset Printing Implicit Defensive.

Section Basic.
Context {E : Type}.
Implicit Types (x y z : E) (m : M E) (v u w : seq E).

Lemma forget_store x m : forget (p_store x m) =1 m.
Proof. by move=> k; rewrite /forget /p_store; case: (m k). Qed.
Lemma forget_after A x (m : M A) (f : A -> PM E) g : (forall a, forget (f a) =1 g a) ->
  forget (p_after x m f) =1 bind m g.
Proof. by move=> h k; rewrite /forget /p_after /bind; case: (m k) => [a||] //; exact: h. Qed.
Lemma forget_each (f : E -> PM E) g v : (forall x, forget (f x) =1 g x) ->
  forget (p_each f v) =1 mapM g v.
Proof.
move=> h k; elim: v => [|x v IH] //=; rewrite /bind -h -IH /forget /=.
by case: (f x k) => [y|y|] //; case: p_each.
Qed.
Lemma forget_zip (f : E -> E -> PM E) g v u : (forall x y, forget (f x y) =1 g x y) ->
  size v = size u -> forget (p_zip f v u) =1 map2M g v u.
Proof.
move=> h suv k; elim: v u suv => [|x v IH] [|y u] //= [suv]; rewrite /bind -h -IH // /forget /=.
by case: (f x y k) => [z|z|] //; case: p_zip.
Qed.

Lemma store_untouched x m k z : p_store x m k = Broken z -> z = x.
Proof. by rewrite /p_store; case: (m k) => // -[]. Qed.
Lemma after_untouched A x (m : M A) (f : A -> PM E) k z :
  (forall a, f a k = Broken z -> z = x) -> p_after x m f k = Broken z -> z = x.
Proof. by move=> h; rewrite /p_after; case: (m k) => [a /h||] // -[]. Qed.

Lemma each_partly (f : E -> PM E) v k w : p_each f v k = Broken w ->
  size w = size v /\ exists2 i : nat, i < size v &
    forall (j : nat) (d : E), j < size v ->
    if j < i then f (nth d v j) k = Held (nth d w j)
    else if j == i then f (nth d v j) k = Broken (nth d w j)
    else nth d w j = nth d v j.
Proof.
elim: v w => [|x v IH] w //=; case e: (f x k) => [y|y|] //; last first.
  by case=> <- /=; split=> //; exists 0%N => // -[|j] d.
case e': p_each => [w'|w'|] // [<-] /=; have [sw [i hi h]] := IH _ e'.
by rewrite sw; split=> //; exists i.+1 => // -[|j] d //= hj; exact: h.
Qed.
Lemma zip_partly (f : E -> E -> PM E) v u k w : size v = size u -> p_zip f v u k = Broken w ->
  size w = size v /\ exists2 i : nat, i < size v &
    forall (j : nat) (d : E), j < size v ->
    if j < i then f (nth d v j) (nth d u j) k = Held (nth d w j)
    else if j == i then f (nth d v j) (nth d u j) k = Broken (nth d w j)
    else nth d w j = nth d v j.
Proof.
elim: v u w => [|x v IH] [|y u] w //= [suv]; case e: (f x y k) => [z|z|] //; last first.
  by case=> <- /=; split=> //; exists 0%N => // -[|j] d.
case e': p_zip => [w'|w'|] // [<-] /=; have [sw [i hi h]] := IH _ _ suv e'.
by rewrite sw; split=> //; exists i.+1 => // -[|j] d //= hj; exact: h.
Qed.

Lemma entries_cons (mem : E -> Prop) x v : entries mem (x :: v) <-> mem x /\ entries mem v.
Proof.
split=> [h|[h1 h2] [|i] d //= hi]; last exact: h2.
by split=> [|i d hi]; [exact: (h 0%N x)|exact: (h i.+1 d)].
Qed.
Lemma each_holds (mem : E -> Prop) (f : E -> PM E) v : (forall x, mem x -> holds mem (f x)) ->
  entries mem v -> holds (vector_member (size v) mem) (p_each f v).
Proof.
move=> h + k; elim: v => [|x v IH] //= /entries_cons[mx mv].
have := h x mx k; case: (f x k) => // y my; last by split=> //; apply/entries_cons.
by have := IH mv; case: p_each => // w [sw mw]; split; rewrite /= ?sw //; apply/entries_cons.
Qed.
Lemma zip_holds (mem : E -> Prop) (f : E -> E -> PM E) v u :
  (forall x y, mem x -> mem y -> holds mem (f x y)) ->
  size v = size u -> entries mem v -> entries mem u ->
  holds (vector_member (size v) mem) (p_zip f v u).
Proof.
move=> h + + + k; elim: v u => [|x v IH] [|y u] //= [suv] /entries_cons[mx mv] /entries_cons[my mu].
have := h x y mx my k; case: (f x y k) => // z mz; last by split=> //; apply/entries_cons.
by have := IH _ suv mv mu; case: p_zip => // w [sw mw]; split; rewrite /= ?sw //; apply/entries_cons.
Qed.
End Basic.

(** ** Vectors *)
Section Vectors.
Variables (E : Type) (n : nat).
Implicit Types (v u w : seq E).

Lemma forget_vector1 (f : E -> PM E) g : (forall x, forget (f x) =1 g x) ->
  forall v, forget (vector_place1 n f v) =1 (do! assert_len1 n v in mapM g v)%rust.
Proof. by move=> h v; apply: forget_after => _; exact: forget_each. Qed.
Lemma forget_vector2 (f : E -> E -> PM E) g : (forall x y, forget (f x y) =1 g x y) ->
  forall v u, forget (vector_place2 n f v u) =1 (do! assert_len2 n v u in map2M g v u)%rust.
Proof.
move=> h v u k; rewrite /vector_place2 /assert_len2 /assert /forget /p_after /bind.
case: andP => // -[/eqP sv /eqP su]; rewrite /ret.
by rewrite -(@forget_zip _ f g v u h) ?sv ?su.
Qed.
Lemma vector1_partly (f : E -> PM E) : partly1 n f (vector_place1 n f).
Proof.
move=> v k w; rewrite /vector_place1 /assert_len1 /assert /p_after.
case: eqP => [sv|sv] /=; last by case=> <-; left.
by move/each_partly; rewrite sv => -[-> h]; right.
Qed.
Lemma vector2_partly (f : E -> E -> PM E) : partly2 n f (vector_place2 n f).
Proof.
move=> v u k w; rewrite /vector_place2 /assert_len2 /assert /p_after.
case: eqP => [sv|sv] /=; last by case=> <-; left; split=> //; left.
case: eqP => [su|su] /=; last by case=> <-; left; split=> //; right.
by move/zip_partly; rewrite sv su => /(_ erefl) [-> h]; right.
Qed.
Lemma vector1_holds (mem : E -> Prop) (f : E -> PM E) : (forall x, mem x -> holds mem (f x)) ->
  forall v, vector_member n mem v -> holds (vector_member n mem) (vector_place1 n f v).
Proof.
move=> h v [sv mv] k; rewrite /vector_place1 /assert_len1 /assert /p_after sv eqxx /ret.
by have := each_holds h mv k; rewrite sv.
Qed.
Lemma vector2_holds (mem : E -> Prop) (f : E -> E -> PM E) :
  (forall x y, mem x -> mem y -> holds mem (f x y)) ->
  forall v u, vector_member n mem v -> vector_member n mem u ->
  holds (vector_member n mem) (vector_place2 n f v u).
Proof.
move=> h v u [sv mv] [su mu] k; rewrite /vector_place2 /assert_len2 /assert /p_after sv su eqxx /ret /=.
by have := zip_holds h (etrans sv (esym su)) mv mu k; rewrite sv.
Qed.

Lemma vector_mul_ok (S : Semigroup E) P : tracks_mul S P ->
  [/\ tracks_mul (vector_semigroup n S) (vector_place_mul n P),
      partly_mul n P (vector_place_mul n P) &
      forall mem, keeps_mul mem P -> keeps_mul (vector_member n mem) (vector_place_mul n P)].
Proof.
move=> [h1 h2]; split.
- by split=> [v u|v]; [exact: forget_vector2|exact: forget_vector1].
- by split; [exact: vector2_partly|exact: vector1_partly].
by move=> mem [k1 k2]; split; [exact: vector2_holds|exact: vector1_holds].
Qed.
Lemma vector_ok cfg (A : RingAlg E) P : tracks A P ->
  [/\ tracks (VectorRing cfg n A) (vector_places n P),
      [/\ partly_mul n P (vector_places n P), partly_add n P (vector_places n P) &
          partly_neg n P (vector_places n P)] &
      forall mem, keeps mem P -> keeps (vector_member n mem) (vector_places n P)].
Proof.
move=> [/vector_mul_ok[t p k] [a1 a2] [n1 n2]]; split.
- split=> //; first by split=> [v u|v]; [exact: forget_vector2|exact: forget_vector1].
  by split=> [v|v u]; [exact: forget_vector1|exact: forget_vector2].
- split=> //; first by split; [exact: vector2_partly|exact: vector1_partly].
  by split; [exact: vector1_partly|exact: vector2_partly].
move=> mem [/k k1 [k2 k3] [k4 k5]]; split=> //.
  by split; [exact: vector2_holds|exact: vector1_holds].
by split; [exact: vector1_holds|exact: vector2_holds].
Qed.
End Vectors.

(** ** The default methods *)
Section Defaults.
Variable E : Type.

Lemma default_mul_ok (mul : E -> E -> M E) S : mul_assign S = mul -> square S = (fun x => mul x x) ->
  tracks_mul S (default_place_mul mul) /\ untouched_mul (default_place_mul mul).
Proof.
move=> h1 h2; split; split=> [x y|x] /=.
- by move=> k; rewrite h1 forget_store.
- by move=> k; rewrite h2 forget_store.
- by move=> k z; exact: store_untouched.
- by move=> k z; exact: store_untouched.
Qed.
Lemma default_add_ok (add : E -> E -> M E) C : add_assign C = add -> double C = (fun x => add x x) ->
  tracks_add C (default_place_add add) /\ untouched_add (default_place_add add).
Proof.
move=> h1 h2; split; split=> [x y|x] /=.
- by move=> k; rewrite h1 forget_store.
- by move=> k; rewrite h2 forget_store.
- by move=> k z; exact: store_untouched.
- by move=> k z; exact: store_untouched.
Qed.
Lemma default_neg_ok (neg : E -> M E) P (G : AbelianGroup E) (C : CommMonoid E) :
  neg_assign G = neg -> sub_assign G = default_sub_assign neg (add_assign C) ->
  tracks_add C P -> untouched_add P ->
  tracks_neg G (default_place_neg neg P) /\ untouched_neg (default_place_neg neg P).
Proof.
move=> h1 h2 [t _] [u _]; split; split=> [x|x y] /=.
- by move=> k; rewrite h1 forget_store.
- by rewrite h2; apply: forget_after => z; exact: t.
- by move=> k z; exact: store_untouched.
- by move=> k z; apply: after_untouched => a; exact: u.
Qed.

(** The methods are the default ones. *)
Definition all_default (A : RingAlg E) : Prop :=
  [/\ mul_assign A = mul A, square A = (fun x => mul A x x), add_assign A = add A,
      double A = (fun x => add A x x) & neg_assign A = neg A /\
      sub_assign A = default_sub_assign (neg A) (add A)].
Lemma default_ok (A : RingAlg E) : all_default A ->
  tracks A (default_places A) /\ untouched (default_places A).
Proof.
move=> [h1 h2 h3 h4 [h5 h6]].
have [t1 u1] := default_mul_ok h1 h2; have [t2 u2] := default_add_ok h3 h4.
have h6' : sub_assign A = default_sub_assign (neg A) (add_assign A) by rewrite h3.
by have [t3 u3] := default_neg_ok h5 h6' t2 u2.
Qed.

(** Members stay members. *)
Lemma holds_ok (mem : E -> Prop) (f : PM E) (m : M E) x : forget f =1 m -> alike eq m m ->
  (forall k z, f k = Broken z -> z = x) -> (forall z, returns m z -> mem z) -> mem x ->
  holds mem f.
Proof.
move=> fm [am _] ub rm mx k; case e: (f k) => [z|z|] //; last by rewrite (ub _ _ e).
by have := am k; rewrite -fm /forget e => -[w rw zw]; rewrite zw; exact: rm.
Qed.
Lemma keeps_mul_ok (p : Prop) (mem : E -> Prop) (A : MonoidAlg E) P :
  semigroup_par eq A A -> closed_mul p mem A A A -> tracks_mul A P -> untouched_mul P ->
  keeps_mul mem P.
Proof.
move=> par cm [m1 m2] [u1 u2]; split.
- move=> x y mx my; apply: (holds_ok (m1 x y)) (mx); first by apply: (mul_assign_par par).
    by move=> k z; exact: u1.
  by move=> z /(cl_mul_assign cm mx my) [].
- move=> x mx; apply: (holds_ok (m2 x)) (mx); first by apply: (square_par par).
    by move=> k z; exact: u2.
  by move=> z /(cl_square cm mx) [].
Qed.
Lemma keeps_ok (cfg : Cfg) ok (p : Prop) (mem : E -> Prop) (A : RingAlg E) P :
  ring_alg_par ok eq A A -> closed_ring_alg cfg p mem A -> tracks A P -> untouched P ->
  keeps mem P.
Proof.
move=> par [cm ca cn _] [tm [a1 a2] [n1 n2]] [um [ua1 ua2] [un1 un2]].
split; first by apply: keeps_mul_ok cm tm um; exact: par.
- split.
    move=> x y mx my; apply: (holds_ok (a1 x y)) (mx); first by apply: (add_assign_par par).
      by move=> k z; exact: ua1.
    by move=> z /(cl_add_assign ca mx my) [].
  move=> x mx; apply: (holds_ok (a2 x)) (mx); first by apply: (double_par par).
    by move=> k z; exact: ua2.
  by move=> z /(cl_double ca mx) [].
- split.
    move=> x mx; apply: (holds_ok (n1 x)) (mx); first by apply: (neg_assign_par par).
      by move=> k z; exact: un1.
    by move=> z /(cl_neg_assign cn mx) [].
  move=> x y mx my; apply: (holds_ok (n2 x y)) (mx); first by apply: (sub_assign_par par).
    by move=> k z; exact: un2.
  by move=> z /(cl_sub_assign cn mx my) [].
Qed.
End Defaults.

(** ** The structures *)
Section Structures.
Variables (cfg : Cfg) (E : Type).

Lemma quotient_default (A : EuclAlg E) m :
  all_default (QuotientRing cfg A m) /\ all_default (QuotientField cfg A m).
Proof. by []. Qed.
Lemma fractions_default (A : EuclAlg E) : all_default (ReducedFractions cfg A).
Proof. by []. Qed.
Lemma poly_default (A : RingAlg E) : all_default (PolyRing A).
Proof. by []. Qed.
Lemma checked_default w : all_default (CheckedInts cfg w).
Proof. by []. Qed.

Lemma integers_places_ok : tracks ZZ integers_places /\ untouched integers_places.
Proof.
have [t u] := @default_mul_ok _ (mul ZZ) ZZ erefl erefl.
have [t1 u1] : tracks_add ZZ integers_places /\ untouched_add integers_places.
  split; split=> [x y|x] /= k; try by rewrite forget_store.
    by move=> z; exact: store_untouched.
  by move=> z; exact: store_untouched.
have [t2 u2] := @default_neg_ok _ (neg ZZ) integers_places ZZ ZZ erefl erefl t1 u1.
by split.
Qed.
Lemma naturals_places_ok :
  [/\ tracks_mul NN naturals_place_mul, untouched_mul naturals_place_mul,
      tracks_add NN naturals_place_add & untouched_add naturals_place_add].
Proof.
have [t u] := @default_mul_ok _ (mul NN) NN erefl erefl; split=> //.
Qed.
Lemma uints_places_ok w :
  [/\ tracks_mul (CheckedUints w) (default_place_mul (mul (CheckedUints w))),
      untouched_mul (default_place_mul (mul (CheckedUints w))),
      tracks_add (CheckedUints w) (default_place_add (add (CheckedUints w))) &
      untouched_add (default_place_add (add (CheckedUints w)))].
Proof.
have [t u] := @default_mul_ok _ (mul (CheckedUints w)) (CheckedUints w) erefl erefl.
by have [t1 u1] := @default_add_ok _ (add (CheckedUints w)) (CheckedUints w) erefl erefl.
Qed.
Lemma two_places_ok : tracks BB two_places /\ (forall x y k z, [/\ p_mul_assign two_places x y k <> Broken z,
  p_square two_places x k <> Broken z, p_add_assign two_places x y k <> Broken z,
  p_double two_places x k <> Broken z & p_neg_assign two_places x k <> Broken z /\
  p_sub_assign two_places x y k <> Broken z]).
Proof. by split; first by split; split=> [x y|x] //= k; rewrite forget_store. Qed.

Lemma additive_places_ok (A : AbelianAlg E) P : tracks_add A P ->
  tracks_mul (AdditiveGroup cfg A) (additive_places P) /\
  (untouched_add P -> untouched_mul (additive_places P)) /\
  (forall mem, keeps_add mem P -> keeps_mul mem (additive_places P)).
Proof. by []. Qed.
Lemma multiplicative_places_ok (A : MonoidAlg E) P : tracks_mul A P ->
  tracks_mul (MultiplicativeGroup cfg A) (multiplicative_places P) /\
  (untouched_mul P -> untouched_mul (multiplicative_places P)) /\
  (forall mem, keeps_mul mem P -> keeps_mul mem (multiplicative_places P)).
Proof. by []. Qed.

Lemma matrix_places_ok (A : FieldAlg E) n P : tracks A P ->
  [/\ tracks (MatrixRing cfg A n) (matrix_places A n P),
      untouched_mul (matrix_places A n P),
      partly_add (n * n) P (matrix_places A n P) &
      partly_neg (n * n) P (matrix_places A n P)].
Proof.
move=> tp; have [[_ ta tn] [_ pa pn] _] := vector_ok (n * n) cfg tp.
by have [tm um] := @default_mul_ok _ (matrix_mul A n) (MatrixRing cfg A n) erefl erefl.
Qed.
End Structures.

Lemma keeps_iff E (mem mem' : E -> Prop) P : (forall x, mem x <-> mem' x) ->
  keeps mem P -> keeps mem' P.
Proof.
move=> e; have h m : holds mem m -> holds mem' m.
  by move=> h k; have := h k; case: (m k) => // z /e.
move=> [[k1 k2] [k3 k4] [k5 k6]]; split; split.
- by move=> x y /e mx /e my; apply: h; exact: k1.
- by move=> x /e mx; apply: h; exact: k2.
- by move=> x y /e mx /e my; apply: h; exact: k3.
- by move=> x /e mx; apply: h; exact: k4.
- by move=> x /e mx; apply: h; exact: k5.
- by move=> x y /e mx /e my; apply: h; exact: k6.
Qed.
(** Vectors of machine integers. *)
Lemma machine_keeps (cfg : Cfg) (w : Z) (n : nat) : (2 <= w)%Z ->
  keeps (in_i w) (default_places (CheckedInts cfg w)) /\
  keeps (vector_member n (in_i w)) (vector_places n (default_places (CheckedInts cfg w))).
Proof.
move=> w2; have [t u] := default_ok (@checked_default cfg w).
have k : keeps (in_i w) (default_places (CheckedInts cfg w)).
  have [[c _] _] := closed_eucl_alg_ok (CheckedInts_ok cfg w2).
  apply: keeps_iff (keeps_ok (@ci_settled (fun _ => True) cfg w) c t u) => x.
  by split=> [[y []]|h] //; exists x.
by split=> //; have [_ _ h] := vector_ok n cfg t; exact: h.
Qed.

(** ** Permutations *)
Section Perm.
Variables (cfg : Cfg) (n : nat).
Lemma perm_places_tracks : tracks_mul (Permutations cfg n) (perm_places cfg n).
Proof.
split=> [v u|v] /=; last by move=> k; rewrite forget_store.
apply: forget_after => _; apply: forget_after => _; apply: forget_each => a k.
by rewrite forget_store.
Qed.
(** A panic in the middle: the entries before it are replaced. *)
Lemma perm_places_partly v u k w : p_mul_assign (perm_places cfg n) v u k = Broken w ->
  w = v \/ exists i : nat, [/\ i < size v, size u <= nth 0 v i,
    forall j, j < i -> nth 0 v j < size u &
    w = map (nth 0 u) (take i v) ++ drop i v].
Proof.
rewrite /= /p_after; case: debug_len => [_||] //; last by case=> ->; left.
case: debug_len => [_||] //; last by case=> ->; left.
move=> h; right; elim: v w h => [|a v IH] w //=; rewrite {1}/p_store.
case: (ltnP a (size u)) => au; last first.
  rewrite {1}/vget drop_oversize //= => -[<-]; exists 0%N.
  by split.
rewrite (vgetE 0 au) /ret; case e: p_each => [w'|w'|] // [<-].
have [i [h1 h2 h3 ->]] := IH _ e; exists i.+1; split=> // -[|j] //=; exact: h3.
Qed.
End Perm.
