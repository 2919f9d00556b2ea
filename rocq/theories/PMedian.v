(** * PMedian.v -- medians. *)

From mathcomp Require Import all_ssreflect.
From Verif Require Import Rust Traits Wp Spec MedianSpec.

Set Implicit Arguments.
Unset Strict Implicit.
Unset Printing Implicit Defensive.

Section Median.
Variables (p : Prop) (E : Type) (V : eqType) (rep : E -> V -> Prop) (le : rel V) (A : LatticeAlg E).
Hypothesis hA : lattice_alg_spec p rep le A.
Let hL := la_la_ok hA.
Let hO := or_laws (la_or_ok hA).
Let tr := Spec.le_trans hO.
Let rf := Spec.le_refl hO.

(** The least element above the meets of all pairs. *)
Lemma median_least x u y v z w : rep x u -> rep y v -> rep z w ->
  ensures p (median A x y z) (fun t => exists2 m, rep t m &
    (forall b, le b u -> le b v -> le b m) /\
    (forall b, le b v -> le b w -> le b m) /\
    (forall b, le b w -> le b u -> le b m) /\
    (forall c, (forall b, le b u -> le b v -> le b c) -> (forall b, le b v -> le b w -> le b c) ->
       (forall b, le b w -> le b u -> le b c) -> le m c)).
Proof.
move=> xu yv zw.
apply: ensures_bind (meet_ok hL xu yv) _ => a [a' aE [a1 a2 a3]].
apply: ensures_bind (meet_ok hL yv zw) _ => b [b' bE [b1 b2 b3]].
apply: ensures_bind (meet_ok hL zw xu) _ => c [c' cE [c1 c2 c3]].
apply: ensures_bind (join_ok hL aE bE) _ => d [d' dE [d1 d2 d3]].
apply: ensures_mono (join_ok hL dE cE) _ => t [m tE [m1 m2 m3]]; exists m => //.
do !split.
- by move=> e eu ev; apply: tr (a3 _ eu ev) (tr d1 m1).
- by move=> e ev ew; apply: tr (b3 _ ev ew) (tr d2 m1).
- by move=> e ew eu; apply: tr (c3 _ ew eu) m2.
by move=> e h1 h2 h3; apply: m3; [apply: d3; [exact: h1|exact: h2]|exact: h3].
Qed.

(** Two equal elements win. *)
Lemma median_majority x u y v z w : rep x u -> rep y v -> rep z w ->
  ensures p (median A x y z) (fun t => exists2 m, rep t m &
    [/\ u = v -> m = u, v = w -> m = v & w = u -> m = w]).
Proof.
move=> xu yv zw; apply: ensures_mono (median_least xu yv zw) _ => t [m tm [h1 [h2 [h3 h4]]]].
exists m => //; split=> e; subst.
- by apply: (Spec.le_anti hO tm xu); [apply: h4|apply: h1].
- by apply: (Spec.le_anti hO tm yv); [apply: h4|apply: h2].
- by apply: (Spec.le_anti hO tm zw); [apply: h4|apply: h3].
Qed.

(** It lies between the bounds of the three. *)
Lemma median_between x u y v z w : rep x u -> rep y v -> rep z w ->
  ensures p (median A x y z) (fun t => exists2 m, rep t m &
    (forall b, le b u -> le b v -> le b w -> le b m) /\
    (forall c, le u c -> le v c -> le w c -> le m c)).
Proof.
move=> xu yv zw; apply: ensures_mono (median_least xu yv zw) _ => t [m tm [h1 [h2 [h3 h4]]]].
exists m => //; split=> [b bu bv _|c uc vc wc]; first exact: h1.
by apply: h4 => b h h'; [exact: tr h uc|exact: tr h vc|exact: tr h wc].
Qed.

(** In a total order it is the middle one. *)
Hypothesis total : forall x u y v, rep x u -> rep y v -> le u v || le v u.
Lemma median_middle x u y v z w : rep x u -> rep y v -> rep z w ->
  ensures p (median A x y z) (fun t => exists2 m, rep t m &
    [/\ m \in [:: u; v; w], (2 <= count (fun a => le a m) [:: u; v; w])%N &
        (2 <= count (le m) [:: u; v; w])%N]).
Proof.
move=> xu yv zw; apply: ensures_mono (median_least xu yv zw) _ => t [m tm [h1 [h2 [h3 h4]]]].
exists m => //; have an := Spec.le_anti hO tm.
have below k : (le u k && le v k) || (le v k && le w k) || (le w k && le u k) ->
    forall P : V -> Prop, (le k u && le k v) || (le k v && le k w) || (le k w && le k u) ->
    (forall e, rep e k -> m = k -> P k) -> forall e, rep e k -> P m.
  move=> hi P lo hP e ek; suff mk : m = k by rewrite mk; exact: hP ek mk.
  apply: an ek _ _; last by case/orP: lo => [/orP[]|] /andP[]; [exact: h1|exact: h2|exact: h3].
  apply: h4 => b b1 b2; case/orP: hi => [/orP[]|] /andP[k1 k2];
    by [exact: tr b1 k1|exact: tr b2 k1|exact: tr b1 k2|exact: tr b2 k2].
have fin k e : rep e k -> k \in [:: u; v; w] ->
    (le u k && le v k) || (le v k && le w k) || (le w k && le u k) ->
    (le k u && le k v) || (le k v && le k w) || (le k w && le k u) ->
    [/\ m \in [:: u; v; w], (2 <= count (fun a => le a m) [:: u; v; w])%N &
        (2 <= count (le m) [:: u; v; w])%N].
  move=> ek ik hi lo.
  apply: (below k hi (fun m => [/\ m \in [:: u; v; w], (2 <= count (fun a => le a m) [:: u; v; w])%N &
        (2 <= count (le m) [:: u; v; w])%N]) lo _ e ek) => _ _ _; split=> //=.
    by move: hi; do 3!case: (le _ k).
  by move: lo; do 3!case: (le k _).
case/orP: (total xu yv) => uv; case/orP: (total yv zw) => vw; case/orP: (total zw xu) => wu.
- by apply: (fin v y yv); rewrite ?inE ?eqxx ?orbT ?rf ?uv ?vw ?orbT.
- by apply: (fin v y yv); rewrite ?inE ?eqxx ?orbT ?rf ?uv ?vw ?orbT.
- by apply: (fin u x xu); rewrite ?inE ?eqxx ?orbT ?rf ?uv ?wu ?orbT.
- by apply: (fin w z zw); rewrite ?inE ?eqxx ?orbT ?rf ?vw ?wu ?orbT.
- by apply: (fin w z zw); rewrite ?inE ?eqxx ?orbT ?rf ?vw ?wu ?orbT.
- by apply: (fin u x xu); rewrite ?inE ?eqxx ?orbT ?rf ?uv ?wu ?orbT.
- by apply: (fin v y yv); rewrite ?inE ?eqxx ?orbT ?rf ?uv ?vw ?orbT.
- by apply: (fin v y yv); rewrite ?inE ?eqxx ?orbT ?rf ?uv ?vw ?orbT.
Qed.
End Median.
