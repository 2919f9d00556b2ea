(** * DegreeSpec.v -- the laws of degree and leading_coef as statements about calls.

    [terms x] is one more than the degree, and 0 for the zero polynomial, whose degree
    is None; it reads the degree off [poly_degree] only. *)

From Coq Require Import ZArith.
From mathcomp Require Import all_ssreflect.
From Verif Require Import Rust Traits MConstr Laws.

Set Implicit Arguments.
Unset Strict Implicit.
Unset Printing Implicit Defensive.

Definition terms {E} (x : seq E) : nat := if poly_degree x is Some d then d.+1 else 0.

Section Laws.
Variables (p : Prop) (E : Type) (mem : seq E -> Prop).
Local Notation holds := (holds p).
Local Notation returning m Q := (ensures p m Q).

(** Over an integral domain: of sums, products, quotients and inverses. *)
Record degree_laws (A : IDomAlg E) (P : IDomAlg (seq E)) : Prop := {
  dg_zero : forall x, mem x -> returning (is_zero P x) (fun b => b = (terms x == 0));
  dg_one : returning (one P) (fun z => terms z = 1);
  dg_neg : forall x, mem x -> returning (neg P x) (fun z => terms z = terms x);
  dg_add : forall x y, mem x -> mem y -> returning (add P x y) (fun z =>
    terms z <= maxn (terms x) (terms y) /\
    (terms x <> terms y -> terms z = maxn (terms x) (terms y)));
  dg_sub : forall x y, mem x -> mem y -> returning (sub P x y) (fun z =>
    terms z <= maxn (terms x) (terms y) /\
    (terms x <> terms y -> terms z = maxn (terms x) (terms y)));
  dg_mul : forall x y, mem x -> mem y -> returning (mul P x y) (fun z =>
    if (terms x == 0) || (terms y == 0) then terms z = 0
    else (terms z).+1 = terms x + terms y);
  dg_lead_mul : forall x y a b, mem x -> mem y ->
    returns (poly_leading_coef x) (Some a) -> returns (poly_leading_coef y) (Some b) ->
    holds (let! z := mul P x y in let! o := poly_leading_coef z in
           if o is Some c then same A (ret c) (mul A a b) else ret false);
  dg_lead_zero : forall x, mem x -> returning (poly_leading_coef x) (fun o =>
    isSome o = (terms x != 0));
  dg_lead_nonzero : forall x, mem x -> holds (let! o := poly_leading_coef x in
    if o is Some a then notM (is_zero A a) else ret true);
  dg_try_div : forall x y, mem x -> mem y -> terms y <> 0 ->
    returning (try_div P x y) (fun o =>
      if o is Some q then
        if terms x == 0 then terms q = 0 else terms q + terms y = (terms x).+1
      else True);
  dg_divisible : forall x y, mem x -> mem y -> terms x <> 0 ->
    returning (divisible P x y) (fun b => b -> 0 < terms y <= terms x);
  dg_associates : forall x y, mem x -> mem y ->
    returning (associates P x y) (fun b => b -> terms x = terms y);
  dg_repr : forall x, mem x -> returning (associate_repr P x) (fun z => terms z = terms x);
  dg_invertible : forall x, mem x ->
    holds (let! b := invertible P x in let! o := poly_leading_coef x in
           if o is Some a then
             let! c := invertible A a in ret (b == ((terms x == 1) && c))
           else ret (~~ b))
}.

(** Over a field: of remainders, gcd and lcm; representatives are monic. *)
Record division_degrees (A : FieldAlg E) (P : EuclAlg (seq E)) : Prop := {
  dv_quo_rem : forall x y, mem x -> mem y -> terms y <> 0 ->
    returning (quo_rem P x y) (fun z => terms z.2 < terms y /\
      if terms x < terms y then terms z.1 = 0
      else terms z.1 + terms y = (terms x).+1);
  dv_reduced : forall x y, mem x -> mem y -> terms y <> 0 ->
    returning (reduced P x y) (fun b => b = (terms x < terms y));
  dv_gcd : forall x y, mem x -> mem y -> returning (gcd P x y) (fun g =>
    [/\ terms x = 0 -> terms g = terms y, terms y = 0 -> terms g = terms x &
        terms x <> 0 -> terms y <> 0 -> 0 < terms g <= minn (terms x) (terms y)]);
  dv_gcd_lcm : forall x y, mem x -> mem y -> terms x <> 0 -> terms y <> 0 ->
    returning (let! g := gcd P x y in let! l := lcm P x y in ret (g, l))
      (fun z => terms z.1 + terms z.2 = terms x + terms y);
  dv_monic : forall x, mem x -> terms x <> 0 ->
    holds (let! z := associate_repr P x in let! o := poly_leading_coef z in
           if o is Some a then is_one A a else ret false);
  dv_relative_primes : forall x y, mem x -> mem y ->
    holds (agree (relative_primes P x y)
             (let! g := gcd P x y in ret (terms g == 1)));
  dv_invertible : forall x, mem x ->
    returning (invertible P x) (fun b => b = (terms x == 1))
}.
End Laws.
