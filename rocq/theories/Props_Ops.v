(** * Props_Ops.v -- C81: how often the structures call their base.

    MOps.v transcribes the methods once more, with a label ([op]) for every call of a method of
    the base; [w k = Done (a, t)] says that the call returns [a] after the calls [t] of the base.
    OpsSpec.v says what is claimed about it: [records w m] (without the labels [w] is the method
    [m] of the other files, with the same results, panics and loops), [makes w Q] (whenever [w]
    returns [a] after the calls [t], [Q a t] holds), and the counters [muls], [adds], [negs],
    [invs], [tests], [consts], [squares], [doubles], [subs], [divs]; [size t] is the number of
    all calls. An inverse, a field division and try_div are all labelled [Inv], rem and quo_rem
    [Div], is_zero and equals [Test]. *)

From Coq Require Import ZArith.
From mathcomp Require Import all_ssreflect.
From Verif Require Import Rust Traits MInts MConstr MOps OpsSpec.
From Verif Require Import POps POps6 Refuted.

(** ** C81 *)
(** Vectors: one call of the base for every entry, and no others. *)
Theorem C81_vectors : forall (cfg : Cfg) (E : Type) (n : nat) (A : RingAlg E) (v u : seq E),
  let V := VectorRing cfg n A in
  ((records (w_vector2 n Mul (mul A) v u) (mul V v u) /\
    records (w_vector2 n Add (add A) v u) (add V v u)) /\
   (records (w_vector2 n Sub (sub A) v u) (sub V v u) /\
    records (w_vector1 n Neg (neg A) v) (neg V v))) /\
  forall o f g,
    makes (w_vector1 n o f v) (fun _ t => forall p : pred op, count p t = n * p o) /\
    makes (w_vector2 n o g v u) (fun _ t => forall p : pred op, count p t = n * p o).
Proof.
exact (fun cfg E n A v u => conj
  (conj (conj (vector2_rec n Mul (mul A) v u) (vector2_rec n Add (add A) v u))
        (conj (vector2_rec n Sub (sub A) v u) (vector1_rec n Neg (neg A) v)))
  (fun o f g => conj (@vector1_calls E n o f v) (@vector2_calls E n o g v u))).
Qed.
Print Assumptions C81_vectors.
Example C81_vectors_case :
  w_vector2 3 Mul (mul ZZ) [:: 2; 3; 4]%Z [:: 5; 6; 7]%Z 20 =
    Done ([:: 10; 18; 28]%Z, [:: Mul; Mul; Mul]).
Proof. vm_compute. reflexivity. Qed.

(** Polynomials: |v| |u| products and as many sums for a product. *)
Theorem C81_poly_mul : forall (E : Type) (A : AbelianAlg E) (S : Semigroup E) (v u : seq E),
  records (w_poly_mul A S v u) (poly_mul A S v u) /\
  makes (w_poly_mul A S v u) (fun _ t =>
    [/\ muls t = size v * size u, adds t = size v * size u &
        size t <= 2 * (size v * size u) + 1]).
Proof. exact (fun E A S v u => conj (poly_mul_rec A S v u) (@poly_mul_calls E A S v u)). Qed.
Print Assumptions C81_poly_mul.
Example C81_poly_mul_case :
  w_poly_mul ZZ ZZ [:: 1; 2]%Z [:: 3; 4; 5]%Z 20 =
    Done ([:: 3; 10; 13; 10]%Z,
      [:: Const; Mul; Add; Mul; Add; Mul; Add; Mul; Add; Mul; Add; Mul; Add]).
Proof. vm_compute. reflexivity. Qed.
(** Sums: as many as the shorter one has coefficients. *)
Theorem C81_poly_add : forall (E : Type) (A : AbelianAlg E) (v u : seq E),
  (records (w_poly_add A v u) (poly_add A v u) /\ records (w_poly_neg A v) (poly_neg A v)) /\
  makes (w_poly_add A v u) (fun _ t =>
    adds t = minn (size v) (size u) /\ size t <= 3 * minn (size v) (size u)) /\
  makes (w_poly_neg A v) (fun _ t => negs t = size v /\ size t = size v).
Proof.
exact (fun E A v u => conj (conj (poly_add_rec A v u) (poly_neg_rec A v))
  (conj (@poly_add_calls E A v u) (@poly_neg_calls E A v))).
Qed.
Print Assumptions C81_poly_add.
Example C81_poly_add_case :
  w_poly_add ZZ [:: 1; 2; 3]%Z [:: 3; 4; -3]%Z 20 =
    Done ([:: 4; 6]%Z, [:: Add; Test; Const; Add; Test; Const; Add; Test]) /\
  w_poly_add ZZ [:: 1; 2; 3]%Z [:: 3]%Z 20 = Done ([:: 4; 2; 3]%Z, [:: Add]) /\
  w_poly_neg ZZ [:: 1; 2]%Z 20 = Done ([:: -1; -2]%Z, [:: Neg; Neg]).
Proof. vm_compute. repeat split; reflexivity. Qed.
(** Division by [u] with a quotient of [d] coefficients: [d] divisions of coefficients and
    d (|u| - 1) products and sums. *)
Theorem C81_poly_quo_rem : forall (E : Type) (A : FieldAlg E) (v u : seq E),
  records (w_poly_quo_rem A v u) (poly_quo_rem A v u) /\
  makes (w_poly_quo_rem A v u) (fun _ t =>
    if size v < size u then t = [::] else
    let d := size v - size u + 1 in
    [/\ invs t = d, negs t = d, muls t = d * (size u - 1), adds t = d * (size u - 1) &
        size t <= 2 * d * size u + size u + 1]).
Proof. exact (fun E A v u => conj (poly_quo_rem_rec A v u) (@poly_quo_rem_calls E A v u)). Qed.
Print Assumptions C81_poly_quo_rem.
Example C81_poly_quo_rem_case : exists t,
  w_poly_quo_rem (QuotientField debug64 ZZ 7%Z) [:: 1; 2; 3; 4]%Z [:: 1; 1; 2]%Z 20 =
    Done (([:: 4; 2]%Z, [:: 4; 3]%Z), t) /\
  [/\ invs t = 2, negs t = 2, muls t = 4, adds t = 4 & tests t = 2].
Proof. eexists. vm_compute. repeat split; reflexivity. Qed.
Theorem C81_poly_try_div : forall (E : Type) (A : IDomAlg E) (v u : seq E),
  records (w_poly_try_div A v u) (poly_try_div A v u) /\
  makes (w_poly_try_div A v u) (fun r t =>
    if size v < size u then t = [::] else
    let d := size v - size u + 1 in
    [/\ invs t <= d, negs t <= d, muls t <= d * (size u - 1), adds t <= d * (size u - 1) &
        size t <= 2 * d * size u + size u + 1] /\
    (isSome r -> [/\ invs t = d, muls t = d * (size u - 1) & adds t = d * (size u - 1)])).
Proof. exact (fun E A v u => conj (poly_try_div_rec A v u) (@poly_try_div_calls E A v u)). Qed.
Print Assumptions C81_poly_try_div.
Example C81_poly_try_div_case :
  (exists t, w_poly_try_div ZZ [:: 2; 5; 3]%Z [:: 2; 3]%Z 20 = Done (Some [:: 1; 1]%Z, t) /\
    [/\ invs t = 2, muls t = 2, adds t = 2 & tests t = 2]) /\
  w_poly_try_div ZZ [:: 2; 5; 3]%Z [:: 2; 4]%Z 20 = Done (None, [:: Const; Test; Inv]).
Proof. split; [eexists|]; vm_compute; repeat split; reflexivity. Qed.
(** The greatest common divisor of two polynomials: at most |v| |u| products of coefficients,
    whatever the number of divisions; and at most min(|v|, |u|) proper divisions (the ones that
    ask for a zero of the base). *)
Theorem C81_poly_gcd : forall (E : Type) (A : FieldAlg E) (v u : seq E),
  records (w_poly_gcd A v u) (gcd (PolyEucl A) v u) /\
  makes (w_poly_gcd A v u) (fun _ t =>
    [/\ muls t <= size v * size u, adds t <= size v * size u, invs t <= size v + size u,
        negs t <= size v + size u &
        tests t <= size v * size u /\ consts t <= minn (size v) (size u)]).
Proof. exact (fun E A v u => conj (poly_gcd_rec A v u) (@poly_gcd_calls E A v u)). Qed.
Print Assumptions C81_poly_gcd.
Example C81_poly_gcd_case : exists t,
  w_poly_gcd (QuotientField debug64 ZZ 7%Z) [:: 1; 2; 3; 1]%Z [:: 1; 1; 2]%Z 20 =
    Done ([:: 4]%Z, t) /\ [/\ muls t = 6, invs t = 6 & consts t = 3].
Proof. eexists. vm_compute. repeat split; reflexivity. Qed.

(** Matrices of size [n]. *)
Theorem C81_matrix_mul : forall (E : Type) (A : FieldAlg E) (n : nat) (v u : seq E),
  records (w_matrix_mul A n v u) (matrix_mul A n v u) /\
  makes (w_matrix_mul A n v u) (fun _ t =>
    [/\ muls t = n ^ 3, adds t = n ^ 3, consts t = n ^ 2 & size t = 2 * n ^ 3 + n ^ 2]).
Proof. exact (fun E A n v u => conj (matrix_mul_rec A n v u) (@matrix_mul_calls E A n v u)). Qed.
Print Assumptions C81_matrix_mul.
Example C81_matrix_mul_case : exists t,
  w_matrix_mul (QuotientField debug64 ZZ 7%Z) 2 [:: 1; 2; 3; 1]%Z [:: 1; 0; 1; 2]%Z 20 =
    Done ([:: 3; 4; 4; 2]%Z, t) /\ [/\ muls t = 8, adds t = 8 & consts t = 4].
Proof. eexists. vm_compute. repeat split; reflexivity. Qed.
(** The determinant: about n^3 / 2 products and n inverses. *)
Theorem C81_determinant : forall (E : Type) (A : FieldAlg E) (n : nat) (v : seq E),
  (records (w_determinant A n v) (determinant A n v) /\
   records (w_matrix_invertible A n v) (matrix_invertible A n v)) /\
  makes (w_determinant A n v) (fun _ t =>
    [/\ 2 * muls t <= n ^ 3 + n ^ 2 + 2 * n, 2 * adds t <= n ^ 2 * (n - 1), invs t <= n,
        2 * negs t <= n * (n - 1) & tests t <= n ^ 2]) /\
  makes (w_matrix_invertible A n v) (fun _ t =>
    [/\ 2 * muls t <= n ^ 3 + n ^ 2 + 2 * n, 2 * adds t <= n ^ 2 * (n - 1), invs t <= n,
        2 * negs t <= n * (n - 1) & tests t <= n ^ 2 + 1]).
Proof.
exact (fun E A n v => conj (conj (determinant_rec A n v) (matrix_invertible_rec A n v))
  (conj (@determinant_calls E A n v) (@matrix_invertible_calls E A n v))).
Qed.
Print Assumptions C81_determinant.
(** The bounds on products, sums, inverses and negatives are reached. *)
Example C81_determinant_case : exists t,
  w_determinant (QuotientField debug64 ZZ 7%Z) 3 [:: 1; 1; 1; 1; 2; 2; 1; 2; 3]%Z 20 =
    Done (1%Z, t) /\ [/\ muls t = 21, adds t = 9, invs t = 3, negs t = 3 & tests t = 6].
Proof. eexists. vm_compute. repeat split; reflexivity. Qed.
(** The inverse: 2 n^3 products, in debug builds n^2 tests more. *)
Theorem C81_try_inv : forall (cfg : Cfg) (E : Type) (A : FieldAlg E) (n : nat) (v : seq E),
  records (w_matrix_try_inv cfg A n v) (matrix_try_inv cfg A n v) /\
  makes (w_matrix_try_inv cfg A n v) (fun r t =>
    [/\ muls t <= 2 * n ^ 3, adds t <= 2 * n ^ 2 * (n - 1), negs t <= n * (n - 1),
        if isSome r then invs t = n else invs t <= n &
        2 * tests t + n <= (if debug_assertions cfg then 5 else 3) * n ^ 2]).
Proof.
exact (fun cfg E A n v => conj (matrix_try_inv_rec cfg A n v) (@matrix_try_inv_calls E cfg A n v)).
Qed.
Print Assumptions C81_try_inv.
Example C81_try_inv_case :
  (exists t, w_matrix_try_inv debug64 (QuotientField debug64 ZZ 7%Z) 2 [:: 1; 2; 3; 1]%Z 20 =
    Done (Some [:: 4; 6; 2; 4]%Z, t) /\
    [/\ muls t = 16, adds t = 8, negs t = 2, invs t = 2 & tests t = 8]) /\
  (exists t, w_matrix_try_inv release64 (QuotientField release64 ZZ 7%Z) 2 [:: 1; 2; 3; 1]%Z 20 =
    Done (Some [:: 4; 6; 2; 4]%Z, t) /\ tests t = 4) /\
  (exists t, w_matrix_try_inv debug64 (QuotientField debug64 ZZ 7%Z) 2 [:: 1; 2; 2; 4]%Z 20 =
    Done (None, t) /\ invs t = 1).
Proof. split; [|split]; eexists; vm_compute; repeat split; reflexivity. Qed.

(** The default methods: multiples and powers double once for every binary digit of the number
    and add once for every one among the digits. *)
Theorem C81_times : forall (E : Type) (z : M E) (opa : E -> E -> M E) (dbl : E -> M E)
    (num : Z) (x : E),
  records (w_ntimes z opa dbl num x) (default_ntimes z opa dbl num x) /\
  makes (w_ntimes z opa dbl num x) (fun _ t =>
    [/\ doubles t = bits num, adds t = ones num, consts t = 1 &
        size t = bits num + ones num + 1]).
Proof. exact (fun E z f g num x => conj (ntimes_rec z f g num x) (@ntimes_calls E z f g num x)). Qed.
Print Assumptions C81_times.
Example C81_times_case :
  w_ntimes (zero ZZ) (add_assign ZZ) (double ZZ) 11%Z 5%Z 20 =
    Done (55%Z, [:: Const; Add; Double; Add; Double; Double; Add; Double]) /\
  bits 11 = 4 /\ ones 11 = 3.
Proof. vm_compute. repeat split; reflexivity. Qed.
Theorem C81_power : forall (cfg : Cfg) (E : Type) (on : M E) (opa : E -> E -> M E)
    (sq iv : E -> M E) (num : Z) (x : E), (- num < 2 ^ (ptr_bits cfg - 1))%Z ->
  records (w_gpower cfg on opa sq iv num x) (default_gpower cfg on opa sq iv num x) /\
  makes (w_gpower cfg on opa sq iv num x) (fun _ t =>
    [/\ squares t = bits (Z.abs num), muls t = ones (Z.abs num),
        invs t = (if (num <? 0)%Z then 1 else 0) &
        size t = bits (Z.abs num) + ones (Z.abs num) + (if (num <? 0)%Z then 1 else 0) + 1]).
Proof.
exact (fun cfg E on f g i num x h =>
  conj (gpower_rec cfg on f g i num x) (@gpower_calls E cfg on f g i num x h)).
Qed.
Print Assumptions C81_power.
Example C81_power_case :
  w_gpower debug64 (one BB) (mul_assign BB) (square BB) (fun x => ret x) (-5)%Z true 20 =
    Done (true, [:: Inv; Const; Mul; Square; Square; Mul; Square]) /\
  (- (-5) < 2 ^ (ptr_bits debug64 - 1))%Z.
Proof. split; vm_compute; reflexivity. Qed.
(** Euclid's algorithm: the numbers of products, differences and tests are those of the
    divisions; C52 bounds the number of iterations that the integers and the polynomials need, and
    there are fewer divisions than iterations allowed. *)
Theorem C81_gcd : forall (E : Type) (isz : E -> M bool) (rm : E -> E -> M E) (x y : E),
  records (w_gcd isz rm x y) (default_gcd isz rm x y) /\
  forall k g t, w_gcd isz rm x y k = Done (g, t) ->
    [/\ divs t < k, tests t = divs t + 1 & size t = 2 * divs t + 1].
Proof.
exact (fun E isz rm x y => conj (gcd_rec isz rm x y) (fun k g t => @gcd_calls E isz rm x y k g t)).
Qed.
Print Assumptions C81_gcd.
Example C81_gcd_case :
  w_gcd (is_zero ZZ) (rem ZZ) 21%Z 13%Z 20 =
    Done (1%Z, [:: Test; Div; Test; Div; Test; Div; Test; Div; Test; Div; Test; Div; Test]).
Proof. vm_compute. reflexivity. Qed.
Theorem C81_extended_gcd : forall (E : Type) (isz : E -> M bool) (on ze : M E)
    (ml sb : E -> E -> M E) (qr : E -> E -> M (E * E)) (x y : E),
  records (w_extended_gcd isz on ze ml sb qr x y) (default_extended_gcd isz on ze ml sb qr x y) /\
  forall k g t, w_extended_gcd isz on ze ml sb qr x y k = Done (g, t) ->
    [/\ divs t < k, tests t = divs t + 1, muls t = divs t, subs t = divs t &
        size t = 4 * divs t + 3].
Proof.
exact (fun E isz on ze ml sb qr x y => conj (extended_gcd_rec isz on ze ml sb qr x y)
  (fun k g t => @extended_gcd_calls E isz on ze ml sb qr x y k g t)).
Qed.
Print Assumptions C81_extended_gcd.
Example C81_extended_gcd_case : exists t,
  w_extended_gcd (is_zero ZZ) (one ZZ) (zero ZZ) (mul ZZ) (sub ZZ) (quo_rem ZZ) 21%Z 13%Z 20 =
    Done ((1, 5, -8)%Z, t) /\ [/\ divs t = 6, muls t = 6 & tests t = 7].
Proof. eexists. vm_compute. repeat split; reflexivity. Qed.
