# Design of the abstalg-rs model and proofs

The Rust crate in /repo is modelled in Gallina (Coq 8.16.1, mathcomp 1.x, Flocq)
and its behaviour is proved against independent mathematical specifications.
Everything lives in `rocq/theories` (logical name `Verif`).

## 1. Trusted base

* The Coq kernel (and `coqchk`, run by the gate).
* Axioms: what `Print Assumptions` prints under each theorem of the
  `Props_*.v` files.  Expected: *Closed under the global context* for
  everything except the float theorems (listed in section 5), which use Flocq and hence the
  axioms of the standard library's classical reals
  (`ClassicalDedekindReals.sig_forall_dec`, `sig_not_dec`,
  `FunctionalExtensionality.functional_extensionality_dep`,
  `Classical_Prop.classic`).  Section 5 records what was actually printed.
* The reading of the Rust text: each definition cites the file and lines it
  transcribes.  The code was not run.
* The crate `num`: `BigInt`/`BigUint` are taken to be exact integers/naturals
  (`Z`/`N`), `Integer::div_rem` is truncated division, `checked_*` return `None`
  exactly when the result does not fit, `Ratio::new_raw` is a plain pair.
* Rust semantics as written in `Rust.v`: panics, overflow checks, `Vec`
  indexing, evaluation order, `&mut` as "returns the new value" (what is left there after a
  panic is modelled in `MPlace.v` only).

### Modelled

Every method of every `impl` in `src/*.rs` (traits.rs, integers.rs, naturals.rs,
checked_ints.rs, checked_uints.rs, two_element_algebra.rs, approx_floats.rs,
quotient_ring.rs, quotient_field.rs, reduced_fractions.rs,
divisibility_order.rs, vector_algebra.rs, polynomial_algebra.rs, matrix_ring.rs,
permutations.rs, additive_group.rs, multiplicative_group.rs), including the
default methods of the traits, the blanket impls for fields, the constructors and
accessors, `debug_assert!`, overflow behaviour of unchecked operators in both
build profiles, and the width of `isize`.

### Not modelled

* Derives (`Clone`, `Debug`), `PhantomData`, tests, examples and docs.
* Memory: allocation failure, capacity, stack overflow of the recursive
  `extended_gcd`, `Vec` lengths above `isize::MAX`.  Running time only as far as C52
  and C81: numbers of loop iterations, recursive calls and calls of the base, not of
  machine instructions.
* `From<isize>` for floats: no primitive float type implements it, so only the
  `float_fallback` variants (`f32`, `f64`) can be instantiated.  Both variants
  have the same method bodies up to the conversion of `num`.
* Rust's unspecified choice in `f64::min/max` when both arguments compare equal
  (0.0 and -0.0): the model takes an arbitrary oracle.
* The casts of permutations.rs: `u32 as usize` on targets with less than 32 bits, and
  `i as u32` for vectors of more than 2^32 entries (which are no members). C78 shows that the
  casts change nothing otherwise.
* README.md lists the special linear group; there is no such code in `src`.

## 2. The model

`Rust.v`: a call is `M A := nat -> outcome A`, where the number bounds the
iterations of each `while` loop / recursion, and the outcome is `Done v`,
`Panicked` or `Unfinished`.  `returns m v`, `panics m`, `diverges m` quantify
over all sufficiently large bounds, so the bound is not part of the meaning.
`ensures P m Q` is: *m terminates and returns a value satisfying Q, or P holds and
m panics*.  With `P := False` this is total correctness, with `P := True` it is
"never a wrong answer and never an endless loop".

`Traits.v`: one record of methods per trait, bundles for `A: Trait` bounds,
default methods as functions of the methods they call.
`MInts.v`, `MConstr.v`, `MFloats.v`: the impls.
`Tests.v`: every `#[test]` function of the crate, transcribed and evaluated in the
model in a debug and in a release build; all pass.  (The test of GL(2,3) counts 24
matrices of determinant one; the count does not notice the wrong signs of C27.)
`MIndex.v`: matrices, polynomials and permutations once more, with indices in `usize` instead of
natural numbers and with the casts of `u32`; C78 proves that nothing changes, so all other
files use `MConstr.v`.
`MPlace.v`: the in-place methods once more, with what their `&mut` argument holds after a panic
(C80).
`MOps.v`: vectors, polynomials, matrices and the default methods once more, with a label for
every call of a method of the base; C81 proves that without the labels they are the methods of
`Traits.v` and `MConstr.v`, and counts the labels.
`RustFacts.v`: lemmas that characterise the primitives of `Rust.v` in the words of the
Rust reference (wrapping and checked arithmetic, indexing, `resize`, `swap`, `for`,
and `while` as an inductive relation). They check the trusted semantics; of the proofs only PLoose.v uses them, for a panic in a loop, and POps3.v, for the length after `resize`.

## 3. The specification (`Spec.v`)

The contract of each trait is a record stating that the methods implement a
mathematical structure `V` taken from mathcomp, through a representation
relation `rep : E -> V -> Prop` ("the Rust value x is a member and denotes v").
The specification mentions only the API and mathcomp's algebra:

* `domain_spec`: members are contained; `equals` decides equality of what is
  denoted;
* `monoid_spec` (for an operation and neutral element): `mul`, `mul_assign`,
  `square`, `one`, `is_one`, `try_inv` (Some: two-sided inverse; None: there is no
  inverse), `invertible`;
* `cmonoid_spec`, `abelian_spec` (`zmodType`), `ring_spec`;
* `idom_spec` (`idomainType`): exact division, divisibility, associates;
* `eucl_spec`: Euclidean division with respect to a mathematical Euclidean
  structure, gcd/lcm/extended gcd specified by divisibility only;
* `field_spec` (`fieldType`): inv, div, power;
* `group_spec`: inverse and integer powers;
* `order_spec`, `lattice_spec`, `bounded_spec`, `boolean_spec`.

All are parameterised by the proposition `p` "a panic is acceptable".  `p = False`
for ZZ, BB, GF2, ... and what is built from them; `p = True` for structures over
checked integers.  Each construction theorem has the form "if the base satisfies
its contract then the construction satisfies its contract over the constructed
mathematical structure", so towers compose (C24).  API-level laws
(associativity, distributivity, ... as statements about calls of `mul`, `add`,
`equals`) are derived once for all structures satisfying the contract
(`Laws.v`).

Mathematical targets: Integers/CheckedInts: `Z`; Naturals/CheckedUints: `N`/`Z`;
BB: `'F_2`; QuotientRing/QuotientField: the quotient of the base by the ideal
(m), built in `Quotient.v` with its projection, a surjective ring morphism whose
kernel is (m); ReducedFractions: `{fraction R}`; PolynomialAlgebra: `{poly R}`;
MatrixRing: `'M[F]_n` with `\det`, `invmx`; VectorAlgebra: `{ffun 'I_n -> V}`;
Permutations: `{perm 'I_n}`; floats: Flocq's `binary_float` and `R`.

## 4. Properties

"Proof" names the method; `_refuted` marks a claim that is false of the code, for
which the strongest true variant is proved as well.

| id | modelled by | proof |
|----|-------------|-------|
| C01 | `ZZ`, `ZZ_lattice` | `idom_spec False ZZ` over Z, order spec; API laws from `Laws.v` |
| C02 | `integers_quo_rem`, `integers_reduced` | case analysis on signs, uniqueness of Euclidean division |
| C03 | `default_gcd`, `field_gcd` | loop invariant (common divisors are preserved), norm as termination measure, for every `eucl_spec` |
| C04 | `default_extended_gcd` | induction on the norm of the second argument |
| C05 | `default_lcm`, `field_lcm` | from C03/C04 by Bezout |
| C06 | `default_relative_primes` | from C03/C04 |
| C07 | `CheckedInts cfg w` | `eucl_spec True` over Z for every cfg and w |
| C08 | `checked_ints_*` | exact panic characterisations; unchecked operators stay in range |
| C09 | gcd, extended_gcd of `CheckedInts` | induction with bounds on the Bezout coefficients; the panic on (MIN,-1) is a `_refuted` of "panics only if the result is not representable" |
| C10 | `CheckedUints w` | refinement of naturals; the last sentence is false (`_refuted`: 200 x 1 in u8 panics because of the superfluous last doubling) |
| C11 | `power_loop`, `default_ntimes`, `default_gpower` | loop invariant res * elem^num constant; isize::MIN is `_refuted` (panics in debug, returns the neutral element in release) |
| C12 | `BB`, `BB_boolean` | case analysis plus parity |
| C13 | `QuotientRing` | congruence of the remainder; unit and zero modulus `_refuted` |
| C14 | `quotient_ring_try_inv` | Bezout |
| C15 | `QuotientField` | `field_spec` over the quotient field |
| C16 | `quotient_field_new` | `_refuted`: the check is vacuous (new accepts 1, 0 and 6 over the integers) |
| C17 | `QuotientField cfg (CheckedInts cfg w) m` | C07/C15 plus no-panic from bounds (C09) |
| C18 | `ReducedFractions` | `field_spec` over `{fraction R}` with canonical representatives |
| C19 | `ReducedFractions cfg (CheckedInts cfg w)` | C18 with p = True |
| C20 | `PolyRing`, `PolyAbelian` | coefficientwise invariants of the loops |
| C21 | `poly_quo_rem` | loop invariant of long division |
| C22 | `poly_try_div`, associates | loop invariant, integral domain degree argument |
| C23 | `PolyRing` over Z/6, Z/4 | `_refuted` |
| C24 | composition of contracts (`TowerSpec.v`) | instances of the construction theorems |
| C25 | `MatrixRing` | loops as big sums |
| C26 | `matrix_try_inv`, `matrix_invertible` | Gauss-Jordan invariant (row operations are invertible matrices) |
| C27 | `determinant` | `_refuted` (no sign change on row swap); proved: equal up to sign, exact without swaps and in characteristic two, zero iff singular; the sign is determined from the minors of the matrix (`DetSpec.v`, `C27_sign`), so it is known exactly when the result is right (`C27_when_right`) |
| C28 | `Permutations` | refinement of `{perm 'I_n}` |
| C29 | `perm_contains` | `_refuted` (panics on an entry >= n); exact for entries < n or wrong length |
| C30 | `VectorRing` | pointwise refinement |
| C31 | `VectorLattice`, `VectorBoolean` | pointwise refinement |
| C32 | `DivisibilityOrder`, `DivisibilityLattice` | gcd/lcm universal properties, distributivity by Bezout |
| C33 | number lattices | order facts |
| C34 | `AdditiveGroup`, `MultiplicativeGroup` | `group_spec` |
| C35 | associate methods | part of `idom_spec` |
| C36 | `field_alg` | `eucl_spec` from `field_spec` |
| C37 | `default_fpower` | `_refuted` for zero base (power(0,0)=0, power(-1,0)=0); proved for non-zero base |
| C38 | `MFloats.v` | `FloatSpec.v`, `PFloat*.v`: Flocq correctness theorems; `times` returning infinity is `_refuted`; the errors of `times` and `power` are bounded in C74. `C38_formats_partial` says which numbers F32 and F64 contain |
| C39 | `MFloats.v` | comparison of real values (`FloatSpec.v`, `PFloat2.v`) |
| C40 | all structures | part of every contract (`CallSpec.v`, `PAssign.v`; `PAssignF.v` for floats) |
| C41 | `NN`, `NN_lattice` | direct |
| C42 | `contains` of every structure (`MemberSpec.v`, `PMember*.v`) | exactness theorems where true; `_refuted` for quotients of polynomial rings, 1/0 and others |
| C43 | all structures | part of every contract |
| C44 | cfg as a parameter | simulation of two instances that differ in cfg (`ProfSpec.v`, `PGSim.v`, `PProf*.v`), except isize::MIN; over floats `FloatProfSpec.v` |
| C45 | `QuotientRing`, `QuotientField` | `ArgSpec.v`, `PArgs.v`: arguments range over the base ring, results over the members |
| C46 | `QuotientField` by a reducible element | Bezout; `_refuted` for try_inv and invertible, which panic or say true on zero divisors |
| C47 | `ReducedFractions`, `reduce` | any numerator and non-zero denominator as argument, reduced results |
| C48 | `contains` of the finite structures | `CountSpec.v`, `PCount*.v`: lists without repetition of all members; Euler's function and the order of GL from mathcomp |
| C49 | `Group::power` | Lagrange's theorem of mathcomp on the group of the denoted elements |
| C50 | `QuotientField` over `PolyEucl` over `QuotientField` of `ZZ` | FiniteSpec.v states what a copy of a field is; the modulus is the minimal polynomial of a generator of the multiplicative group (mathcomp `finfield`) |
| C51 | `VectorBoolean n BB_boolean` | FiniteSpec.v; the coordinates are the atoms below an element |
| C52 | `while_loop`, `default_gpower`, `default_ntimes`, `default_gcd`, `default_extended_gcd`, `poly_quo_rem`, `QuotientField` | CostSpec.v: the fuel of a call (Rust.v) bounds the number of tests of each loop; `within` says that a given fuel suffices |
| C53 | `fractions_reduce`, `fractions_mul`, `fractions_add`, `fractions_neg`, `fractions_ztimes`, `fractions_inv` over `CheckedInts` | RatSpec.v: `lowest`, `small`; `checked` from NumSpec.v gives the exact condition for a panic |
| C54 | `floats_add`, `floats_sub`, `floats_neg`, `floats_mul`, `floats_div`, `floats_inv` | FloatLaw.v: `float_laws` in terms of the real values of the arguments and results |
| C55 | `vector_diagonal`, all `vector_*`, `matrix_transpose`, `MatrixRing` | DiagSpec.v: `image`, `hom_*` (exact correspondence of outcomes), `transposed`, `anti_automorphism` |
| C56 | `default_extended_gcd`, `ZZ`, `CheckedInts`, `PolyEucl` | BezoutSpec.v: `small_bezout`, `short_bezout` (inequalities between the arguments and the result) |
| C57 | `IDomAlg`, `EuclAlg`, `FieldAlg` bundles of all structures, `quotient_ring_new`, `quotient_field_new`, `fractions_new` | PanicSpec.v: `panics_if` (is_zero answers true / false), `idom_panics`, `eucl_panics`, `field_panics` |
| C58 | `IDomAlg`, `EuclAlg` bundles of all structures | GcdLaw.v: `divisibility_laws`, `gcd_laws` (only calls of methods; `alike` asks `associates`) |
| C59 | `AbelianAlg`, `RingAlg`, `GroupAlg`, `FieldAlg` bundles of all structures | TimesLaw.v: `additive_laws`, `int_laws`, `power_laws`, `field_power_laws` (only calls of methods) |
| C60 | `poly_degree`, `poly_leading_coef`, `PolyIDom`, `PolyEucl` | DegreeSpec.v: `degree_laws`, `division_degrees` (calls of the methods; `terms` is the degree plus one) |
| C61 | `QuotientField`, `PolyEucl`, `BB` towers (`finite_field`, TowerSpec.v) | FFSpec.v: `characteristic_laws`, `generates`, `square_laws` (calls of the methods, natural exponents) |
| C62 | all structures of the model | HaltSpec.v: `halts` (returns or panics) in the records of ProfSpec.v; towers `prof_...`; any base with `sane_constants`, and a base without them for which `extended_gcd` diverges (`C62_sane_needed`) |
| C63 | `ApproxFloats` under `VectorRing`, `PolyEucl`, `MatrixRing`, `VectorLattice` | HaltSpec.v: `halts finite` in the records of ProfSpec.v; FloatAlgSpec.v: `small_num`, `shows_all`; failures by computation; PFloatAlg2.v: the towers of FloatProfSpec.v by induction |
| C64 | `CheckedInts`, `ZZ`, `CheckedUints` and all structures over them | ProfSpec.v: `follows` (what the first returns, the second returns) in records of all methods; WideSpec.v: `over_...` (the towers), `at_least` |
| C65 | `determinant`, `matrix_transpose`, `MatrixRing` | DetLaw.v: `inverse_laws`, `determinant_laws`, `alike` |
| C66 | `QuotientRing`, `QuotientField`, `ReducedFractions`, `PolyRing`, `BB`, maps of HomLaw.v | HomLaw.v: `ring_map`, `field_map`, `one_to_one`, `undoes` |
| C67 | `VectorRing`, `PolyRing` over `CheckedInts` | OverSpec.v: `convolution`, `poly_checked`, `vector_checked` |
| C68 | `QuotientRing`, `QuotientField`, `DivisibilityOrder`, `DivisibilityLattice` over `CheckedInts` | ResSpec.v: `is_residue`, `inverse_of`, `finds_inverse`; `checked` from NumSpec.v; bounds of the Bezout coefficients (C56) |
| C69 | `QuotientRing`, `default_*` of EuclideanDomain | ChinLaw.v: `chinese`, `same_residue`, `chinese_laws`; `Z.modulo` and `Z.gcd` for the integers |
| C70 | `PolyRing`, `PolyIDom`, `PolyEucl`, `QuotientField` | EvalLaw.v: `value` (Horner), `is_root`, `linear`, `root_laws`, `remainder_law`, `adjoin_laws` |
| C71 | all constructions | ParSpec.v: `alike`, `..._par` records, `pair_par`, `vec_par` |
| C72 | `ApproxFloats`, `ApproxFloats_lattice` | ParSpec.v: `same_float`, `..._par` |
| C73 | `QuotientRing`, `QuotientField`, `GF2`, `BB` | ParSpec.v: `same_residue`, `bit_residue`; ModSpec.v: `residue_ring`, `residue_field` |
| C74 | `ApproxFloats`, `MatrixRing`, `PolyRing` | SumSpec.v: `row_column`, `convolution` (the products in an entry); FloatErrSpec.v: `sum_error`, `after_roundings`, `exact_sum`. Both products are shown to add the same products (PSums.v, for any base). The loops of `times` and `power` square or double once more than needed: `power(1, 10^160)` panics |
| C75 | `VectorRing`, `VectorLattice`, `MatrixRing`, `PolyRing` over any base | EntrySpec.v: `entrywise`, `sum_of_products`; SumSpec.v for the order of the products. PEntry.v: one direction by the invariants of PSums.v, the other one because calls are deterministic |
| C76 | `PolyRing`, `PolyIDom`, `PolyEucl` on vectors with zeros at the end | LooseSpec.v: `padded`, `loose`, `loose_ring`, `loose_questions`. PLoose.v: invariants of the division and gcd loops for vectors with zeros at the end, panics by the relation of RustFacts.v |
| C77 | `Permutations` on any vector | TransSpec.v: `any_vectors`, `transformations`. PTrans.v: the loops from any state; powers by the lemma on square and multiply of PDefaults.v for the monoid of maps |
| C78 | MIndex.v: the methods of `MatrixRing`, `PolynomialAlgebra` and `Permutations` with `usize` arithmetic and casts | IndexSpec.v: equal outcomes for every bound. PIndex.v: the ranges of the loops bound the indices; the result of `find_row` is in range |
| C79 | MConstr.v: `determinant`, `matrix_try_inv`, `matrix_invertible`, `ntimes`, `ztimes` and `gpower` of vectors and matrices | LenSpec.v. PLen.v: the run on the longer vector is followed in lockstep with that on its first entries; on the shorter one the last column is never passed |
| C80 | MPlace.v: the in-place methods with the contents of their `&mut` argument (`Held`, `Broken`, `Pending`) | PlaceSpec.v: `tracks`, `untouched`, `partly`, `keeps`. PPlace.v: forgetting the contents gives the methods of the other files; induction on the entries. PPlaceF.v: floats. PPlace2.v: matrices of members |
| C81 | MOps.v: the methods with a label for every call of the base | OpsSpec.v: `records`, `makes`, counters. POps.v: forgetting the labels gives the methods of the other files. POps2.v: counts of loops. POps3.v, POps4.v: polynomials, matrices, generic in the set of labels counted; gcd of polynomials by a potential. POps5.v: default methods, sums. POps6.v: the bounds in closed form |
| C82 | MConstr.v: `determinant`, `matrix_try_inv`, `matrix_mul`, `ReducedFractions`; MInts.v: `CheckedInts` | FitSpec.v: `minors_within`, `frac_entries`. PMinor.v: row operations keep the minors up to the product of the pivots, so every entry met is a quotient of minors. PFit.v: the eliminations where only arithmetic on good elements is known not to panic. PFitInt.v: minors of [N \| 1], the Leibniz bound, fractions bounded by M |
| C83 | MFloats.v: `ApproxFloats`, `ApproxFloats_lattice` | ExcSpec.v: `exceptional_arithmetic`, `exceptional_order`. PExc.v: case analysis on the kinds of floats; the products of one and zeros for negative powers of infinities |
| C84 | MConstr.v: `determinant`, `mul_row`, `add_rows`, `swap_rows`, `find_row`; MFloats.v: `ApproxFloats` | LuSpec.v: `elimination` (the steps in rounded real arithmetic), the factors `lower` and `upper`, the bounds `factor_error` and `product_error`. PLu2.v: the code performs an elimination of the matrix with its rows permuted. PLu.v: induction over the steps for the two bounds; back substitution for the singular case |
| C85 | MConstr.v: `poly_quo_rem`; MFloats.v: `ApproxFloats` | DivErrSpec.v: `near_division`. PDivErr.v: loop invariant with the number of roundings of every coefficient so far (`carries`) |
| C86 | MConstr.v: `matrix_try_inv`, `inv_clear_others`, `mul_row`, `add_rows`, `swap_rows`; MFloats.v: `ApproxFloats` | JordanSpec.v: `jordan`, `undo_all`, `residual_error`. PJordan.v: error analysis of the steps; PJordan2.v: the code performs them |
| C87 | `ApproxFloats` (MFloats.v), `PolyEucl`, `MatrixRing`, `determinant` (MConstr.v); `ExactFloats` (ExactSpec.v, not in the crate), spec ExactQSpec.v | PExact.v (checks only panic, single operations), PExact2.v (contract over the rationals), PExact3.v (matrices with minors that are powers of two), PExactDiv.v and PExact4.v (division of integer polynomials), PExactRun.v (checks that compute, for the examples), Props_Exact.v |
| C88 | `PolyEucl`, `ReducedFractions`, `QuotientRing`, `QuotientField` (MConstr.v), `CheckedInts` (MInts.v), `ApproxFloats` (MFloats.v), spec IntPolySpec.v, ExactQSpec.v | PIntPoly.v (bounds of each loop, abstract field), PIntPoly2.v (integers in a field), PIntPoly3.v (machine fractions), PIntPoly4.v (floats, through the checked floats of C87), Props_IntPoly.v |
| C89 | all structures (MInts.v, MConstr.v, MFloats.v, Traits.v) with two configurations `Cfg`, spec WidthSpec.v, ProfSpec.v, FloatProfSpec.v | PWidth.v (the relation of PProf*.v between two widths), Props_Width.v |
| C90 | `determinant`, `matrix_invertible`, `matrix_try_inv`, `matrix_mul` over `ReducedFractions` of `CheckedInts` (MConstr.v, MInts.v), spec FitRatSpec.v (`ratio_entries`, `all_dens`), FitSpec.v (`minors_within`), DetSpec.v | PFitRat.v (scales rows by their denominators and uses the bounds of C82 on minors), Props_FitRat.v |
| C91 | MNew.v: the structs with their fields, `new` and the accessors; MConstr.v, MIndex.v (`umul`) | PNew.v, Props_New.v |
| C92 | MConstr.v (`QuotientField`, `PolyEucl`), MFloats.v (`ApproxFloats`); ComplexSpec.v | PComplex.v (symbolic run), PComplex2.v (errors), PComplex3.v, Props_Complex.v |
| C93 | MConstr.v (`QuotientRing`, `QuotientField`, `PolyEucl`); ResidueSpec.v | PResidue.v, Props_Residue.v |
| C94 | MConstr.v (`Permutations`, `MatrixRing`, `determinant`, `VectorRing`, `QuotientRing`, `ReducedFractions`, `PolyEucl`); ReprSpec.v | PRepr.v, PRepr2.v, Props_Repr.v |
| C95 | Traits.v (all records), MConstr.v (`QuotientRing`, `QuotientField`, `PolyEucl`, `AdditiveGroup`, `MultiplicativeGroup`), MInts.v (`BB`, `ZZ`, `CheckedInts`); ParSpec.v, SameSpec.v | PSame.v, PSame2.v, PSame3.v, PSame4.v, PSame5.v, Props_Same.v (examples PSameEx.v) |
| C96 | MFloats.v (`F32`, `F64`, `ApproxFloats`); FloatRange.v | PFloatRange.v, Props_FloatRange.v |
| C97 | MConstr.v (`QuotientRing`, `QuotientField`, `PolyEucl`), MInts.v (`BB`, `ZZ`, `CheckedInts`); TowerSpec.v, IrrSpec.v | PIrr.v, PIrr2.v, Props_Irr.v (example PIrrEx.v) |
| C98 | MConstr.v (`QuotientField`, `PolyEucl`); TowerSpec.v, FFSpec.v | PIrr2.v, Props_Irr.v (example PIrrEx.v) |
| C99 | MConstr.v (`QuotientRing`, `PolyEucl`, `VectorRing`); ParSpec.v, SameSpec.v, ValSpec.v | PVal.v, Props_Val.v (example PValEx.v) |
| C100 | Traits.v, MInts.v (`ZZ`), MConstr.v (`PolyEucl`); FactSpec.v, Quotient.v (`irreducible_elt`) | PFact.v, PFact2.v, Props_Fact.v (example PFactEx.v) |
| C101 | MConstr.v (`QuotientField`, `PolyEucl`), MInts.v (`BB`); FactSpec.v, TowerSpec.v | PWilson.v, Props_Wilson.v (example PWilsonEx.v) |
| C102 | Traits.v (fields); FourierSpec.v | PFourier.v, Props_Fourier.v (example PFourierEx.v) |
| C103 | Traits.v (`MultiplicativeGroup`, `default_gpower`), MConstr.v (`QuotientRing`); ModSpec.v | PRsa.v, Props_Rsa.v (example PRsaEx.v) |
| C104 | MConstr.v (`PolyEucl`); client programs SqfSpec.v | PSqf.v, PSqf2.v, Props_Sqf.v (examples PSqfEx.v) |
| C105 | Traits.v (`extended_gcd`, `gcd`, `quo`, `divisible`); client programs DiophSpec.v | PDioph.v, Props_Dioph.v |
| C106 | Traits.v (`fpower`, `fdiv`), MConstr.v (`QuotientField`); client program RootSpec.v | PRoot.v, Props_Root.v (examples PRootEx.v) |
| C107 | Traits.v (`MultiplicativeGroup`, `default_gpower`), MConstr.v (`QuotientRing`); ModSpec.v | PPratt.v, PPratt2.v, Props_Pratt.v (example PPrattEx.v) |
| C108 | MConstr.v (`ReducedFractions`); client programs EvalLaw.v, HomLaw.v | PRatRoot.v, Props_RatRoot.v (examples PRatRootEx.v) |
| C109 | MConstr.v (`ReducedFractions`), Traits.v (`extended_gcd`); client programs DiophSpec.v, PartSpec.v | PPartial.v, Props_Partial.v |
| C110 | MConstr.v (`PolyEucl`); client programs CompSpec.v, EvalLaw.v, SqfSpec.v | PComp.v, Props_Comp.v |
| C111 | MConstr.v (`PolyEucl`), Traits.v (`gcd`); client programs RCountSpec.v, EvalLaw.v | PRCount.v, Props_RCount.v |
| C112 | Traits.v (`MultiplicativeGroup`, `default_gpower`), MConstr.v (`QuotientRing`, `PolyEucl`); client program RecurSpec.v | PRecur.v, Props_Recur.v (examples PRecurEx.v) |
| C113 | Traits.v (`gcd`, `lcm`); client programs GcdsSpec.v | PGcds.v, Props_Gcds.v |
| C114 | Traits.v (`divisible`, `quo`), MInts.v (`ZZ`), MConstr.v (`PolyEucl`); client program ValuSpec.v | PValu.v, Props_Valu.v (examples PValuEx.v) |
| C115 | Traits.v (`sub`, `rem`, `divisible`); client program NewtonSpec.v | PNewton.v, Props_Newton.v |
| C116 | Traits.v (`mul`, `finv`, `equals`, `fpower`), MConstr.v; client program DlogSpec.v | PDlog.v, PDlogEx.v, Props_Dlog.v |
| C117 | Traits.v (`mul`, `finv`, `equals`); client program BatchSpec.v | PBatch.v, PBatchEx.v, Props_Batch.v |
| C118 | Traits.v (`fpower`, `is_one`), MConstr.v; client program ElemOrdSpec.v | PElemOrd.v, PElemOrdEx.v, Props_ElemOrd.v |
| C119 | Traits.v (`extended_gcd`, `lcm`, `rem`); client programs DiophSpec.v, CongSpec.v | PCong.v, Props_Cong.v |
| C120 | Traits.v (`fdiv`, `sub`, `equals`); client program LagrSpec.v | PLagr.v, PLagrEx.v, Props_Lagr.v |
| C121 | Traits.v (`quo_rem`, `mul`, `add`, `relative_primes`); client program CFracSpec.v | PCFrac.v, Props_CFrac.v |
| C122 | Traits.v (`quo_rem`, `mul`, `add`); client programs DigitSpec.v | PDigit.v, Props_Digit.v |
| C123 | Traits.v (`quo_rem`, `mul`, `add`, `sub`); client program KaraSpec.v | PKara.v, Props_Kara.v |
| C124 | Traits.v (`meet`, `join`), MConstr.v (`DivisibilityLattice`); client program SortSpec.v | PSort.v, Props_Sort.v |
| C125 | Traits.v (`meet`, `join`), MConstr.v (`DivisibilityLattice`); client program MedianSpec.v | PMedian.v, Props_Median.v |

## 5. Assumptions printed

Every theorem of the `Props_*.v` files is followed by `Print Assumptions`. Of the 737
theorems, 635 are *closed under the global context*. The others are about floats:

`C38_finite_partial`, `C38_formats_partial`, `C38_int_partial`, `C38_nearest_partial`,
`C38_overflow_partial`, `C38_refuted`, `C38_rounding_partial`, `C38_times_partial`,
`C38_times_small_partial`, `C39_laws`, `C39_order`, `C40_float_towers_partial`,
`C40_floats_partial`, `C44_float_euclidean`, `C44_float_fewer_checks_euclidean`,
`C44_float_fewer_checks_field`, `C44_float_fewer_checks_group`,
`C44_float_fewer_checks_ring`, `C44_float_field`, `C44_float_group`,
`C44_float_integral`, `C44_float_matrix`, `C44_float_ring`, `C54_failing`, `C54_laws`,
`C62_floats`, `C63_finite`, `C63_inverse`, `C63_polynomials`, `C63_powers`,
`C63_singular`, `C63_times`, `C63_times_infinite`, `C63_tower_domain`,
`C63_tower_euclidean`, `C63_tower_field`, `C63_tower_group`, `C63_tower_ring`,
`C72_field`, `C72_matrices`, `C72_polynomials`, `C74_matrices`, `C74_matrices_exact`,
`C74_polynomials`, `C74_polynomials_exact`, `C74_power`, `C74_power_exact`,
`C74_power_negative`, `C74_times`, `C74_times_exact`, `C80_floats`, `C83_arithmetic`,
`C84_determinant`, `C84_factors`, `C84_near_refuted`, `C84_pivots`, `C84_singular`,
`C85_division`, `C85_near_refuted`, `C86_near_refuted`, `C86_residual`,
`C86_singular`, `C86_steps`, `C86_try_inv`, `C87_arithmetic`, `C87_contract`,
`C87_determinant`, `C87_division`, `C87_euclidean`, `C87_field`, `C87_gcd`,
`C87_group`, `C87_integral`, `C87_inverse`, `C87_monic`, `C87_ring`, `C88_float_add`,
`C88_float_mul`, `C88_float_neg`, `C88_float_residue_add`, `C88_float_residue_mul`,
`C88_float_sub`, `C89_float_euclidean`, `C89_float_field`, `C89_float_group`,
`C89_float_integral`, `C89_float_ring`, `C92_add`, `C92_div`, `C92_gaussian`,
`C92_inv`, `C92_inv_error`, `C92_inv_real`, `C92_inverse_refuted`, `C92_mul`,
`C92_mul_error`, `C92_mul_norm`, `C92_neg`, `C92_sub`, `C96_F32`, `C96_F64`

They print these axioms of the standard library (classical reals, used by Flocq), and no other:

* `ClassicalDedekindReals.sig_forall_dec`
* `ClassicalDedekindReals.sig_not_dec`
* `Classical_Prop.classic`
* `FunctionalExtensionality.functional_extensionality_dep`

`C87_members`

They print these axioms of the standard library (classical reals, used by Flocq), and no other:

* `ClassicalDedekindReals.sig_forall_dec`
* `FunctionalExtensionality.functional_extensionality_dep`
