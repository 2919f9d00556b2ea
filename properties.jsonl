{"id": "C01", "title": "Integers are exact", "statement": "Every ring, integral-domain and order method of ZZ (add, sub, neg, mul, square, double, times, int, try_inv, try_div, divisible, associates, associate_repr, associate_coef, equals, leq, meet, join) returns exactly the value the mathematical integers prescribe, never panics except try_div/associate_coef on a zero divisor/element, and so the commutative ring and integral domain laws hold for the values the API returns.", "quantifier": "for all integers (unbounded BigInt) and all isize multipliers", "why_tests_cant": "BigInt has infinitely many values; laws quantify over triples of them", "anchors": ["src/integers.rs: impl Semigroup, Monoid, CommuntativeMonoid, AbelianGroup, UnitaryRing, IntegralDomain, PartialOrder, Lattice for Integers"]}
{"id": "C02", "title": "Euclidean division of integers", "statement": "quo_rem(a, b) on ZZ returns the unique pair (q, r) with a = q*b + r and 0 <= r < |b| for every sign combination; quo, rem agree with it; reduced(a, b) is true exactly when a is its own remainder (or b is zero); division by zero panics.", "quantifier": "for all pairs of integers", "why_tests_cant": "sign combinations times unbounded magnitudes; uniqueness is a universally quantified statement", "anchors": ["src/integers.rs: Integers::quo_rem, Integers::reduced", "src/traits.rs: EuclideanDomain::quo, rem"]}
{"id": "C03", "title": "gcd terminates and is a greatest common divisor", "statement": "In every Euclidean domain the library builds, gcd(a, b) terminates and returns a common divisor of a and b that every common divisor of a and b divides; for (0,0) it returns zero.", "quantifier": "for all Euclidean domains meeting the documented contract (integers, checked integers, polynomials over a field, any field) and all pairs of members", "why_tests_cant": "termination and 'every common divisor' cannot be sampled, and the claim ranges over an infinite family of algebras", "anchors": ["src/traits.rs: EuclideanDomain::gcd", "src/traits.rs: blanket impl EuclideanDomain for Field::gcd"]}
{"id": "C04", "title": "extended_gcd returns Bezout coefficients", "statement": "extended_gcd(a, b) terminates and returns (g, x, y) with g a greatest common divisor of a and b and g = x*a + y*b.", "quantifier": "for all Euclidean domains meeting the documented contract and all pairs of members", "why_tests_cant": "recursion depth is unbounded and the family of algebras infinite", "anchors": ["src/traits.rs: EuclideanDomain::extended_gcd"]}
{"id": "C05", "title": "lcm is a least common multiple", "statement": "lcm(a, b) is a common multiple of a and b that divides every common multiple of them; it is zero exactly when one of them is zero, and lcm(0,0) does not divide by zero.", "quantifier": "for all Euclidean domains meeting the documented contract and all pairs of members", "why_tests_cant": "'every common multiple' is an unbounded quantifier", "anchors": ["src/traits.rs: EuclideanDomain::lcm", "src/traits.rs: blanket impl EuclideanDomain for Field::lcm"]}
{"id": "C06", "title": "relative_primes decides coprimality", "statement": "relative_primes(a, b) is true exactly when 1 is a linear combination of a and b.", "quantifier": "for all Euclidean domains meeting the documented contract and all pairs of members", "why_tests_cant": "the negative answer claims non-existence of coefficients in an infinite ring", "anchors": ["src/traits.rs: EuclideanDomain::relative_primes"]}
{"id": "C07", "title": "Checked integers never return a wrong number", "statement": "Whatever method of CheckedInts<E> is called (ring, domain, Euclidean and order methods, including gcd, lcm and extended_gcd) it either panics or returns exactly what the same method returns on unbounded integers; it never wraps around silently and never loops forever, both with and without overflow checks compiled in.", "quantifier": "for all widths, all values of the type, all multipliers, and both build profiles", "why_tests_cant": "pairs of 64-bit values cannot be enumerated and release-mode wrap-around is invisible in a debug test run", "anchors": ["src/checked_ints.rs: all impls for CheckedInts", "src/traits.rs: default methods used by CheckedInts"]}
{"id": "C08", "title": "Checked integers panic exactly on unrepresentable results", "statement": "add, sub, neg, mul, quo_rem, quo, rem, try_div of CheckedInts panic if and only if the divisor is zero or the exact result (for division: the truncated quotient, i.e. only MIN / -1) is not representable; the unchecked operators inside quo_rem, try_div and reduced never overflow, so debug and release builds behave identically. divisible and associates panic only on (MIN, -1), associate_repr only on MIN, associate_coef only on 0, sub_assign additionally when its second argument is MIN; the tests, try_inv and the constants never panic.", "quantifier": "for all widths, values and both build profiles", "why_tests_cant": "needs every pair of w-bit values including the rare boundary pairs, for w up to 64", "anchors": ["src/checked_ints.rs: mul, add, neg, sub, try_div, quo_rem, reduced"]}
{"id": "C09", "title": "gcd of checked integers only fails on MIN and -1", "statement": "gcd(a, b), relative_primes(a, b) and extended_gcd(a, b) of CheckedInts succeed for every pair of values except the pair (MIN, -1); no intermediate product or difference of the extended Euclidean algorithm overflows. (For (MIN, -1) they panic although the gcd is representable.)", "quantifier": "for all widths w >= 4 (w >= 2 for gcd and relative_primes), all pairs of w-bit values and both build profiles", "why_tests_cant": "the growth of Bezout coefficients over unboundedly many division steps has to be bounded for 2^128 pairs", "anchors": ["src/checked_ints.rs: quo_rem", "src/traits.rs: EuclideanDomain::gcd, extended_gcd, relative_primes"]}
{"id": "C10", "title": "Checked unsigned integers are exact or panic", "statement": "add, mul, times, try_inv and the order/lattice methods of CheckedUints return exactly the natural-number result or panic; add and mul panic only if the result does not fit; 'times' also only panics when the result does not fit.", "quantifier": "for all widths, values and multipliers", "why_tests_cant": "all pairs of 64-bit values and all usize multipliers", "anchors": ["src/checked_uints.rs: all impls", "src/traits.rs: CommuntativeMonoid::times"]}
{"id": "C11", "title": "Repeated addition and powers by doubling are correct", "statement": "CommuntativeMonoid::times, AbelianGroup::times and Group::power terminate and compute the num-fold sum / product, with negative num the num-fold sum / product of the inverse, for every isize num.", "quantifier": "for all groups/monoids satisfying the trait laws, all elements, all isize/usize multipliers", "why_tests_cant": "2^64 exponents for every element of every group; the isize::MIN corner is never hit by samples", "anchors": ["src/traits.rs: CommuntativeMonoid::times, Group::power, AbelianGroup::times"]}
{"id": "C12", "title": "TwoElementAlgebra is the two element field and Boolean algebra", "statement": "BB with its field methods is isomorphic to the integers modulo 2 (including times with negative multipliers, the Euclidean methods, and powers of nonzero elements), and with its order methods is the two-element Boolean algebra.", "quantifier": "for all elements and all isize multipliers", "why_tests_cant": "times/int/power range over all isize", "anchors": ["src/two_element_algebra.rs: all impls for TwoElementAlgebra"]}
{"id": "C13", "title": "QuotientRing computes in the quotient ring", "statement": "For a non-zero non-unit modulus m, mul, add, sub, neg, times, int, zero, one of QuotientRing map reduced representatives to the reduced representative of the result in R/(m); R/(m) is a commutative ring and all results are members again.", "quantifier": "for every Euclidean domain meeting the contract, every such modulus, all members and all isize multipliers other than isize::MIN (see C11)", "why_tests_cant": "infinite families of base domains, moduli and elements", "anchors": ["src/quotient_ring.rs: impls for QuotientRing"]}
{"id": "C14", "title": "QuotientRing finds exactly the units", "statement": "try_inv in QuotientRing returns Some(y) with x*y = 1 in the quotient whenever x is invertible modulo m, and None exactly when no inverse exists.", "quantifier": "for every Euclidean domain, every non-zero non-unit modulus, every member", "why_tests_cant": "None claims non-existence of an inverse", "anchors": ["src/quotient_ring.rs: QuotientRing::try_inv"]}
{"id": "C15", "title": "QuotientField by an irreducible element is a field", "statement": "If the modulus is irreducible then every method of QuotientField (inv, div, power, try_inv, invertible, ring methods and the derived Euclidean methods) computes in the field R/(m); inv never panics on a non-zero member and x * inv(x) = 1.", "quantifier": "for every Euclidean domain meeting the contract, every irreducible modulus, all members, all isize multipliers and exponents other than isize::MIN (see C11)", "why_tests_cant": "infinite families; a test can only use a handful of moduli", "anchors": ["src/quotient_field.rs: impls for QuotientField"]}
{"id": "C16", "title": "QuotientField::new only accepts moduli that give a field", "statement": "QuotientField::new panics unless the modulus is suitable, so that in any successfully constructed QuotientField one() is a member different from zero().", "quantifier": "for all bases and moduli", "why_tests_cant": "ranges over all moduli (including 0, units and reducible elements) of all bases", "anchors": ["src/quotient_field.rs: QuotientField::new"]}
{"id": "C17", "title": "Modular arithmetic over machine integers does not overflow for small moduli", "statement": "QuotientField/QuotientRing over CheckedInts<E> with modulus m never panics on members as long as (m-1)^2 fits into E, hence GF2 and GF3 over i8 are total and compute in Z/2 and Z/3; above that bound multiplication of members can panic but never returns a wrong residue.", "quantifier": "for all widths, all moduli within the bound, all members, both build profiles", "why_tests_cant": "m^2 pairs for every admissible modulus of 64-bit types, including all steps of the extended gcd", "anchors": ["src/quotient_field.rs: QuotientField, GF2, GF3", "src/checked_ints.rs: CheckedInts"]}
{"id": "C18", "title": "ReducedFractions is the field of fractions", "statement": "Every field method of ReducedFractions (add, sub, neg, mul, times, int, inv, div, power, try_inv, equals, and the derived Euclidean methods) agrees with the field of fractions of the base, all results are in lowest terms with the canonical denominator, and two members are equal iff they represent the same fraction.", "quantifier": "for every Euclidean domain meeting the contract, all members and all isize multipliers and exponents other than isize::MIN (see C11)", "why_tests_cant": "canonical form must hold for all pairs of fractions over infinite bases", "anchors": ["src/reduced_fractions.rs: impls for ReducedFractions"]}
{"id": "C19", "title": "Rational numbers over machine integers are never silently wrong", "statement": "ReducedFractions over CheckedInts either panics or returns the exact, canonical rational number.", "quantifier": "for all widths, all members, both build profiles", "why_tests_cant": "overflow in any of the intermediate products must be caught for all inputs", "anchors": ["src/reduced_fractions.rs: ReducedFractions", "src/checked_ints.rs: CheckedInts"]}
{"id": "C20", "title": "Polynomials over an integral domain form the polynomial ring", "statement": "add, sub, neg, mul, times, int, one, zero, try_inv, equals, degree and leading_coef of PolynomialAlgebra over an integral domain agree with polynomial arithmetic, and every result has a non-zero leading coefficient (the canonical representation is preserved).", "quantifier": "for every integral domain satisfying the contract, all polynomials of all degrees, all isize multipliers other than isize::MIN (see C11)", "why_tests_cant": "unbounded degrees and coefficients; canonical form is an invariant over all operations", "anchors": ["src/polynomial_algebra.rs: impls for PolynomialAlgebra"]}
{"id": "C21", "title": "Polynomial division with remainder", "statement": "Over a field, quo_rem(f, g) returns the unique q, r with f = q*g + r and deg r < deg g, both in canonical form; it panics iff g is zero.", "quantifier": "for every field satisfying the contract and all pairs of polynomials", "why_tests_cant": "nested loops over unbounded degree with index arithmetic", "anchors": ["src/polynomial_algebra.rs: PolynomialAlgebra::quo_rem"]}
{"id": "C22", "title": "Exact polynomial division", "statement": "Over an integral domain, try_div(f, g) returns Some(q) with f = q*g iff g divides f and None otherwise, and divisible/associates decide divisibility and association.", "quantifier": "for every integral domain satisfying the contract and all pairs of polynomials with g non-zero", "why_tests_cant": "None claims that no quotient polynomial of any shape exists", "anchors": ["src/polynomial_algebra.rs: PolynomialAlgebra::try_div, associate_repr, associate_coef"]}
{"id": "C23", "title": "Polynomials over rings with zero divisors stay canonical", "statement": "For any unitary base ring the product of two canonical polynomials is canonical (contained in the algebra) and try_inv finds an inverse whenever one exists.", "quantifier": "for all unitary base rings and all polynomials", "why_tests_cant": "needs base rings with zero divisors / nilpotents that the tests never instantiate", "anchors": ["src/polynomial_algebra.rs: PolynomialAlgebra::mul, try_inv"]}
{"id": "C24", "title": "Finite field towers work", "statement": "The composition QuotientField<PolynomialAlgebra<QuotientField<base>>> with irreducible moduli is a field of the expected arithmetic; constructions can be stacked to any depth because each construction's output satisfies the contract that the next one requires.", "quantifier": "for all bases, all irreducible moduli and any nesting depth", "why_tests_cant": "unboundedly many compositions; tests only try GF(256)", "anchors": ["src/quotient_field.rs", "src/polynomial_algebra.rs", "src/reduced_fractions.rs", "src/traits.rs: trait contracts"]}
{"id": "C25", "title": "MatrixRing multiplication and addition are matrix arithmetic", "statement": "mul, add, sub, neg, times, int, one, zero, equals, transpose of MatrixRing agree with n x n matrix arithmetic over the base field; so multiplication is associative, one() is neutral and distributivity holds; wrong-length arguments panic.", "quantifier": "for every base field satisfying the contract, all sizes n (including 0), all matrices, all isize multipliers other than isize::MIN (see C11)", "why_tests_cant": "unbounded sizes and infinite fields", "anchors": ["src/matrix_ring.rs: impls for MatrixRing, transpose"]}
{"id": "C26", "title": "Matrix inversion is correct and complete", "statement": "try_inv(m) returns Some(inverse) iff m is invertible, the result is a two-sided inverse, invertible(m) gives the same answer, and the internal debug assertion never fires.", "quantifier": "for every base field satisfying the contract, all sizes, all matrices, both build profiles", "why_tests_cant": "Gauss-Jordan with pivoting over all matrices of all sizes", "anchors": ["src/matrix_ring.rs: MatrixRing::try_inv, invertible, find_row, add_rows, mul_row, swap_rows"]}
{"id": "C27", "title": "determinant returns the determinant", "statement": "determinant(m) equals the determinant of the matrix.", "quantifier": "for every base field satisfying the contract, all sizes, all matrices", "why_tests_cant": "sign errors only show for matrices needing row exchanges in characteristic other than 2; tests over one size do not compare with an independent definition", "anchors": ["src/matrix_ring.rs: MatrixRing::determinant"]}
{"id": "C28", "title": "Permutations form the symmetric group", "statement": "mul, square, one, is_one, try_inv, inv, power of Permutations(n) agree with composition in the symmetric group on n points (left factor applied first), and contains accepts exactly the n! permutation vectors.", "quantifier": "for all n, all permutations, all isize powers other than isize::MIN (see C11)", "why_tests_cant": "n! elements for unbounded n", "anchors": ["src/permutations.rs: impls for Permutations"]}
{"id": "C29", "title": "Permutations::contains decides membership for every vector", "statement": "contains returns true exactly for vectors that list each of 0..n once and false for every other vector, without panicking.", "quantifier": "for all n and all vectors of u32", "why_tests_cant": "all vectors, including out-of-range entries", "anchors": ["src/permutations.rs: Permutations::contains"]}
{"id": "C30", "title": "VectorAlgebra is the pointwise power", "statement": "Every ring method of VectorAlgebra acts coordinatewise, so the power of a ring is a ring; arguments of the wrong length panic in mul, add, equals and the other methods that check it.", "quantifier": "for every base ring/group satisfying the contract, all lengths, all vectors, all isize multipliers and powers other than isize::MIN (see C11)", "why_tests_cant": "unbounded lengths and arbitrary bases", "anchors": ["src/vector_algebra.rs: impls for VectorAlgebra"]}
{"id": "C31", "title": "VectorAlgebra over a lattice is the product lattice", "statement": "leq is coordinatewise, meet and join are the greatest lower and least upper bounds, max/min are the bounds, and over a Boolean algebra 'not' is the complement.", "quantifier": "for every base lattice / Boolean algebra satisfying the contract, all lengths, all vectors", "why_tests_cant": "glb/lub quantify over all bounds", "anchors": ["src/vector_algebra.rs: PartialOrder, Lattice, BoundedOrder, BooleanAlgebra for VectorAlgebra"]}
{"id": "C32", "title": "DivisibilityOrder is a bounded distributive lattice", "statement": "On the canonical representatives, leq is divisibility and is a partial order, min is one, max is zero, meet is the greatest lower bound (gcd), join the least upper bound (lcm), and the lattice is distributive.", "quantifier": "for every Euclidean domain (order: every integral domain) meeting the contract and all members", "why_tests_cant": "distributivity and glb/lub are universally quantified over an infinite domain", "anchors": ["src/divisibility_order.rs: impls for DivisibilityOrder"]}
{"id": "C33", "title": "Number lattices are distributive lattices", "statement": "For ZZ, NN, CheckedInts and CheckedUints, leq is the numeric order, meet and join are its min and max (hence glb and lub, distributive), less_than is strict order and comparable is always true.", "quantifier": "for all values", "why_tests_cant": "all triples of unbounded or 64-bit values", "anchors": ["src/integers.rs", "src/naturals.rs", "src/checked_ints.rs", "src/checked_uints.rs", "src/traits.rs: PartialOrder::less_than, comparable"]}
{"id": "C34", "title": "AdditiveGroup and MultiplicativeGroup are groups", "statement": "AdditiveGroup of an abelian group computes with the addition of the base; MultiplicativeGroup of a monoid contains exactly the invertible members, and both satisfy the group laws with power behaving as the integer power.", "quantifier": "for all bases satisfying the contract, all members, all isize powers other than isize::MIN", "why_tests_cant": "all groups, elements and exponents", "anchors": ["src/additive_group.rs", "src/multiplicative_group.rs", "src/traits.rs: Group"]}
{"id": "C35", "title": "Associate representatives are canonical", "statement": "associate_repr(x) is an associate of x, two elements are associates iff their representatives are equal, associate_coef(x) is invertible and associate_repr(x) = associate_coef(x) * x, and associate_coef panics on zero.", "quantifier": "for all integral domains of the library and all members", "why_tests_cant": "uniqueness over whole classes of associates in infinite rings", "anchors": ["src/integers.rs", "src/checked_ints.rs", "src/polynomial_algebra.rs", "src/traits.rs: associate_repr, associate_coef, blanket impl IntegralDomain for Field"]}
{"id": "C36", "title": "Every field is a Euclidean domain", "statement": "The blanket implementations make every field satisfy the whole IntegralDomain and EuclideanDomain contract: quo_rem has zero remainder, every pair of elements has gcd zero or one, extended_gcd is Bezout, lcm is a least common multiple.", "quantifier": "for every field satisfying the Field contract and all members", "why_tests_cant": "generic code over infinitely many fields", "anchors": ["src/traits.rs: blanket impls IntegralDomain and EuclideanDomain for Field"]}
{"id": "C37", "title": "Field::power is the integer power", "statement": "power(n, x) is x^n for every field element x and every isize n, where x^0 = 1 and negative powers of zero panic.", "quantifier": "for all fields, elements and isize exponents", "why_tests_cant": "all isize exponents for all fields; zero base and zero exponent corner", "anchors": ["src/traits.rs: Field::power"]}
{"id": "C38", "title": "Floats: results are finite and correctly rounded, or the call panics", "statement": "Every arithmetic method of ApproxFloats either returns the finite correctly rounded result of the exact real operation, or panics; no method ever returns an infinity or NaN on members.", "quantifier": "for all finite f32 and f64 values", "why_tests_cant": "2^128 pairs of doubles", "anchors": ["src/approx_floats.rs: impls for ApproxFloats"]}
{"id": "C39", "title": "Floats: order and lattice", "statement": "On finite floats leq is the order of the real values, meet/join return one of the arguments and are min/max, equals compares real values (so 0.0 equals -0.0), and the lattice laws hold up to equals.", "quantifier": "for all finite f32 and f64 values", "why_tests_cant": "2^192 triples", "anchors": ["src/approx_floats.rs: equals, leq, meet, join"]}
{"id": "C40", "title": "In-place methods agree with the pure ones", "statement": "mul_assign, square, add_assign, double, neg_assign and sub_assign of every structure give the same value as mul(x,y), mul(x,x), add(x,y), add(x,x), neg(x), sub(x,y).", "quantifier": "for all structures and members", "why_tests_cant": "must hold for each override in each structure over all values", "anchors": ["src/traits.rs: Semigroup, CommuntativeMonoid, AbelianGroup default methods", "src/two_element_algebra.rs", "src/permutations.rs", "src/vector_algebra.rs", "src/matrix_ring.rs"]}
{"id": "C41", "title": "Naturals are exact", "statement": "Every semiring and order method of NN returns the exact natural number result and never panics.", "quantifier": "for all natural numbers (unbounded BigUint) and all usize multipliers", "why_tests_cant": "BigUint has infinitely many values", "anchors": ["src/naturals.rs: impls for Naturals"]}
{"id": "C42", "title": "contains decides membership", "statement": "contains(x) is true exactly for the values on which the algebra's operations are specified (canonical, reduced, members of the base), so it never accepts a value that no operation could produce.", "quantifier": "for all structures and all values of the element type", "why_tests_cant": "all values of the element type, including malformed ones", "anchors": ["src/traits.rs: Domain::contains", "src/quotient_ring.rs", "src/quotient_field.rs", "src/reduced_fractions.rs", "src/polynomial_algebra.rs", "src/matrix_ring.rs", "src/vector_algebra.rs"]}
{"id": "C43", "title": "Results are always members", "statement": "Whenever a method of any structure is called on members and returns, the returned elements are members again (contains returns true on them).", "quantifier": "for all structures, methods and members", "why_tests_cant": "closure is an invariant over all operation sequences", "anchors": ["src/traits.rs and all impl files"]}
{"id": "C44", "title": "Build profile does not matter", "statement": "With overflow checks and debug assertions on or off, every method returns the same value on members, except power/times with isize::MIN. Over floats this holds for all arguments, members or not, but try_inv of a matrix can panic in a debug build where a release build returns. In any case what a debug build returns is returned by a release build.", "quantifier": "for all structures, members and both build profiles", "why_tests_cant": "tests run in one profile only", "anchors": ["src/checked_ints.rs: try_div, quo_rem, reduced", "src/matrix_ring.rs: debug_assert", "src/permutations.rs: debug_assert", "src/traits.rs: Group::power", "src/approx_floats.rs"]}
{"id": "C45", "title": "Quotient methods reduce their arguments", "statement": "add, sub, mul, neg, double, square, times, their in-place variants and try_inv of QuotientRing accept any members of the base, reduced or not, and return the canonical remainder of the exact result.", "quantifier": "for all Euclidean bases, all moduli other than zero and units, all members of the base, all isize/usize multipliers other than isize::MIN", "why_tests_cant": "tests call the methods with reduced arguments; the claim ranges over all representatives", "anchors": ["src/quotient_ring.rs", "src/quotient_field.rs"]}
{"id": "C46", "title": "QuotientField by a reducible element inverts exactly the units", "statement": "For any modulus other than zero and units the ring methods of QuotientField are right; inv, div and negative powers are right for elements that have an inverse modulo the modulus and panic for all others; try_inv returns the inverse if there is one and None otherwise.", "quantifier": "for all Euclidean bases, all moduli other than zero and units, all members of the base", "why_tests_cant": "tests use prime moduli; the documentation allows the constructor to be called with any element (lines 33-37)", "anchors": ["src/quotient_field.rs: new, try_inv, invertible, inv"]}
{"id": "C47", "title": "Fractions are reduced by every operation", "statement": "ReducedFractions::reduce returns the fraction in lowest terms with canonical denominator and panics exactly for a zero denominator; add, sub, mul, div, double, square, times, power and try_inv accept any ratios with non-zero denominators and return reduced fractions; neg and inv return an equal but possibly unreduced ratio.", "quantifier": "for all Euclidean bases and all pairs of members with non-zero second component", "why_tests_cant": "all pairs, not only those in lowest terms", "anchors": ["src/reduced_fractions.rs: reduce, mul, add, times, try_inv, neg, inv"]}
{"id": "C48", "title": "The finite structures have the right number of members", "statement": "contains accepts exactly |m| values of QuotientRing and QuotientField of the integers modulo m, k^n vectors of length n and k^(n*n) matrices over a base with k members, k^d polynomials with at most d coefficients, and n! permutations; the members of QuotientRing modulo m that MultiplicativeGroup accepts are those coprime to m, phi(m) many, and MultiplicativeGroup of MatrixRing over a field with q elements has (q^n - 1)(q^n - q)...(q^n - q^(n-1)) members.", "quantifier": "for all moduli, sizes and finite bases", "why_tests_cant": "enumeration is only possible for a few small cases; the counts are formulas in unbounded parameters", "anchors": ["src/traits.rs: Domain::contains", "src/quotient_ring.rs", "src/vector_algebra.rs", "src/matrix_ring.rs", "src/polynomial_algebra.rs", "src/permutations.rs", "src/multiplicative_group.rs: contains", "README.md"]}
{"id": "C49", "title": "Raising to the order of the group gives one", "statement": "In every group with k members that satisfies the Group contract, power(k, x) is one for every member x; in particular Euler's theorem for the units modulo m, power(n!, s) is the identity permutation, the order of GL_n(q), and k-fold sums in finite additive groups.", "quantifier": "for all finite groups of the crate whose order is an isize, and all members", "why_tests_cant": "a statement about all members of groups of any order", "anchors": ["src/traits.rs: Group::power", "src/additive_group.rs", "src/multiplicative_group.rs", "src/permutations.rs"]}
{"id": "C50", "title": "All finite fields can be constructed", "statement": "For every finite field of characteristic p there is a modulus such that QuotientField over the polynomials over QuotientField(integers, p) by that modulus contains an isomorphic copy with p^degree = number of elements of the field: all methods on codes of elements return the codes of the results. For every prime p and k > 0 there is such a modulus of degree k.", "quantifier": "for all finite fields, all primes p and all k > 0", "why_tests_cant": "an existence statement for infinitely many fields, with an irreducible polynomial for each", "anchors": ["README.md:20-22", "src/quotient_field.rs", "src/polynomial_algebra.rs"]}
{"id": "C51", "title": "All finite Boolean algebras can be constructed", "statement": "For every finite Boolean algebra there is a bijection onto the members of VectorAlgebra(two-element algebra, n) for some n under which equals, max, min, leq, less_than, comparable, meet, join and not are the operations of the algebra; it has 2^n elements.", "quantifier": "for all finite Boolean algebras", "why_tests_cant": "an existence statement about all finite Boolean algebras (Stone's theorem)", "anchors": ["README.md:22-23", "src/vector_algebra.rs", "src/two_element_algebra.rs"]}
{"id": "C52", "title": "The loops run a bounded number of times", "statement": "times and power run through their loop exactly as often as the number has binary digits; gcd and extended_gcd of integers make at most i divisions if the second argument is below the (i+2)-nd Fibonacci number (consecutive Fibonacci numbers need that many), at most 92 for i64; gcd and extended_gcd of polynomials make at most as many divisions as the second argument has coefficients; all methods of finite field towers finish within the maximum of these bounds.", "quantifier": "for all arguments, moduli, towers and build profiles", "why_tests_cant": "running time for all arguments is not observable by examples; the worst case is at Fibonacci numbers of any size", "anchors": ["src/traits.rs: times, power, gcd, extended_gcd", "src/polynomial_algebra.rs: quo_rem", "src/quotient_field.rs"]}
{"id": "C53", "title": "Fractions of machine integers panic exactly when a component overflows", "statement": "In ReducedFractions over CheckedInts, mul panics iff the product of the numerators or of the denominators does not fit; add panics iff one of n1*d2, d1*n2, their sum or d1*d2 does not fit, and for equal denominators iff the sum of the numerators does not fit; neg, times and inv likewise; otherwise the result is the exact one in lowest terms. In particular add, sub, mul, div, neg and inv of fractions whose components are at most b never panic if 2b^2 < 2^(w-1).", "quantifier": "for all widths w of at least 2 bits and all fractions with positive denominators", "why_tests_cant": "the boundary of the panics in four numbers is far too large to sample; the reduction itself (gcd, quotient, sign) must not add a panic of its own", "anchors": ["src/reduced_fractions.rs: reduce, mul, add, neg, times, inv", "src/checked_ints.rs"]}
{"id": "C54", "title": "Floats obey commutativity, neutral elements and negation, and have bounded errors", "statement": "In ApproxFloats add and mul are commutative, zero and one are neutral, x * 0 = 0, x - x = 0, x / x = 1, x - y = x + (-y) = -(y - x), (-x) * y = -(x * y), x - y = 0 only if x = y, differences of numbers within a factor of two and doublings are exact, add and mul are monotone; add and sub have a relative error of at most 2^-prec, and so have mul, div and inv unless the result is subnormal. Associativity, distributivity and x * inv(x) = 1 fail.", "quantifier": "for all finite floats of every precision and exponent range (f32 and f64 in particular)", "why_tests_cant": "rounding and overflow depend on all bits of both arguments; exhaustive testing of two f64 arguments is impossible", "anchors": ["src/approx_floats.rs: add, sub, neg, mul, inv, div"]}
{"id": "C55", "title": "Diagonal vectors and transposition respect the operations", "statement": "VectorAlgebra::diagonal sends x to the vector with all entries x, and every operation and every question (contains, equals, mul, square, one, is_one, try_inv, invertible, inv, zero, is_zero, add, double, neg, sub, the assigning variants, int, leq, meet, join, max, min, not) of the vector algebra applied to diagonal vectors returns the diagonal vector of (the answer of) the same operation of the base, and panics or fails to terminate exactly if that one does. MatrixRing::transpose puts entry (j, i) at (i, j), is its own inverse, and is an antiautomorphism of the matrix ring: transposes of products are products of transposes in the reverse order, and it commutes with add, sub, neg, zero, one, int, invertible and try_inv.", "quantifier": "for every base structure whatever (diagonal), every length at least one; for every field base and every size (transposition laws)", "why_tests_cant": "tests use a few vectors over one base; the claim is about panics and termination of arbitrary bases too", "anchors": ["src/vector_algebra.rs: diagonal and all trait methods", "src/matrix_ring.rs: transpose, mul, add, neg, try_inv"]}
{"id": "C56", "title": "The coefficients of extended_gcd are small", "statement": "extended_gcd(x, y) = (g, s, t) of Integers and CheckedInts: (x, 1, 0) if y = 0; (y, 0, 1) if y divides x; otherwise g > 0, (2|s| - 1) g <= |y| and |t| g <= |x|, and for y > 0 even 2|s| g <= y and (2|t| - 1) g <= |x|, and 2|t| g <= x for x >= 0 too. For polynomials over a field deg s + deg g < deg y and deg t + deg g < deg x, unless y is zero or divides x.", "quantifier": "for all integers, all pairs of w-bit integers other than (MIN, -1), w >= 4, and all pairs of polynomials over any field", "why_tests_cant": "the bound is an invariant of a recursion of unbounded depth", "anchors": ["src/traits.rs: EuclideanDomain::extended_gcd", "src/integers.rs: quo_rem", "src/checked_ints.rs: quo_rem", "src/polynomial_algebra.rs: quo_rem"]}
{"id": "C57", "title": "The documented panics occur, and no others", "statement": "try_div, quo_rem, quo, rem, div and associate_coef, inv panic exactly if the divisor (argument) is zero according to is_zero; divisible, associates, associate_repr, try_inv, invertible, reduced, gcd, lcm, extended_gcd and relative_primes accept zeros and always finish. QuotientRing::new and QuotientField::new refuse exactly the moduli that contains rejects, ReducedFractions::new refuses a base in which one is zero. (For checked integers overflow panics, stated exactly in C08 and C09, come on top.)", "quantifier": "for Integers, CheckedInts, TwoElementAlgebra, polynomials over integral domains and fields, fractions, quotient fields, and every other structure meeting the contract of its trait; all members", "why_tests_cant": "the claim is about all members of an infinite family of structures, and about absence of panics", "anchors": ["src/traits.rs: doc comments of try_div, associate_coef, quo_rem, quo, rem, inv, div", "src/quotient_ring.rs: new", "src/quotient_field.rs: new", "src/reduced_fractions.rs: new"]}
{"id": "C58", "title": "Divisibility, gcd and lcm obey the laws of arithmetic", "statement": "As statements about calls, up to associates: divisible is reflexive, transitive and compatible with sums, products and cancellation; associates is an equivalence relation, unchanged by invertible factors; associate_repr is idempotent. gcd and lcm are commutative, associative, idempotent, absorb each other and distribute over each other; common factors come out (gcd(zx, zy) ~ z gcd(x, y), also for lcm); gcd(x + qy, y) ~ gcd(x, y) ~ gcd(y, x rem y); gcd is zero only for two zeros, lcm exactly if an argument is zero; x is divisible by y iff gcd(x, y) ~ y iff lcm(x, y) ~ x. Euclid's lemma: if x and z are relative primes and z divides xy then z divides y; relative_primes(xy, z) iff both are relative primes; x/g and y/g are relative primes for g = gcd(x, y).", "quantifier": "for every structure meeting the contract of IntegralDomain (EuclideanDomain), in particular everything buildable from Integers, CheckedInts, TwoElementAlgebra by quotients, fractions and polynomials; all members", "why_tests_cant": "infinitely many structures and triples of elements; the results are only determined up to associates, so that comparing sample outputs misses or invents errors", "anchors": ["src/traits.rs: trait IntegralDomain", "src/traits.rs: trait EuclideanDomain", "src/traits.rs: blanket implementations for fields"]}
{"id": "C59", "title": "neg, sub, times, int, inv, div and power obey the laws of groups, rings and fields", "statement": "As statements about calls: neg is an involution, subtraction undoes addition, sums can be cancelled; times(n, .) is additive and times(mn, x) = times(m, times(n, x)), times(n, x) = int(n) x = x int(n), times(-n, x) = -times(n, x); int is a ring homomorphism from the isize values other than isize::MIN; signs move through products. In groups inv is an involution reversing products, power(mn, x) = power(m, power(n, x)), power(-n, x) = inv(power(n, x)), power(n, xy) = power(n, x) power(n, y) for commuting x and y, and conjugation commutes with power. In fields inv, div and power obey the rules of fractions, and the laws of power hold at zero too where no negative or zero exponent makes them meaningless.", "quantifier": "for every structure meeting its contract, in particular all towers of quotients, fractions, polynomials, matrices and vectors, the symmetric groups, additive and multiplicative groups; all members, all exponents in isize except isize::MIN whose sum or product is again such", "why_tests_cant": "the exponents and elements range over far more values than can be sampled, for infinitely many structures", "anchors": ["src/traits.rs: times, power, int", "src/traits.rs: trait Field", "src/permutations.rs", "src/additive_group.rs", "src/multiplicative_group.rs"]}
{"id": "C60", "title": "degree and leading_coef obey the laws of polynomials", "statement": "Over an integral domain: degree is None exactly for zero; deg(-x) = deg x; deg(x + y) and deg(x - y) are at most the larger degree, and equal to it if the degrees differ; deg(xy) = deg x + deg y and the leading coefficient of xy is the product of the leading coefficients; leading_coef is None exactly for zero and never a zero element; an exact quotient has the difference of the degrees; a non-zero multiple of y has at least the degree of y; associates have equal degrees, associate_repr keeps the degree; x is invertible iff its degree is 0 and its coefficient is invertible. Over a field moreover: deg(rem) < deg(divisor), deg(quo) is the difference of the degrees (or quo is zero); reduced(x, y) iff deg x < deg y; deg gcd(x, y) + deg lcm(x, y) = deg x + deg y; relative_primes iff the gcd is constant; associate_repr is monic; x is invertible iff its degree is 0.", "quantifier": "for every structure meeting the contract of IntegralDomain (Field), in particular all towers, so also for polynomials in several variables; all members (lists without leading zero)", "why_tests_cant": "polynomials of every degree over infinitely many coefficient structures", "anchors": ["src/polynomial_algebra.rs: degree, leading_coef", "src/polynomial_algebra.rs: impl AbelianGroup, Semigroup, IntegralDomain, EuclideanDomain"]}
{"id": "C61", "title": "Finite fields have a prime characteristic, a generator, and Euler's criterion", "statement": "For every finite field with k elements built from TwoElementAlgebra or prime moduli by repeated extension with irreducible polynomials: k = r^d for a prime r; times(r, x) is zero for every member and times(j, x) is not for 0 < j < r and x non-zero; int(r) is zero; power(r, .) respects sums and products and is a bijection of the members. Some member g generates: power(j, g) for 0 <= j < k-1 are the non-zero members, each once. If k is even every member is a square; if k is odd a non-zero x is a square iff power((k-1)/2, x) = 1, and is not one iff it is -1.", "quantifier": "for all towers of finite fields whose number of elements fits in isize; all members", "why_tests_cant": "infinitely many fields; existence of a generator and the criterion quantify over all members of each", "anchors": ["src/quotient_field.rs", "src/two_element_algebra.rs", "src/polynomial_algebra.rs", "src/traits.rs: Field::power", "src/traits.rs: AbelianGroup::times"]}
{"id": "C62", "title": "No call runs forever", "statement": "Every call of every method returns or panics: for every structure built by the constructors of the crate, with any parameters (moduli that are zero, units or composite, any length and size), for all arguments of the element type whether or not they are members (also NaN and infinite floats), for all isize numbers and every build profile; and what is returned is of the element type. The same holds over a user's own implementation of the base trait, provided that its own methods come to an end and that its zero is zero and its constants are equal to themselves; without this condition extended_gcd can run forever.", "quantifier": "for all towers of structures; all arguments of the Rust types, members or not; all isize numbers; all profiles; all bases whose methods end", "why_tests_cant": "non-termination cannot be observed by a test, and the arguments and bases are infinite in number", "anchors": ["src/traits.rs", "src/polynomial_algebra.rs: quo_rem", "src/integers.rs", "src/checked_ints.rs", "src/quotient_ring.rs", "src/quotient_field.rs", "src/reduced_fractions.rs", "src/matrix_ring.rs", "src/vector_algebra.rs", "src/permutations.rs", "src/approx_floats.rs"]}
{"id": "C63", "title": "Everything built on top of floats keeps finite entries", "statement": "Take vectors, polynomials or square matrices whose entries are finite floats, of any precision and exponent range. Every method of VectorAlgebra, PolynomialAlgebra and MatrixRing over ApproxFloats, the determinant included, then returns values with finite entries or panics: no infinity and no NaN appears. This includes try_inv, quo_rem, gcd, extended_gcd and lcm, every power, every repeated addition, and the meets and joins of vectors. The isize multiples of vectors and matrices are finite as well, while those of polynomials may be infinite, because they use the unchecked times of the floats. The same holds for everything built on top of them, nested to any depth: residues by QuotientRing and QuotientField (so for complex numbers), ReducedFractions of polynomials, divisibility orders, polynomials in several variables, vectors of matrices, and the additive and multiplicative groups. Finite is all that can be said: a matrix with two equal rows can have a nonzero determinant and be invertible, try_inv of the matrix (49) panics in debug builds and returns in release builds, the product of two polynomials that are members need not be a member, multiplication of polynomials is not commutative, and x+1 and 49x+49 are relative primes.", "quantifier": "all float formats, all profiles, all lengths and sizes, all finite entries, all numbers as exponents and as multiplicities in repeated addition, isize multiples by -1, 0 and 1 except where stated; the failures are concrete f64 values", "why_tests_cant": "Overflows to infinity and NaN appear at the end of long computations on extreme entries. No finite set of float matrices shows that every intermediate result is checked.", "anchors": ["src/approx_floats.rs", "src/matrix_ring.rs: determinant, try_inv, invertible", "src/polynomial_algebra.rs: mul, times, quo_rem", "src/vector_algebra.rs"]}
{"id": "C64", "title": "Small machine integers can be replaced by wider ones or by Integers", "statement": "Take any structure built by the constructors of the crate on top of CheckedInts: quotient rings and fields, fractions, polynomials, vectors, matrices, additive and multiplicative groups, divisibility orders, nested in any way. Whatever one of its methods returns over the w-bit integers, the same method of the same structure returns over CheckedInts of any larger width and over the unbounded Integers, for all arguments of the Rust type and all isize numbers, whether or not they are members. So a computation that does not panic is never silently wrong, and changing I8 to I64 or to Integers never changes a result. The same holds for CheckedUints of two widths.", "quantifier": "for all widths, all towers of structures, all arguments of the Rust types, all isize numbers, all profiles", "why_tests_cant": "an overflow that goes unnoticed shows up only for special values deep inside a computation, and the towers are infinite in number", "anchors": ["src/checked_ints.rs", "src/checked_uints.rs", "src/integers.rs", "src/traits.rs", "src/reduced_fractions.rs", "src/quotient_ring.rs", "src/quotient_field.rs", "src/polynomial_algebra.rs", "src/matrix_ring.rs", "src/vector_algebra.rs"]}
{"id": "C65", "title": "Inverses and determinants of matrices obey the laws of linear algebra, up to the sign", "statement": "For square matrices of any size over any field of the crate, as statements about calls: invertible and try_inv agree; try_inv of the identity is the identity and try_inv twice gives the matrix back; if xy is one then so is yx and try_inv(x) is y; xy is invertible exactly if x and y are, and then try_inv(xy) is try_inv(y) try_inv(x); try_inv(x) y and y try_inv(x) solve the linear systems; an invertible x is no zero divisor. The determinant is a member; it is 1 for the identity and 0 for the zero matrix of positive size; it is nonzero exactly if the matrix is invertible. Up to the sign it is multiplicative, the same for xy and yx, x and -x, x and its transpose, and inverse to the determinant of the inverse. If 1 + 1 is zero in the field, it is exactly multiplicative. Without 'up to the sign' the laws are false, because rows are swapped without changing the sign.", "quantifier": "for all fields with a correct contract, all sizes, all matrices of members, all profiles", "why_tests_cant": "the sign depends on where zeros appear during elimination, which special matrices decide; there are infinitely many fields and sizes", "anchors": ["src/matrix_ring.rs"]}
{"id": "C66", "title": "The structures built from each other fit together: the natural maps are homomorphisms", "statement": "As statements about calls (zero, one, add, sub, mul, neg, double, square, times, int, try_inv computed before or after the map agree): rem by a modulus is a homomorphism from a Euclidean domain to its QuotientRing and, for an irreducible modulus, QuotientField; what it sends to zero are exactly the elements that divisible reports as multiples of the modulus, and each residue is its own image. rem by a divisor of the modulus is a homomorphism between the quotient rings. x/1 is a one-to-one homomorphism to the ReducedFractions, constants a one-to-one homomorphism to the polynomials, and constants map a field to each of its extensions by an irreducible polynomial, preserving inv, div, power and is_zero too. The two-element field of booleans is isomorphic to the QuotientField of the integers modulo 2.", "quantifier": "for all bases with a correct contract, all moduli, all members, all multipliers and exponents but isize::MIN, all profiles", "why_tests_cant": "the maps relate two infinite families of structures; tests compare a few pairs of elements in one of them", "anchors": ["src/quotient_ring.rs", "src/quotient_field.rs", "src/reduced_fractions.rs", "src/polynomial_algebra.rs", "src/two_element_algebra.rs"]}
{"id": "C67", "title": "Vectors and polynomials of machine integers panic exactly when an intermediate result overflows", "statement": "Over CheckedInts of any width: add, sub, mul, neg, double and square of vectors panic exactly if some entry of the result does not fit, and return the exact vector otherwise. For polynomials with non-zero leading coefficients add, neg, sub, times and mul return the exact polynomial, without leading zeros, or panic: add exactly if a sum of coefficients does not fit; sub exactly if a difference or the negative of a coefficient of the second argument does not fit; mul exactly if a product of coefficients does not fit or a partial sum of the products, in the order of the loop, does not. Hence add and sub never panic for coefficients bounded by a and b with a + b < 2^(w-1), and mul never for min(number of coefficients) a b < 2^(w-1). Recorded as false: that mul panics only if a coefficient of the product does not fit, that it panics for both orders of the factors or for none, and that sub panics only if a difference does not fit.", "quantifier": "for all widths, lengths and entries", "why_tests_cant": "whether a partial sum overflows depends on the order of the additions; the inputs for which the final result fits but an intermediate one does not are rare", "anchors": ["src/vector_algebra.rs", "src/polynomial_algebra.rs", "src/checked_ints.rs"]}
{"id": "C68", "title": "Residues and divisors of machine integers panic exactly when an intermediate result overflows", "statement": "Over CheckedInts of at least 4 bits, for every modulus m with |m| >= 2 and all residues 0 <= x, y < |m|: in QuotientRing and QuotientField add, double, mul and square return the exact residue, or panic exactly if the sum or product before the reduction does not fit; neg never panics; sub panics exactly if x plus the residue of -y does not fit, hence never if 2(|m|-1) < 2^(w-1). try_inv and invertible never panic, whatever the modulus: they find an inverse exactly if there is one; QuotientField::inv returns the inverse, or panics exactly if there is none; div panics exactly if there is no inverse z of y or x z does not fit. Recorded as false: that sub panics only if the difference, or the sum, does not fit. In DivisibilityOrder over CheckedInts contains is true exactly for x >= 0; for members leq, less_than and comparable decide divisibility without panics, meet returns the greatest common divisor without panics, and join the least common multiple, or panics exactly if that does not fit.", "quantifier": "for all widths >= 4 (>= 2 for the divisibility order), moduli and residues, in every build profile", "why_tests_cant": "the overflow of an intermediate sum depends on the modulus and both arguments; the coefficients of extended_gcd must be bounded for every modulus to exclude a panic of try_inv", "anchors": ["src/quotient_ring.rs", "src/quotient_field.rs", "src/divisibility_order.rs", "src/checked_ints.rs"]}
{"id": "C69", "title": "Chinese remainders: coprime moduli can be solved simultaneously", "statement": "If relative_primes(m, n) then the element x + ((y - x) * m^-1) * m, computed with try_inv, sub and mul of QuotientRing(n) and mul and add of the base, has the remainder of x modulo m and of y modulo n, and two elements have equal remainders modulo m and modulo n exactly if they have equal remainders modulo m*n; for integers 0 <= x < m, 0 <= y < n it is the one solution between 0 and m*n. An element is invertible in QuotientRing(m*n) exactly if it is in QuotientRing(m) and in QuotientRing(n). The product m*n divides lcm(m, n) exactly if relative_primes(m, n).", "quantifier": "for every Euclidean domain meeting the contract, all non-zero moduli, all members of the base", "why_tests_cant": "relates three different quotient rings for all pairs of moduli and all elements, including polynomials", "anchors": ["src/quotient_ring.rs: try_inv, sub, mul, invertible", "src/traits.rs: EuclideanDomain::rem, relative_primes, lcm"]}
{"id": "C70", "title": "Values and roots of polynomials", "statement": "Evaluating a polynomial with Horner's rule (mul and add of the base) is a ring homomorphism from PolynomialAlgebra to the base. Over an integral domain, x - a divides v exactly if the value of v at a is zero, a non-zero v has fewer distinct roots than coefficients, and two polynomials that agree at as many distinct points as their lengths are equal. Over a field, rem(v, x - a) is the constant value of v at a. A polynomial with three or four coefficients over a field is irreducible exactly if it has no root, and an irreducible polynomial has a root, the residue of x, in QuotientField(PolynomialAlgebra, m), where the value of any polynomial at that root is its remainder modulo m.", "quantifier": "for every ring, integral domain or field meeting the contract, all polynomials and all points", "why_tests_cant": "combines loops over coefficients of arbitrary length with division; tests compare a few coefficients of a few products", "anchors": ["src/polynomial_algebra.rs: mul, add, rem, divisible, is_zero, equals", "src/quotient_field.rs: QuotientField", "src/quotient_ring.rs: QuotientRing"]}
{"id": "C71", "title": "Constructions use their base through its methods only", "statement": "If two bases are related, that is every method called with related arguments returns related values on both, or panics on both, or runs forever on both, then everything built on top of them is related in the same way: QuotientRing and QuotientField with related moduli, ReducedFractions, DivisibilityOrder, AdditiveGroup, MultiplicativeGroup, VectorAlgebra as ring, group, lattice and Boolean algebra, PolynomialAlgebra as ring, integral domain and Euclidean domain, and MatrixRing with its determinant. So the observable behaviour of a construction, including its panics and its termination, depends on the behaviour of the base only.", "quantifier": "for all pairs of bases, all relations between their elements, all arguments of arbitrary size; no law of algebra is assumed of the bases", "why_tests_cant": "quantifies over all implementations of the traits, also faulty ones, and compares non-termination and panics; a test runs one implementation", "anchors": ["src/quotient_ring.rs", "src/quotient_field.rs", "src/reduced_fractions.rs", "src/divisibility_order.rs", "src/vector_algebra.rs", "src/polynomial_algebra.rs", "src/matrix_ring.rs", "src/additive_group.rs", "src/multiplicative_group.rs", "src/traits.rs"]}
{"id": "C72", "title": "Equal floats are interchangeable", "statement": "On the members of F32 and F64 equals identifies exactly the floats that differ in the sign of zero at most. Every method of ApproxFloats called with equal arguments returns equal values or panics for both, also for infinities and NaN, whatever min and max return for 0.0 and -0.0. By C71 the same holds for polynomials, matrices and everything else on top of floats: replacing an entry by an equal one changes results only to equal ones and never turns a result into a panic.", "quantifier": "for all precisions and exponent ranges, all floats, all structures on top of them", "why_tests_cant": "-0.0 and 0.0 are two of 2^64 values and behave differently under division; tests do not combine them with all other values", "anchors": ["src/approx_floats.rs:171-401", "src/matrix_ring.rs", "src/polynomial_algebra.rs"]}
{"id": "C73", "title": "Implementations of the same residues are interchangeable", "statement": "Two structures that compute with the residues modulo k have the same behaviour on residues, so everything on top of them has. This applies to QuotientRing of the integers by m and by -m, to quotients of the integers and of machine integers of w bits if (|m|-1)^2 < 2^(w-1), to GF2 and the quotient of the integers by 2, and to BB and GF2, where true is 1: the matrices, polynomials and finite fields on top of BB do the same as those on top of GF2.", "quantifier": "for all moduli, widths and profiles, all residues, all isize numbers except isize::MIN", "why_tests_cant": "relates unbounded families of instances of generic code, with results of arbitrary size", "anchors": ["src/quotient_ring.rs", "src/quotient_field.rs:7-16", "src/two_element_algebra.rs", "src/integers.rs", "src/checked_ints.rs"]}
{"id": "C74", "title": "Products, multiples and powers over floats have bounded errors", "statement": "Let u = 2^-prec. Every entry of a product of n x n matrices of finite floats, and every coefficient of a product of polynomials, differs from the true sum of k products by at most ((1+u)^k - 1) times the sum of their absolute values, plus k(1+u)^(k-1) halves of the least positive float; the product panics only if the absolute values together with this error reach 2^emax for some entry. If the entries are integer multiples of powers of two (for instance integers) and the sums of absolute values are at most 2^prec units, products are exact and do not panic. times(n, x) of the semigroup of floats has at most log2(n) relative errors of u, power(n, x) has at most n-1 (for positive n) or 2|n|-1 (for negative n), if no intermediate power is subnormal; they panic only if twice the multiple or the square of the power can overflow. They are exact if the multiple or power is an integer of at most 2^prec, times a power of two.", "quantifier": "for all precisions and exponent ranges (so f32 and f64), all matrix sizes and degrees, all finite entries, all exponents", "why_tests_cant": "the bounds are worst cases over 2^64 values per entry and all sizes; tests sample benign values and compare with tolerances", "anchors": ["src/approx_floats.rs:171-401", "src/matrix_ring.rs", "src/polynomial_algebra.rs", "src/traits.rs"]}
{"id": "C75", "title": "Vectors, matrices and polynomials are computed entry by entry", "statement": "Every entry of a sum, difference, negative, double, product or square of VectorAlgebra is the result of the method of the base on the entries, every entry of a sum, difference, negative or double of MatrixRing likewise, every entry of a product of matrices is what the base returns for adding the products of a row and a column to zero from left to right, and every coefficient of a product of polynomials is what the base returns for adding the products v_i u_(k-i) to zero in the order of i. The call on vectors returns exactly if the calls for all entries return, and panics exactly if one of them panics: nothing else is computed and nothing is reordered, so over floats the results are reproducible bit by bit, and over machine integers and their fractions the panics are those of the entries.", "quantifier": "for all bases whose calls end (C62), lawful or not, all sizes, all arguments, members or not", "why_tests_cant": "the order of additions is visible only through rounding and overflow of particular entries; tests over exact bases cannot see it, and tests over floats compare a few results with a tolerance", "anchors": ["src/vector_algebra.rs:67-202", "src/matrix_ring.rs:151-266", "src/polynomial_algebra.rs:88-110"]}
{"id": "C76", "title": "Polynomials with superfluous leading zeros", "statement": "Coefficient vectors of PolynomialAlgebra that end in zeros are not members, but mul over a base with zero divisors returns them. Over any unitary ring add, sub, neg, double, mul, square and times (and the assigning forms) on such vectors still return the right coefficients, with or without zeros at the end; contains, equals, is_zero, is_one, try_inv and invertible answer as for a vector that is not the polynomial. Over a domain or field, try_div and quo_rem by a member that is not longer than the dividend are right, and the remainder is a member; if the divisor is longer, only the lengths count (None, or the dividend as remainder); superfluous zeros in a divisor that is not longer make the call panic. gcd returns one argument unchanged if the other is empty; otherwise it is right and a member if the shorter argument (the second one if they are equally long) has no superfluous zeros, and panics if it has.", "quantifier": "for all bases meeting the contracts (rings for the first part, domains and fields for division and gcd), all polynomials, any number of superfluous zeros", "why_tests_cant": "the vectors are not members, so tests of the laws never use them, although chains of calls over quotient rings produce them; whether a call is right, wrong or panics depends on two lengths", "anchors": ["src/polynomial_algebra.rs:63-286"]}
{"id": "C77", "title": "Permutations on arbitrary vectors", "statement": "Without any condition on the vectors, Permutations(n) behaves as follows in both build profiles. With debug assertions mul, mul_assign, square, is_one, try_inv and inv panic if an argument does not have length n. Otherwise mul panics exactly if the first vector is longer than n or has an entry that is no position of the second, and returns the composition filled up with zeros to length n; mul_assign panics exactly for such an entry and keeps the length; is_one says whether the vector is 0, 1, 2, ... whatever its length; try_inv panics exactly for an entry that is n or more, and otherwise returns, for every number, the last place where it occurs (0 if it does not occur); invertible is always true. On vectors of length n with entries below n, repeated or not, mul is the composition of maps with one as neutral element, power(k) is the k-fold iterate (of the result of try_inv for negative k), try_inv always answers Some, undoes the map on its image, and is an inverse exactly if no entry is repeated.", "quantifier": "for all n, all vectors (of length up to 2^32, where the casts to u32 are exact), all exponents except isize::MIN, debug assertions on and off", "why_tests_cant": "contains is not called by the methods, so any vector can be passed; which of the malformed vectors panic, and which give quiet wrong results in a release build only, cannot be sampled", "anchors": ["src/permutations.rs:46-99"]}
{"id": "C78", "title": "Index arithmetic does not overflow", "statement": "Every index expression of MatrixRing (row * size + col, row + size, size * size, i * (size + 1), col + 1) and of PolynomialAlgebra (len - 1, len1 + len2 - 1, len1 - len2 + 1, i + len2 - 1, i + j, i - 1) fits into usize for every size that MatrixRing::new accepts and all vectors that a Vec can hold, whether or not the vectors are members. So no method panics or wraps because of its index arithmetic, and the methods do in every build profile what they do with unbounded indices. On targets of at least 32 bits the casts between u32 and usize in Permutations change nothing on vectors of at most 2^32 entries.", "quantifier": "for all pointer widths from 2 bits (matrices, polynomials) or 32 bits (permutations), both settings of overflow checks, all bases, all matrix sizes accepted by new, all vectors of at most isize::MAX elements", "why_tests_cant": "the overflow would appear only for vectors of more than 2^31 elements, or silently in release builds; tests cannot allocate them", "anchors": ["src/matrix_ring.rs:23-282", "src/polynomial_algebra.rs:37-286", "src/permutations.rs:26-92"]}
{"id": "C79", "title": "Determinants, inverses and multiples of vectors of a wrong length", "statement": "determinant, invertible and try_inv of MatrixRing have no length check. For a vector with more than n * n entries determinant and invertible do what they do for the first n * n entries; so does try_inv in builds without debug assertions, while with them it panics whenever it would return an inverse, and still returns None otherwise. For a vector with fewer than n * n entries no call returns a wrong certificate: determinant returns only the zero of the base (or does not return), invertible only false, try_inv only None. times of vectors and matrices and power of vectors return the neutral element for the exponent 0 without looking at the length, and panic for every other exponent.", "quantifier": "for all bases (no laws are assumed), all sizes n, all vectors, both build profiles, all exponents", "why_tests_cant": "the tests only pass matrices of the right length; the claim is about all lengths and about bases whose methods may do anything", "anchors": ["src/matrix_ring.rs:57-125", "src/matrix_ring.rs:183-219", "src/vector_algebra.rs:94-202", "src/traits.rs:88-132"]}
{"id": "C80", "title": "In-place methods that panic leave members behind", "statement": "For mul_assign, square, add_assign, double, neg_assign and sub_assign: a call that panics leaves its &mut argument exactly as it was in every structure but vectors, matrices and permutations. A vector (and a matrix, for sums, differences, doubles and negatives) is changed entry by entry: if entry i panics, the entries before i already hold their new values, entry i holds what the base left there and the entries after i are unchanged; a wrong length panics before any change. Products of matrices are written only when they are complete. mul_assign of permutations stops at the first entry that is out of range, with the entries before it replaced. In all cases but the last, members stay members: after a caught panic machine integers are still in range, residues reduced, floats finite, vectors of the right length.", "quantifier": "for all bases, moduli, widths, lengths, arguments and both build profiles", "why_tests_cant": "the tests catch no panic of an in-place method and never look at the argument afterwards", "anchors": ["src/traits.rs:33-40", "src/traits.rs:79-86", "src/traits.rs:141-158", "src/vector_algebra.rs:80-92", "src/vector_algebra.rs:158-202", "src/matrix_ring.rs:238-266", "src/permutations.rs:57-63", "src/additive_group.rs:53-60", "src/multiplicative_group.rs:54-61", "src/two_element_algebra.rs:25-91"]}
{"id": "C81", "title": "How often the structures call their base", "statement": "Vectors call the base once per entry. A product of polynomials with a and b coefficients makes exactly a*b products and a*b sums of coefficients, a sum exactly min(a, b) sums; quo_rem of a by b <= a coefficients makes exactly d = a-b+1 divisions of coefficients and d*(b-1) products and sums; try_div never more, and exactly as many when it succeeds; the whole gcd makes at most a*b products, a*b sums, a*b zero tests and a+b divisions of coefficients, and at most min(a, b) proper divisions of polynomials. A product of n x n matrices makes exactly n^3 products and n^3 sums; a determinant (and invertible) at most (n^3+n^2+2n)/2 products, n^2(n-1)/2 sums, n inverses and n^2 tests; try_inv at most 2n^3 products, 2n^2(n-1) sums and (3n^2-n)/2 tests, n^2 tests more in debug builds, and exactly n inverses when it succeeds. times and power double once per binary digit of |num| and add (multiply) once per digit 1, and a negative power inverts once. gcd makes one test more than divisions; extended_gcd one product and one difference per division.", "quantifier": "for all bases (even ones that satisfy no law), sizes, arguments and both build profiles; counts are of calls that return", "why_tests_cant": "the tests look at results only; none counts calls, so a change from cubic to quartic work or a repeated inversion goes unnoticed", "anchors": ["src/traits.rs:89-100", "src/traits.rs:114-131", "src/traits.rs:248-285", "src/vector_algebra.rs:67-92", "src/vector_algebra.rs:136-202", "src/polynomial_algebra.rs:92-106", "src/polynomial_algebra.rs:144-176", "src/polynomial_algebra.rs:201-233", "src/polynomial_algebra.rs:256-285", "src/matrix_ring.rs:58-125", "src/matrix_ring.rs:155-219"]}
{"id": "C82", "title": "Matrices of machine fractions do not overflow if the minors are small", "statement": "For an integer matrix, given as fractions with denominator 1 over CheckedInts of w bits, whose minors are at most M in absolute value with 2 M^3 < 2^(w-1): determinant, invertible and try_inv do not panic although they compute with fractions throughout; the determinant is the integer (-1)^exchanges det N with denominator 1, invertible says whether det N is not 0, and try_inv is None exactly if det N = 0 and otherwise lists the entries of adj N / det N in lowest terms. Entries at most B give M = n! B^n. Products of integer matrices with entries at most B and C do not panic if n B C < 2^(w-1), and more generally if all products and partial sums fit. A unimodular matrix of i8 for which determinant and try_inv panic although matrix, determinant and inverse fit shows that the size of the result is not enough.", "quantifier": "for all widths w >= 2, sizes n, integer matrices and bounds, both build profiles, pointers of at least 2 bits", "why_tests_cant": "no test uses matrices over fractions of machine integers; whether the intermediate fractions overflow depends on all minors of the matrix and not on single operations, so no finite set of matrices shows that a size is safe", "anchors": ["src/matrix_ring.rs:58-125", "src/matrix_ring.rs:155-215", "src/reduced_fractions.rs:39-51", "src/reduced_fractions.rs:75-81", "src/reduced_fractions.rs:118-134", "src/reduced_fractions.rs:162-173", "src/checked_ints.rs:58-107"]}
{"id": "C83", "title": "What the floats do with infinities and NaN", "statement": "ApproxFloats::times returns infinities, so they can reach the other methods. If an argument is an infinity or NaN, then contains is false, add, sub, mul, double, square, neg, their in-place forms, positive multiples and positive powers panic, and so do div, quo, quo_rem and try_div if the dividend is exceptional or the divisor is NaN. Dividing a finite number by an infinity, inverting an infinity and raising it to a negative power return a zero of the right sign, so an infinity is invertible although it is not a member; NaN is not invertible. rem, gcd and the zeroth power and multiple ignore the argument. times(n, x) returns an infinity, or NaN for n = 0 or x = NaN. NaN is equal to nothing, incomparable with everything, and forgotten by meet and join; the infinities are the least and the greatest elements.", "quantifier": "all precisions, exponent ranges and word sizes; all floats as the other argument; all isize numbers except isize::MIN for negative powers", "why_tests_cant": "tests only use ordinary numbers; the exceptional values combine with every method and every second argument", "anchors": ["src/approx_floats.rs:171-401", "src/traits.rs:89-131", "src/traits.rs:312-374"]}
{"id": "C84", "title": "Backward error of the determinant over floats", "statement": "The determinant of a square matrix of finite floats panics or returns a finite number. If it returns, then there is a nearby matrix L*U, made of the numbers the elimination computed, such that the argument with its rows in some order differs from it entry by entry by at most ((1+u)^(n+5) - 1) times the entry of |L|*|U| plus an underflow term, where u is the relative error of one rounding; U has ones on the diagonal, and the result differs from the product of the diagonal of L by at most ((1+u)^(6n) - 1) times that product plus an underflow term. If the elimination finds no pivot, the result is zero and the nearby matrix is singular. That the result is near the true determinant is false (refuted by a matrix of size 3 with determinant 2^-60 - 2 and result 0), because pivots are not chosen by size.", "quantifier": "all precisions of at least 3 bits and all exponent ranges, all sizes, all matrices of finite floats", "why_tests_cant": "a test compares a few determinants with their true values and says nothing about the error for all matrices, sizes and precisions", "anchors": ["src/matrix_ring.rs:58-125", "src/approx_floats.rs:171-401"]}
{"id": "C85", "title": "Backward error of the division of polynomials over floats", "statement": "For polynomials f and g of finite floats, where the leading coefficient of g is not zero and f is not shorter than g, quo_rem(f, g) panics or returns finite coefficients q and r such that every coefficient of q*g + r differs from that of f by at most ((1+u)^(d+1) - 1) times the corresponding coefficient of |q|*|g| + |r| plus an underflow term, where d is the smaller one of the number of coefficients of q and the degree of g. The remainder is shorter than g and its leading coefficient is not zero. That q*g + r is near f itself is false: 1 + x divided by 1 + 2^-60 x gives q*g + r = x.", "quantifier": "all precisions and exponent ranges, all polynomials of finite floats", "why_tests_cant": "a test compares a few quotients with the expected ones; the bound concerns all polynomials and every sequence of roundings", "anchors": ["src/polynomial_algebra.rs:252-286", "src/approx_floats.rs:171-401"]}
{"id": "C86", "title": "Residual of inverses of matrices over floats", "statement": "try_inv of a square matrix A of finite floats panics, or returns None, or returns a matrix X of finite floats such that every entry of A*X differs from that of the identity matrix by at most residual_error, a number that the multipliers and pivots of the elimination determine: 2((1+u)^(n+5) - 1) times the product of the absolute values of the elementary steps and of |X|, plus an underflow term. What is computed is a Gauss-Jordan elimination in rounded arithmetic of a matrix whose rows are those of A and of the identity matrix in another order; k exact steps with the same multipliers reduce a nearby matrix to one that begins with k columns of the identity matrix. If None is returned then this nearby matrix is singular. That X is near the inverse is false: for (2^-60 1; 1 1) the first entry is 0 and that of the inverse is nearly -1.", "quantifier": "all precisions from 3 on and all exponent ranges, all sizes, all matrices of finite floats, debug and release builds", "why_tests_cant": "a test compares a few inverses with the expected ones; the bound concerns all matrices, all orders of pivots and every sequence of roundings", "anchors": ["src/matrix_ring.rs:58-94", "src/matrix_ring.rs:183-215", "src/approx_floats.rs:171-401"]}
{"id": "C87", "title": "Floats compute exactly as long as nothing is rounded", "statement": "Put a check behind each operation of ApproxFloats<E>, which panics if the result is not the exact real number. (a) For finite arguments a checked operation returns the exact result if this is a float, and panics otherwise. (b) In every structure the crate builds over floats, whatever a method returns with the checks it returns without them. (c) With the checks, floats obey the contract of the field of rational numbers: whatever they return is right; so quotient, remainder and gcd of polynomials over floats are right whenever no operation is rounded. (d) Nothing is rounded when dividing an integer polynomial by one with leading coefficient 1 or -1, if B (1 + C)^(deg P - deg Q + 1) < 2^prec for bounds B, C of the coefficients: the result is the division in Z[x]. (e) Nothing is rounded in the determinant and the inverse of an integer matrix whose minors are zero or powers of two (up to the sign) of at most K bits with 3K + 2 <= prec: the determinant is right up to the sign of the row exchanges, singular matrices have no inverse, and the inverse is the adjugate divided by the determinant.", "quantifier": "all precisions and exponent ranges, all finite floats, all structures over floats, all sizes", "why_tests_cant": "tests compare a few float results with expected values; they cannot show that exactness of the single operations carries over to all structures, nor that a family of matrices of every size is free of rounding", "anchors": ["src/approx_floats.rs:34-144", "src/polynomial_algebra.rs:252-286", "src/matrix_ring.rs:58-128", "src/matrix_ring.rs:183-215"]}
{"id": "C88", "title": "Integer polynomials do not overflow within bounds", "statement": "Let P, Q, N be polynomials with integer coefficients of absolute value at most B, C, D. Over ReducedFractions<CheckedInts<E>> with a signed type of w bits, polynomial neg, add, sub, mul, quo_rem (Q with leading coefficient 1 or -1) return, without a panic, the right polynomial with integer coefficients, if B, B + C, B + C, size(P) B C, B (1 + C)^(deg P - deg Q + 1) respectively is less than 2^(w-1). The product and the sum in QuotientRing or QuotientField modulo N (leading coefficient 1 or -1) return the residue with integer coefficients, if the bound of the product or sum times (1 + D)^(deg - deg N + 1) is less than 2^(w-1): number rings such as the Gaussian integers. The same holds over floats, with 2^prec in place of 2^(w-1): nothing is rounded.", "quantifier": "all signed types, all precisions, all degrees, all polynomials and bounds satisfying the inequality", "why_tests_cant": "tests run a few small polynomials; that no intermediate value overflows within the stated bounds concerns all coefficients and degrees", "anchors": ["src/polynomial_algebra.rs:92-186", "src/polynomial_algebra.rs:256-286", "src/reduced_fractions.rs:60-170", "src/quotient_ring.rs:57-100", "src/checked_ints.rs", "src/approx_floats.rs:34-144"]}
{"id": "C89", "title": "The width of isize and usize does not matter", "statement": "Compile the crate for two targets whose isize and usize have different widths, in any build profiles. In every structure the crate builds, over machine integers, big integers, booleans or floats, every method has the same outcome on both targets for all arguments, members or not, and all isize numbers that exist on both targets and are not the least one on either; for try_inv of matrices, which makes a debug assertion, this holds for matrices over a field. Whatever a build with overflow checks for the narrower target returns, for any of its isize numbers, the wider target returns too. MatrixRing::new(n) panics exactly if n * n is not a usize. In release builds the targets do differ at the least isize of the narrower one.", "quantifier": "all pairs of widths and profiles, all structures, all arguments of the Rust types, all isize numbers", "why_tests_cant": "tests run on one target", "anchors": ["src/traits.rs:114-131", "src/additive_group.rs", "src/multiplicative_group.rs", "src/matrix_ring.rs:24-34", "src/approx_floats.rs:240-243"]}
{"id": "C90", "title": "Matrices of machine fractions with denominators do not overflow if they are small", "statement": "Let the entries of a square matrix over ReducedFractions of i8, i16, i32, i64 or isize be fractions with numerators N(i,j) over a common denominator D(i) for each row i (not necessarily the reduced ones). If M bounds the minors of N and L is M times the product of all D(i), and 2 L^3 is less than 2 to the width minus 1, then no step overflows: determinant returns the canonical fraction det N / (D(1) ... D(n)), with the sign (-1)^(row exchanges), invertible tells whether det N is not zero, and try_inv returns the canonical entries adj(N)(i,j) D(j) / det N, or None if det N is zero. The product of a matrix with row denominators at most d and one with column denominators at most e, numerators at most B and C, returns the canonical entries of the true product if n B C d e and (d e)^2 are less than 2 to the width minus 1. One sum or product of fractions with denominators q and r is exact under the corresponding bounds.", "quantifier": "all widths and build profiles, all sizes n, all matrices of reduced fractions within the bounds", "why_tests_cant": "the fractions that occur during elimination depend on all entries; overflow needs particular ones", "anchors": ["src/matrix_ring.rs:58-125", "src/matrix_ring.rs:155-215", "src/reduced_fractions.rs:39-51", "src/reduced_fractions.rs:75-81", "src/reduced_fractions.rs:118-134", "src/reduced_fractions.rs:162-173", "src/checked_ints.rs:58-107"]}
{"id": "C91", "title": "Constructors keep their arguments and make exactly the checks they document", "statement": "new of every structure returns a struct whose accessors base(), modulo(), size() and len() give back the arguments, and whose methods compute with them. MatrixRing::new(base, n) panics exactly if n * n is not a usize; otherwise len() and the length of its vectors are n * n, without overflow. QuotientRing::new and QuotientField::new return exactly if the modulus is contained in the base (and, for QuotientField, if 1 is zero modulo 1). ReducedFractions::new panics exactly if one is zero in the base; no Euclidean structure of the crate is refused by this check, not even the trivial ring of residues modulo one.", "quantifier": "all structs, all bases whether or not they obey any laws, all arguments, all pointer widths and profiles", "why_tests_cant": "the base is arbitrary; the width of usize is fixed in a test", "anchors": ["src/vector_algebra.rs:23-36", "src/matrix_ring.rs:23-43", "src/polynomial_algebra.rs:25-32", "src/quotient_ring.rs:22-35", "src/quotient_field.rs:38-53", "src/reduced_fractions.rs:28-36", "src/divisibility_order.rs:21-28", "src/additive_group.rs:20-27", "src/multiplicative_group.rs:21-28", "src/permutations.rs:14-20"]}
{"id": "C92", "title": "Floats modulo x^2 + 1 are complex numbers with rounded components", "statement": "In QuotientField over PolynomialAlgebra over ApproxFloats with the modulus x^2 + 1, add and sub round the sums (differences) of the two components and panic exactly if one of them overflows; neg is exact. mul rounds the four products, then their difference and sum, and panics exactly if one of these six roundings overflows; the error of each component is at most ((1+u)^2 - 1) times the sum of the absolute values of its two products plus an underflow term. The same factor times the product of the two absolute values also bounds the error of each component. Products of Gaussian integers are exact, and do not panic, if the absolute values of the two products in each component add up to at most 2^p. inv of a number that is not real computes the roundings of the extended Euclidean algorithm and panics exactly if one of five of them overflows; if no intermediate result is subnormal, both components have a relative error of at most ten (eight) roundings, whatever the cancellation. inv of a real number is the rounded reciprocal; inv of zero panics. div by a number that is not real multiplies by that inverse, and panics exactly if the inverse or the product overflows. A product of contained elements may end in a zero that underflowed, and such an element has no inverse although it is contained, nonzero and said to be invertible.", "quantifier": "all float formats, all profiles, all components; the failure is a concrete f64 product", "why_tests_cant": "the roundings and the order of the operations in four nested generic layers are compared with a formula for all operands", "anchors": ["src/quotient_field.rs:71-78", "src/quotient_field.rs:105-141", "src/polynomial_algebra.rs:88-107", "src/polynomial_algebra.rs:144-176", "src/polynomial_algebra.rs:256-285", "src/approx_floats.rs:40-140"]}
{"id": "C93", "title": "Residues of polynomials in coordinates: quadratic extensions, power series, convolutions, derivatives", "statement": "Over any field of the crate: in QuotientField of polynomials modulo x^2 + s x + t, (a + b x)(c + d x) = (ac - tbd) + (ad + bc - sbd) x; with N = a^2 - sab + tb^2, inv(a + b x) is (a - sb)/N - (b/N) x if N is not zero and panics if it is, div likewise, and N is zero for zero only unless the modulus has a root. QuotientRing computes the same product, and try_inv returns that inverse exactly if N is not zero. In QuotientRing modulo x^n, add and mul truncate the sum and the Cauchy product, whatever the degrees of the arguments; try_inv returns the power series inverse, given by its recursion, exactly if the constant term is not zero. Modulo x^n - 1, mul is the cyclic convolution. Modulo x^2, evaluating a polynomial by Horner's rule at a + b x gives its value at a and b times its derivative at a.", "quantifier": "every field meeting the contract, all coefficients s and t, all n > 0, all polynomials; all profiles", "why_tests_cant": "the formulas are compared with three generic layers for all operands, all moduli of the kind and all fields", "anchors": ["src/quotient_ring.rs:53-75", "src/quotient_field.rs:105-141", "src/polynomial_algebra.rs:88-107", "src/polynomial_algebra.rs:256-285"]}
{"id": "C94", "title": "Permutations, vectors and residues as matrices; characteristic polynomials", "statement": "Over any field of the crate. The matrices of permutations, built entry by entry, give a one to one homomorphism from Permutations(n) to the MultiplicativeGroup of the MatrixRing: one, is_one, mul, square, inv and power computed before or after the map agree. determinant returns 1 for each of them, also for odd permutations (it forgets the sign), and exactly the product of the diagonal for every triangular matrix. Diagonal matrices give a one to one homomorphism from VectorAlgebra to MatrixRing that preserves and reflects invertibility. The matrices of multiplication by the residues modulo a polynomial of degree n give such a homomorphism from QuotientRing to the n by n MatrixRing; for a monic modulus the matrix of x is its companion matrix. The determinant of x - N over the fractions of polynomials is exactly the characteristic polynomial of N over 1, the modulus itself for a companion matrix, and evaluating it at N by Horner's rule in MatrixRing gives zero (Cayley-Hamilton).", "quantifier": "every field meeting the contract, all n, all permutations, vectors, residues, moduli and matrices, all powers but isize::MIN; all profiles", "why_tests_cant": "the maps connect structures that share no code, for all sizes and all fields; a test compares a few products", "anchors": ["src/permutations.rs:46-99", "src/matrix_ring.rs:91-126", "src/matrix_ring.rs:151-220", "src/quotient_ring.rs:53-75"]}
{"id": "C95", "title": "The contracts fix behaviour; finite fields of one size are interchangeable", "statement": "Two structures that meet the contract of a monoid, group, abelian group, ring, field or lattice do the same, whatever the stored form of their elements: if an embedding of the values relates the arguments, every method returns related values or panics in both. Quotients by associated moduli, from any two implementations of the base, are interchangeable. One finite field built by the crate (from BB or a prime field by extensions) acts inside another, each element having exactly one partner and every method agreeing, exactly when the second size is a power of the first; two of the same size are interchangeable completely, whatever moduli and towers they were built with. The multiplicative group of a finite field with k > 2 elements is interchangeable with the additive group of QuotientRing(ZZ, k - 1).", "quantifier": "every pair of implementations meeting the contracts, every embedding of the values, all members, all moduli, all finite fields of any size; integer arguments but isize::MIN; all profiles", "why_tests_cant": "the correspondence between two towers is not computable from the code and exists for infinitely many pairs; the impossible direction is about all relations", "anchors": ["src/quotient_field.rs:20-95", "src/quotient_ring.rs:20-110", "src/multiplicative_group.rs:20-80", "src/additive_group.rs:20-70", "src/traits.rs:1-120"]}
{"id": "C96", "title": "Which numbers F32 and F64 contain, and where results overflow", "statement": "F32 contains exactly the numbers m * 2^e with |m| < 2^24 and -149 <= e <= 104, F64 those with |m| < 2^53 and -1074 <= e <= 971. The sum, difference, product, quotient or inverse of members is a member nearest to the exact result when the exact result is smaller in absolute value than 2^128 - 2^103 for F32 and 2^1024 - 2^970 for F64, and the call panics from that bound on.", "quantifier": "all members, all results on both sides of the bound; all profiles", "why_tests_cant": "tests try a handful of values and never reach the overflow boundary, which lies between two floats", "anchors": ["src/approx_floats.rs:12-20", "src/approx_floats.rs:160-264", "src/approx_floats.rs:276-380"]}
{"id": "C97", "title": "Irreducibility of a modulus can be decided with the crate's own calls", "statement": "QuotientField::new does not check its modulus. For a polynomial v of degree n >= 1 over a finite field with k elements built by the crate, the program that computes the powers X^(k^i) in QuotientRing(v) and asks relative_primes(v, X^(k^i) - X) for i = 1, ..., n/2 never panics and answers true exactly when v is irreducible. If it answers true, QuotientField(v) has k^n members and inv returns the inverse of each but zero; if it answers false, inv panics for some non-zero member. The modulus 1 + x + x^3 + x^4 + x^8 of the crate's test passes.", "quantifier": "all finite fields built from BB or prime fields by extensions, all polynomials of any positive degree; all profiles", "why_tests_cant": "a test can only try single moduli, and irreducibility is a statement about all factorizations", "anchors": ["src/quotient_field.rs:33-43", "src/quotient_field.rs:131-141", "src/quotient_ring.rs:20-110", "src/traits.rs:217-296", "src/polynomial_algebra.rs:292-321"]}
{"id": "C98", "title": "Generators of a finite field are recognised by powers", "statement": "In a finite field with k elements built by the crate a non-zero element generates the multiplicative group (its powers 0, ..., k-2 are the non-zero elements, each once) exactly when power((k-1)/r, x) is not one for each prime divisor r of k - 1. In particular 1 + x generates the field of 256 elements of the crate's test field_256.", "quantifier": "all finite fields built by the crate whose size fits in isize, all non-zero members; all profiles", "why_tests_cant": "the test field_256 enumerates the powers of one element of one field", "anchors": ["src/polynomial_algebra.rs:292-321", "src/quotient_field.rs:131-141", "src/traits.rs:299-375"]}
{"id": "C99", "title": "Residues modulo a product of linear factors are vectors of values: interpolation and the Fourier transform", "statement": "Let v be the product of x - a_i for n different elements a_i of a field. Then QuotientRing(polynomials, v) and VectorAlgebra(field, n) are interchangeable: if the vectors are the values of the residues at a_0, ..., a_(n-1), each ring method, try_inv and invertible included, returns again a residue and the vector of its values, or panics in both. Each vector of n members belongs to exactly one residue. In particular, for a primitive n-th root of unity g, multiplication modulo x^n - 1 (cyclic convolution) is multiplication of the vectors of values at the powers of g.", "quantifier": "all fields meeting the contract whose calls depend on nothing but their arguments (towers of finite fields among them), all n >= 1, all choices of different points, all members; integer arguments but isize::MIN; all profiles", "why_tests_cant": "relates two constructions by a map that the crate does not contain, for all degrees and points", "anchors": ["src/quotient_ring.rs:20-110", "src/vector_algebra.rs:20-260", "src/polynomial_algebra.rs:100-260"]}
{"id": "C100", "title": "Factorization into irreducible elements exists and is unique as far as the crate can tell", "statement": "In every structure meeting the contract of Euclidean domains: if associates returns true for the products of two lists of irreducible members, computed with mul, then the second list can be reordered so that associates holds for each pair of entries. Every integer but 0, 1 and -1, and every polynomial of positive degree over a finite field, is the product of a list of irreducible members.", "quantifier": "uniqueness: all Euclidean structures meeting the contract, checked integers included (where calls may panic), all lists; existence: all integers, all polynomials over all finite fields of the crate", "why_tests_cant": "a statement about all pairs of lists of all lengths", "anchors": ["src/traits.rs:182-296", "src/integers.rs:20-130", "src/polynomial_algebra.rs:100-260"]}
{"id": "C101", "title": "Products over all members of a finite field (Wilson)", "statement": "In every finite field that the crate builds, with k elements: the product of all non-zero members, in any order, plus one is zero; the product of the polynomials x - a over all members a, computed by PolynomialAlgebra, is x^k - x. In particular (q-1)! + 1 is zero in QuotientField(Integers, q) for every prime q.", "quantifier": "all finite fields of the crate (prime fields over Integers and checked integers, extensions to any depth), all orders of the members; all primes q; all profiles", "why_tests_cant": "all finite fields, all sizes and all orders of the factors", "anchors": ["src/quotient_field.rs:20-140", "src/polynomial_algebra.rs:100-260", "src/two_element_algebra.rs:20-150"]}
{"id": "C102", "title": "The discrete Fourier transform written with the methods of the crate is undone by its inverse", "statement": "dft(field, g, v) (a client program of power, mul, add and zero) returns the values of the polynomial with coefficients v at 1, g, ..., g^(n-1). If g is a primitive n-th root of unity for n = v.len(), inverse_dft, which uses inv(g), int(n) and div, returns v again; n is never zero in the field then, so div does not panic.", "quantifier": "all fields meeting the contract, all n that fit in isize (but isize::MIN), all vectors, all primitive roots; over finite fields the result is the same vector", "why_tests_cant": "all fields, sizes and roots; the division by n depends on the characteristic", "anchors": ["src/traits.rs:299-375", "src/quotient_field.rs:20-140"]}
{"id": "C103", "title": "Powers of residues: key exchange and encryption with two primes", "statement": "In every ring that computes with the residues modulo k, MultiplicativeGroup::power(n, x) for n >= 0 returns x^n mod k, also for residues that are not invertible. Raising to the power m and then to n gives the same as in the other order. For different primes p, q and e d = 1 modulo (p-1)(q-1), power(d, power(e, x)) = x for all residues modulo p q.", "quantifier": "all moduli k >= 2 and all structures computing with residues (QuotientRing over Integers, and over checked integers when the products fit), all exponents that are not negative, all residues, all primes", "why_tests_cant": "all moduli, exponents and residues; members and non-members of the group", "anchors": ["src/multiplicative_group.rs:46-91", "src/traits.rs:106-135", "src/quotient_ring.rs:20-110"]}
{"id": "C104", "title": "Derivatives and repeated factors of polynomials", "statement": "A client program that uses add, mul and zero of the polynomial ring computes the derivative of every polynomial over every field, and the results obey the product rule. relative_primes(v, derivative of v) returns true only if no square of a polynomial of positive degree divides v; over finite fields and over the rational numbers it returns true exactly in this case.", "quantifier": "all fields whose operations meet their contracts (for the converse: all finite fields built with the crate, and ReducedFractions over Integers), all polynomials, all candidate divisors", "why_tests_cant": "all fields and polynomials; that no square divides a polynomial quantifies over all polynomials", "anchors": ["src/polynomial_algebra.rs:100-289", "src/traits.rs:188-195", "src/traits.rs:286-292"]}
{"id": "C105", "title": "Linear equations in two unknowns over Euclidean domains", "statement": "A client program that uses extended_gcd, divisible, quo and mul finds a solution of a u + b v = c whenever there is one, and reports that there is none otherwise. Adding r b/g to u and subtracting r a/g from v, with g = gcd(a, b), gives solutions for all r, and every solution is reached by some r.", "quantifier": "all Euclidean domains that meet their contracts, all coefficients and right-hand sides, all solutions in the ring", "why_tests_cant": "unsolvability and completeness quantify over all pairs of ring elements", "anchors": ["src/traits.rs:188-195", "src/traits.rs:219-292"]}
{"id": "C106", "title": "Square roots and quadratic equations over finite fields", "statement": "In every finite field with an even number k of elements, power(k/2, x) returns the only square root of x. If k = 3 modulo 4, power((k+1)/4, x) returns a square root of x exactly if x has one, and a client program built on it returns all roots of x^2 + b x + c, or None if there are none.", "quantifier": "all finite fields that can be built with the crate and whose size is an isize, all elements, all coefficients", "why_tests_cant": "all finite fields; uniqueness of roots and absence of roots quantify over all elements", "anchors": ["src/traits.rs:106-135", "src/traits.rs:296-325", "src/quotient_field.rs:1-161", "src/two_element_algebra.rs:1-156"]}
{"id": "C107", "title": "Certificates for prime moduli", "statement": "In a ring that computes with the residues modulo k, a residue x with MultiplicativeGroup::power(k-1, x) = 1 and power((k-1)/q, x) different from 1 for all primes q dividing k-1 proves that k is a prime, so that QuotientField by k is a field. Every prime k has such a residue.", "quantifier": "all moduli k >= 2, all structures that compute with the residues modulo k (QuotientRing over Integers, over checked integers when the products fit), all residues, all prime divisors of k-1", "why_tests_cant": "all moduli; the claim that k is a prime and the existence of a certificate quantify over all numbers", "anchors": ["src/multiplicative_group.rs:46-91", "src/traits.rs:106-135", "src/quotient_ring.rs:20-110"]}
{"id": "C108", "title": "Fractions that are roots of polynomials over the base ring", "statement": "If an element of ReducedFractions is a root of a polynomial whose coefficients come from the base ring, then the base ring reports that its numerator divides the constant coefficient and its denominator divides the leading coefficient. If the leading coefficient is one, so is the denominator.", "quantifier": "all Euclidean domains that meet their contracts, all lists of coefficients, all fractions", "why_tests_cant": "all base rings, polynomials and fractions; needs that the stored pairs are in lowest terms", "anchors": ["src/reduced_fractions.rs:1-214", "src/traits.rs:188-195"]}
{"id": "C109", "title": "Splitting fractions with relatively prime denominators", "statement": "If the base ring reports that x and y are relatively prime, neither of them zero, then for every z the solution (u, v) of u*y + v*x = z obtained from extended_gcd exists, and in ReducedFractions z/(x*y) equals u/x + v/y.", "quantifier": "all Euclidean domains that meet their contracts, all elements x, y, z with x and y not zero", "why_tests_cant": "all base rings and elements; involves the extended Euclidean algorithm and the arithmetic of fractions together", "anchors": ["src/reduced_fractions.rs:39-52", "src/reduced_fractions.rs:118-135", "src/reduced_fractions.rs:162-174", "src/traits.rs:272-297"]}
{"id": "C110", "title": "The composition of polynomials", "statement": "Horner's rule in PolynomialAlgebra with a polynomial w as the argument computes the composition v(w): its value at x is the value of v at the value of w at x, its degree is the product of the degrees, composition is associative, and the derivative of v(w) is v'(w) w'.", "quantifier": "all fields that meet their contracts, all polynomials, all elements", "why_tests_cant": "all fields and polynomials of all degrees", "anchors": ["src/polynomial_algebra.rs:92-107", "src/polynomial_algebra.rs:144-168"]}
{"id": "C111", "title": "Counting the roots of a polynomial in a finite field", "statement": "Over a field with k elements, PolynomialAlgebra::gcd of v and x^k - x has as its degree the number of members of the field that are roots of v. In particular the gcd is constant exactly if v has no root in the field.", "quantifier": "all finite fields that can be constructed, all polynomials, including zero and those with multiple roots", "why_tests_cant": "all finite fields and polynomials of all degrees; the count quantifies over all members", "anchors": ["src/polynomial_algebra.rs:256-285", "src/traits.rs:248-258"]}
{"id": "C112", "title": "Sequences with a linear recurrence", "statement": "If a sequence satisfies v_0 u_m + v_1 u_(m+1) + ... + v_d u_(m+d) = 0 for all m, then the coefficients of MultiplicativeGroup::power(n, x) in QuotientRing by the polynomial v, multiplied by the first d terms and added up, give u_n. With v = x^2 - x - 1 this computes the n-th Fibonacci number in every field.", "quantifier": "all fields that meet their contracts, all polynomials v of positive degree, all sequences with the recurrence, all n", "why_tests_cant": "all fields, recurrences and indices n; no bound on n or on the length of the recurrence", "anchors": ["src/multiplicative_group.rs:46-91", "src/quotient_ring.rs:20-110", "src/polynomial_algebra.rs:256-285", "src/traits.rs:114-131"]}
{"id": "C113", "title": "gcd and lcm of lists of elements", "statement": "Folding EuclideanDomain::gcd over a list, starting with zero, gives an element whose divisors are exactly the common divisors of the list. Folding lcm, starting with one, gives an element whose multiples are exactly the common multiples. Lists with the same elements give associates, whatever their order and repetitions.", "quantifier": "all Euclidean domains that meet their contracts, all lists of elements, including the empty list and lists with zeros", "why_tests_cant": "all rings and lists of all lengths", "anchors": ["src/traits.rs:248-270", "src/traits.rs:199-203"]}
{"id": "C114", "title": "How often one element divides another", "statement": "The loop `while divisible(z, y) { z = quo(z, y); n += 1 }` ends for all non-zero integers x and y other than 1 and -1, and for all non-zero polynomials over a field and non-constant y. It yields n and z with x = z * y^n such that y does not divide z. For irreducible y the number n of a product is the sum of the numbers of the factors.", "quantifier": "all integers, all fields that meet their contracts and all polynomials over them, all Euclidean domains with a size that grows in products with y", "why_tests_cant": "termination and the maximality of n for all elements", "anchors": ["src/traits.rs:188-195", "src/traits.rs:227-231", "src/integers.rs:103-144", "src/polynomial_algebra.rs:201-233"]}
{"id": "C115", "title": "Newton's iteration for inverses of residues", "statement": "If m divides 1 - a*b, then k rounds of m := m*m, b := rem(b*(2 - a*b), m) end with m^(2^k) and an inverse of a modulo m^(2^k), as confirmed by divisible. This lifts inverses of residues to powers of the modulus and inverts power series.", "quantifier": "all Euclidean domains that meet their contracts, all elements a, all non-zero moduli m, all inverses b of a modulo m, all k", "why_tests_cant": "all rings, elements and numbers of rounds", "anchors": ["src/traits.rs:146-150", "src/traits.rs:190-196", "src/traits.rs:234-236"]}
{"id": "C116", "title": "Discrete logarithms", "statement": "A client that stores the first m powers of g and then multiplies h by inv(g^m) up to m times, looking it up by equals each time, returns the smallest n < m*m with g^n = h, and None exactly when there is none. In a finite field of k elements with generator g and k - 1 <= m*m it succeeds for each non-zero h, and power(n, g) gives back h.", "quantifier": "all fields that meet their contracts, all non-zero g, all h, all m; all finite fields that can be built, all generators", "why_tests_cant": "all fields, bases, elements and table sizes", "anchors": ["src/traits.rs:302", "src/traits.rs:311-315", "src/quotient_field.rs:66-82", "src/quotient_field.rs:135-145"]}
{"id": "C117", "title": "Inverting many elements with one inversion", "statement": "A client that multiplies a list of field elements together, calls inv once on the product, and recovers the individual inverses by multiplications returns the inverses of the elements; they are equal, as equals confirms, to what inv returns element by element. It panics if one of the elements is zero.", "quantifier": "all fields that meet their contracts, all lists of members", "why_tests_cant": "all fields and lists of any length", "anchors": ["src/traits.rs:302", "src/traits.rs:30", "src/reduced_fractions.rs:162-166", "src/quotient_field.rs:135-145"]}
{"id": "C118", "title": "The order of an element of a field", "statement": "Given a power x^n that is 1 and primes whose product is a multiple of n, a client that divides n by each prime r as long as r divides n and is_one(power(n/r, x)) holds ends with the order of x: the smallest positive exponent d with x^d = 1, and exactly the multiples of d have this property. In a finite field of k elements the generators are the elements whose order so computed is k - 1.", "quantifier": "all fields that meet their contracts, all elements, all exponents in the range of isize, all lists of primes; all finite fields that can be built", "why_tests_cant": "all fields, elements and exponents", "anchors": ["src/traits.rs:311-318", "src/traits.rs:114-133", "src/polynomial_algebra.rs:292-321"]}
{"id": "C119", "title": "Simultaneous congruences with arbitrary moduli", "statement": "A client that combines congruences y = a (mod n) one after the other, with extended_gcd to adjust the solution and lcm to combine the moduli, returns one congruence y = x (mod m) with exactly the same solutions and x reduced modulo m; it returns None exactly when there is no common solution. The moduli need not be relatively prime.", "quantifier": "all Euclidean domains that meet their contracts, all lists of congruences with non-zero moduli", "why_tests_cant": "all rings and lists of any length", "anchors": ["src/traits.rs:260-267", "src/traits.rs:272-286", "src/traits.rs:234-236"]}
{"id": "C120", "title": "Lagrange interpolation and shared secrets", "statement": "A client that adds up y * prod (z - v)/(x - v) over the points (x, y), where the product runs over the other points v, computes the value at z of every polynomial of degree less than the number of points that goes through these points. This is how a shared secret is reconstructed. It never divides by zero for distinct points.", "quantifier": "all fields that meet their contracts, all polynomials, all lists of more distinct points than the degree, all z", "why_tests_cant": "all fields, polynomials and points", "anchors": ["src/traits.rs:306-308", "src/traits.rs:146-150", "src/traits.rs:23"]}
{"id": "C121", "title": "Continued fractions", "statement": "A client that runs the Euclidean algorithm with quo_rem and accumulates the convergents h := q*h1 + h0, k := q*k1 + k0 ends with x = g*h and y = g*k for a greatest common divisor g of x and y. So h/k is the fraction x/y in lowest terms, as equals and relative_primes confirm. The loop ends for all x and y.", "quantifier": "all Euclidean domains that meet their contracts, all x and y, also zero", "why_tests_cant": "all rings and elements", "anchors": ["src/traits.rs:222", "src/traits.rs:289-292"]}
{"id": "C122", "title": "Digits to any base", "statement": "A client that calls quo_rem n times with the same modulus m and keeps the remainders writes x as d_0 + d_1*m + ... + d_(n-1)*m^(n-1) + q*m^n with reduced digits d_i; multiplying and adding gives x back. Conversely each list of reduced elements is the list of digits of the element it denotes, so the digits are unique. For polynomials this is the expansion in powers of m.", "quantifier": "all Euclidean domains that meet their contracts, all elements x, all non-zero bases m, all numbers of digits", "why_tests_cant": "all rings, elements, bases and numbers of digits", "anchors": ["src/traits.rs:222", "src/integers.rs:131-144", "src/polynomial_algebra.rs:256-285"]}
{"id": "C123", "title": "Multiplication with three products of halves", "statement": "A client that splits both factors with quo_rem by a base, recursively computes three products of halves, and combines them with add and sub (Karatsuba) returns the product, and agrees with mul, for all lists of non-zero bases.", "quantifier": "all Euclidean domains that meet their contracts, all factors, all lists of non-zero bases", "why_tests_cant": "all rings, factors and depths of recursion", "anchors": ["src/traits.rs:222", "src/traits.rs:146-150", "src/integers.rs:131-144", "src/polynomial_algebra.rs:256-285"]}
{"id": "C124", "title": "Sorting with meet and join", "statement": "A client that inserts every element of a list into a chain with meet and join alone returns a chain of the same length in every lattice. When the order is total the chain is the sorted list, whatever the order of the input. In the divisibility lattice each entry divides the next and the product of the list is kept up to an associate.", "quantifier": "all lattices that meet their contracts, all lists; all Euclidean domains for the product", "why_tests_cant": "all lattices, list lengths and elements", "anchors": ["src/traits.rs:413-417", "src/divisibility_order.rs:60-68", "src/integers.rs:162-168"]}
{"id": "C125", "title": "Medians with meet and join", "statement": "A client that joins the meets of the three pairs of elements returns the element that occurs twice, lies between the bounds of the three in every lattice, and is the middle element when the order is total.", "quantifier": "all lattices that meet their contracts, all triples of elements", "why_tests_cant": "all lattices and elements", "anchors": ["src/traits.rs:413-417", "src/divisibility_order.rs:60-68", "src/integers.rs:162-168"]}
