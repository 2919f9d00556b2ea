{
 "claims": [
  {
   "property": "C01",
   "status": "proved",
   "theorems": [
    "C01_ring",
    "C01_times",
    "C01_units",
    "C01_try_div",
    "C01_try_div_zero",
    "C01_divisible",
    "C01_associates",
    "C01_associate_repr",
    "C01_associate_coef",
    "C01_associate_coef_zero",
    "C01_laws",
    "C01_order"
   ],
   "note": ""
  },
  {
   "property": "C02",
   "status": "proved",
   "theorems": [
    "C02_quo_rem",
    "C02_zero_divisor",
    "C02_reduced"
   ],
   "note": ""
  },
  {
   "property": "C03",
   "status": "proved",
   "theorems": [
    "C03_default",
    "C03_contract",
    "C03_ZZ",
    "C03_CheckedInts",
    "C03_poly",
    "C03_field"
   ],
   "note": ""
  },
  {
   "property": "C04",
   "status": "proved",
   "theorems": [
    "C04_default",
    "C04_contract",
    "C04_ZZ",
    "C04_CheckedInts",
    "C04_poly",
    "C04_field"
   ],
   "note": ""
  },
  {
   "property": "C05",
   "status": "proved",
   "theorems": [
    "C05_contract",
    "C05_ZZ",
    "C05_CheckedInts",
    "C05_poly",
    "C05_field"
   ],
   "note": ""
  },
  {
   "property": "C06",
   "status": "proved",
   "theorems": [
    "C06_contract",
    "C06_ZZ",
    "C06_CheckedInts",
    "C06_poly",
    "C06_field"
   ],
   "note": ""
  },
  {
   "property": "C07",
   "status": "proved",
   "theorems": [
    "C07_tracks",
    "C07_laws",
    "C07_order"
   ],
   "note": ""
  },
  {
   "property": "C08",
   "status": "proved",
   "theorems": [
    "C08_arith",
    "C08_inplace",
    "C08_division",
    "C08_reduced",
    "C08_divisible",
    "C08_neg_sub_assign",
    "C08_total",
    "C08_associates",
    "C08_times",
    "C08_ntimes",
    "C08_times_refuted",
    "C08_types"
   ],
   "note": "The statement about times in isize/usize multipliers is C08_times/C08_ntimes; C08_times_refuted shows a product that fits but is not computed."
  },
  {
   "property": "C09",
   "status": "proved",
   "theorems": [
    "C09_gcd",
    "C09_relative_primes",
    "C09_extended_gcd",
    "C09_lcm"
   ],
   "note": ""
  },
  {
   "property": "C10",
   "status": "partial",
   "theorems": [
    "C10_ring",
    "C10_units",
    "C10_ntimes",
    "C10_ntimes_refuted",
    "C10_laws",
    "C10_order",
    "C10_types"
   ],
   "note": "Refuted for times: it panics on representable results (C10_ntimes_refuted, e.g. U8 times(200, 1)); the exact panic condition is C10_ntimes. The rest of the statement is proved."
  },
  {
   "property": "C11",
   "status": "partial",
   "theorems": [
    "C11_ntimes",
    "C11_power",
    "C11_times",
    "C11_min_checks",
    "C11_min_wraps",
    "C11_min_refuted"
   ],
   "note": "Refuted for the exponent isize::MIN: the default negates the exponent, so it panics with overflow checks (C11_min_checks) and returns the identity without (C11_min_wraps, C11_min_refuted). Proved for every other exponent."
  },
  {
   "property": "C12",
   "status": "proved",
   "theorems": [
    "C12_ring",
    "C12_field",
    "C12_F2",
    "C12_field_laws",
    "C12_boolean",
    "C12_boolean_laws"
   ],
   "note": ""
  },
  {
   "property": "C13",
   "status": "proved",
   "theorems": [
    "C13_operations",
    "C13_unique",
    "C13_contract",
    "C13_quotient",
    "C13_laws",
    "C13_ZZ",
    "C13_contains"
   ],
   "note": ""
  },
  {
   "property": "C14",
   "status": "proved",
   "theorems": [
    "C14_try_inv"
   ],
   "note": ""
  },
  {
   "property": "C15",
   "status": "proved",
   "theorems": [
    "C15_operations",
    "C15_try_inv",
    "C15_field",
    "C15_contract",
    "C15_laws",
    "C15_ZZ",
    "C15_prime"
   ],
   "note": ""
  },
  {
   "property": "C16",
   "status": "partial",
   "theorems": [
    "C16_new_accepts",
    "C16_unit",
    "C16_zero",
    "C16_refuted"
   ],
   "note": "Refuted: QuotientField::new tests rem(one, one) instead of the modulus, so it accepts every member of the base (C16_new_accepts), including units (C16_unit), zero (C16_zero) and reducible elements (C16_refuted)."
  },
  {
   "property": "C17",
   "status": "proved",
   "theorems": [
    "C17_total",
    "C17_field_total",
    "C17_GF2",
    "C17_GF3",
    "C17_exact",
    "C17_field_exact",
    "C17_sharp"
   ],
   "note": ""
  },
  {
   "property": "C18",
   "status": "proved",
   "theorems": [
    "C18_operations",
    "C18_unique",
    "C18_exists",
    "C18_contract",
    "C18_laws",
    "C18_contains",
    "C18_QQ",
    "C18_QQ_unique",
    "C18_QQ_exists"
   ],
   "note": ""
  },
  {
   "property": "C19",
   "status": "proved",
   "theorems": [
    "C19_exact"
   ],
   "note": ""
  },
  {
   "property": "C20",
   "status": "proved",
   "theorems": [
    "C20_methods",
    "C20_contract",
    "C20_additive",
    "C20_laws",
    "C20_degree",
    "C20_leading_coef",
    "C20_contains"
   ],
   "note": ""
  },
  {
   "property": "C21",
   "status": "proved",
   "theorems": [
    "C21_quo_rem",
    "C21_unique",
    "C21_contract",
    "C21_gcd",
    "C21_laws"
   ],
   "note": ""
  },
  {
   "property": "C22",
   "status": "proved",
   "theorems": [
    "C22_try_div",
    "C22_divisible",
    "C22_associates",
    "C22_contract",
    "C22_laws"
   ],
   "note": ""
  },
  {
   "property": "C23",
   "status": "partial",
   "theorems": [
    "C23_mul_refuted",
    "C23_try_inv_refuted",
    "C23_mul_partial",
    "C23_try_inv_partial"
   ],
   "note": "Refuted: over Z/6 the product of 2x and 3x is [0, 0, 0], which is not a member (C23_mul_refuted); over Z/4 try_inv(1 + 2x) is None although 1 + 2x is its own inverse (C23_try_inv_refuted). Proved: the coefficients of products are right over every ring, and products are canonical when the leading coefficients do not multiply to zero."
  },
  {
   "property": "C24",
   "status": "proved",
   "theorems": [
    "C24_fields",
    "C24_euclidean",
    "C24_domains",
    "C24_rings",
    "C24_field_laws",
    "C24_euclidean_laws",
    "C24_domain_laws",
    "C24_ring_laws",
    "C24_finite",
    "C24_finite_members",
    "C24_finite_power"
   ],
   "note": ""
  },
  {
   "property": "C25",
   "status": "proved",
   "theorems": [
    "C25_matrix_of",
    "C25_methods",
    "C25_transpose",
    "C25_laws",
    "C25_contains",
    "C25_lengths",
    "C25_new"
   ],
   "note": ""
  },
  {
   "property": "C26",
   "status": "proved",
   "theorems": [
    "C26_inverse"
   ],
   "note": ""
  },
  {
   "property": "C27",
   "status": "partial",
   "theorems": [
    "C27_refuted",
    "C27_determinant_partial",
    "C27_sign",
    "C27_when_right"
   ],
   "note": "Refuted: row swaps do not change the sign, so determinant([[0,1],[1,0]]) = 1 (C27_refuted). Proved: the result is (-1)^s times the determinant, where s counts the row exchanges of the elimination and is defined from the minors of the matrix (C27_sign); so it is right up to sign, and right exactly if s is even, the matrix is singular or the characteristic is two (C27_when_right)."
  },
  {
   "property": "C28",
   "status": "proved",
   "theorems": [
    "C28_methods",
    "C28_contains",
    "C28_bijective",
    "C28_members",
    "C28_laws"
   ],
   "note": ""
  },
  {
   "property": "C29",
   "status": "partial",
   "theorems": [
    "C29_refuted",
    "C29_contains_partial"
   ],
   "note": "Refuted: contains indexes a vector of length n with the entry, so it panics on [0, 1, 3] for n = 3 (C29_refuted). C29_contains_partial says for every vector whether it returns (and what) or panics."
  },
  {
   "property": "C30",
   "status": "proved",
   "theorems": [
    "C30_vector_of",
    "C30_methods",
    "C30_ring",
    "C30_monoid",
    "C30_group",
    "C30_abelian",
    "C30_laws",
    "C30_contains",
    "C30_lengths"
   ],
   "note": ""
  },
  {
   "property": "C31",
   "status": "proved",
   "theorems": [
    "C31_lattice",
    "C31_meet_join",
    "C31_bounds",
    "C31_boolean",
    "C31_laws",
    "C31_bits",
    "C31_lengths"
   ],
   "note": ""
  },
  {
   "property": "C32",
   "status": "proved",
   "theorems": [
    "C32_order",
    "C32_order_laws",
    "C32_lattice",
    "C32_laws"
   ],
   "note": ""
  },
  {
   "property": "C33",
   "status": "proved",
   "theorems": [
    "C33_ZZ",
    "C33_NN",
    "C33_CheckedInts",
    "C33_CheckedUints",
    "C33_laws"
   ],
   "note": ""
  },
  {
   "property": "C34",
   "status": "proved",
   "theorems": [
    "C34_additive",
    "C34_multiplicative",
    "C34_multiplicative_contains",
    "C34_laws"
   ],
   "note": ""
  },
  {
   "property": "C35",
   "status": "proved",
   "theorems": [
    "C35_contract",
    "C35_ZZ",
    "C35_CheckedInts",
    "C35_poly",
    "C35_field"
   ],
   "note": ""
  },
  {
   "property": "C36",
   "status": "proved",
   "theorems": [
    "C36_field",
    "C36_gcd",
    "C36_lcm",
    "C36_laws"
   ],
   "note": ""
  },
  {
   "property": "C37",
   "status": "partial",
   "theorems": [
    "C37_power_partial",
    "C37_zero",
    "C37_refuted"
   ],
   "note": "Refuted for zero: power(n, 0) returns 0 for every n, including n = 0 and n < 0 (C37_zero, C37_refuted). Proved for every nonzero element."
  },
  {
   "property": "C38",
   "status": "partial",
   "theorems": [
    "C38_refuted",
    "C38_rounding_partial",
    "C38_nearest_partial",
    "C38_overflow_partial",
    "C38_int_partial",
    "C38_times_partial",
    "C38_times_small_partial",
    "C38_finite_partial",
    "C38_formats_partial"
   ],
   "note": "Refuted: times(2, f64::MAX) returns infinity, times with a large isize is rounded twice, and repeated addition (times of usize) and power accumulate rounding errors (C38_refuted). Proved: every method that makes one operation returns the correctly rounded result, which is the nearest float, and panics exactly on overflow or division by zero; all methods but times return only finite values."
  },
  {
   "property": "C39",
   "status": "proved",
   "theorems": [
    "C39_order",
    "C39_laws"
   ],
   "note": ""
  },
  {
   "property": "C40",
   "status": "partial",
   "theorems": [
    "C40_refuted",
    "C40_same_run",
    "C40_numbers_partial",
    "C40_quotients_partial",
    "C40_polynomials_partial",
    "C40_vectors_partial",
    "C40_matrices_partial",
    "C40_groups_partial",
    "C40_permutations_partial",
    "C40_sub_partial",
    "C40_sub_equals_partial",
    "C40_checked_sub_partial",
    "C40_floats_partial",
    "C40_float_towers_partial"
   ],
   "note": "Refuted: the default sub_assign negates its argument first, so for CheckedInts<i8> sub(-1, -128) returns 127 and sub_assign(-1, -128) panics (C40_refuted); C40_checked_sub_partial says exactly when they differ. Proved for every other method and structure, and for sub_assign up to equals."
  },
  {
   "property": "C41",
   "status": "proved",
   "theorems": [
    "C41_ring",
    "C41_times",
    "C41_units",
    "C41_laws",
    "C41_order"
   ],
   "note": ""
  },
  {
   "property": "C42",
   "status": "partial",
   "theorems": [
    "C42_refuted",
    "C42_poly_quotient_refuted",
    "C42_numbers_partial",
    "C42_vectors_partial",
    "C42_matrices_partial",
    "C42_polynomials_partial",
    "C42_modular_partial",
    "C42_quotients_partial",
    "C42_fractions_partial",
    "C42_QQ_partial"
   ],
   "note": "Refuted: quotients of polynomials accept every short vector without looking at the entries, and fractions panic on 1/0 (C42_refuted, C42_poly_quotient_refuted). Proved for numbers, vectors, matrices, polynomials, residues of integers, and for quotients and fractions of members of the base."
  },
  {
   "property": "C43",
   "status": "partial",
   "theorems": [
    "C43_refuted",
    "C43_one_refuted",
    "C43_groups_partial",
    "C43_semirings_partial",
    "C43_abelian_partial",
    "C43_rings_partial",
    "C43_domains_partial",
    "C43_euclidean_partial",
    "C43_fields_partial",
    "C43_lattices_partial",
    "C43_tower_fields_partial",
    "C43_tower_euclidean_partial",
    "C43_tower_domains_partial",
    "C43_tower_rings_partial"
   ],
   "note": "Refuted: the product of 2x and 3x over Z/6 is [0, 0, 0], not a member (C43_refuted); the one of a quotient by a unit is not a member (C43_one_refuted). Proved for every structure that meets its contract, so for all towers of C24; power and times with isize::MIN are left out."
  },
  {
   "property": "C44",
   "status": "proved",
   "theorems": [
    "C44_float_euclidean",
    "C44_float_field",
    "C44_float_integral",
    "C44_float_ring",
    "C44_float_group",
    "C44_float_fewer_checks_euclidean",
    "C44_float_fewer_checks_field",
    "C44_float_fewer_checks_ring",
    "C44_float_fewer_checks_group",
    "C44_float_matrix",
    "C44_field",
    "C44_euclidean",
    "C44_integral",
    "C44_ring",
    "C44_group",
    "C44_matrix",
    "C44_matrix_try_inv",
    "C44_fewer_checks_field",
    "C44_fewer_checks_euclidean",
    "C44_fewer_checks_integral",
    "C44_fewer_checks_ring",
    "C44_fewer_checks_group",
    "C44_least_isize"
   ],
   "note": ""
  },
  {
   "property": "C45",
   "status": "proved",
   "theorems": [
    "C45_ring"
   ],
   "note": ""
  },
  {
   "property": "C46",
   "status": "partial",
   "theorems": [
    "C46_field",
    "C46_try_inv_refuted"
   ],
   "note": "Refuted for try_inv: over ZZ modulo 10, which QuotientField::new accepts, try_inv(4) panics instead of returning None and invertible(4) is true (C46_try_inv_refuted). C46_field says exactly what every method does."
  },
  {
   "property": "C47",
   "status": "proved",
   "theorems": [
    "C47_reduce",
    "C47_args"
   ],
   "note": ""
  },
  {
   "property": "C48",
   "status": "proved",
   "theorems": [
    "C48_modular",
    "C48_modular_checked",
    "C48_vectors",
    "C48_matrices",
    "C48_polynomials",
    "C48_permutations",
    "C48_units",
    "C48_units_unreduced",
    "C48_GL"
   ],
   "note": ""
  },
  {
   "property": "C49",
   "status": "proved",
   "theorems": [
    "C49_groups",
    "C49_units",
    "C49_additive",
    "C49_euler",
    "C49_permutations",
    "C49_GL"
   ],
   "note": ""
  },
  {
   "property": "C50",
   "status": "proved",
   "theorems": [
    "C50_every_field",
    "C50_prime_powers"
   ],
   "note": ""
  },
  {
   "property": "C51",
   "status": "proved",
   "theorems": [
    "C51_every_algebra"
   ],
   "note": ""
  },
  {
   "property": "C52",
   "status": "proved",
   "theorems": [
    "C52_outcome",
    "C52_times",
    "C52_times_exact",
    "C52_power",
    "C52_power_exact",
    "C52_gcd",
    "C52_gcd_worst",
    "C52_gcd_machine",
    "C52_modular",
    "C52_modular_checked",
    "C52_poly",
    "C52_extension",
    "C52_field_power"
   ],
   "note": ""
  },
  {
   "property": "C53",
   "status": "proved",
   "theorems": [
    "C53_mul",
    "C53_add",
    "C53_neg",
    "C53_times",
    "C53_inv",
    "C53_small"
   ],
   "note": ""
  },
  {
   "property": "C54",
   "status": "proved",
   "theorems": [
    "C54_laws",
    "C54_failing"
   ],
   "note": ""
  },
  {
   "property": "C55",
   "status": "proved",
   "theorems": [
    "C55_entries",
    "C55_domain",
    "C55_semigroup",
    "C55_monoid",
    "C55_group",
    "C55_additive",
    "C55_int",
    "C55_order",
    "C55_transpose",
    "C55_twice",
    "C55_laws"
   ],
   "note": ""
  },
  {
   "property": "C56",
   "status": "proved",
   "theorems": [
    "C56_ZZ",
    "C56_CheckedInts",
    "C56_poly"
   ],
   "note": ""
  },
  {
   "property": "C57",
   "status": "proved",
   "theorems": [
    "C57_idom",
    "C57_eucl",
    "C57_field",
    "C57_ZZ",
    "C57_BB",
    "C57_CheckedInts",
    "C57_poly",
    "C57_poly_field",
    "C57_fractions",
    "C57_quotient",
    "C57_new",
    "C57_new_panics"
   ],
   "note": ""
  },
  {
   "property": "C58",
   "status": "proved",
   "theorems": [
    "C58_divisibility",
    "C58_gcd",
    "C58_divisibility_towers",
    "C58_gcd_towers"
   ],
   "note": ""
  },
  {
   "property": "C59",
   "status": "proved",
   "theorems": [
    "C59_additive",
    "C59_int",
    "C59_power",
    "C59_field",
    "C59_ring_towers",
    "C59_field_towers",
    "C59_permutations",
    "C59_additive_group",
    "C59_multiplicative_group"
   ],
   "note": ""
  },
  {
   "property": "C60",
   "status": "proved",
   "theorems": [
    "C60_degree",
    "C60_division",
    "C60_degree_towers",
    "C60_division_towers"
   ],
   "note": ""
  },
  {
   "property": "C61",
   "status": "proved",
   "theorems": [
    "C61_characteristic",
    "C61_generator",
    "C61_squares"
   ],
   "note": ""
  },
  {
   "property": "C62",
   "status": "proved",
   "theorems": [
    "C62_euclidean",
    "C62_integral",
    "C62_field",
    "C62_ring",
    "C62_group",
    "C62_naturals",
    "C62_checked_uints",
    "C62_lattices",
    "C62_floats",
    "C62_float_lattice",
    "C62_over_euclidean",
    "C62_over_field",
    "C62_over_integral",
    "C62_over_ring",
    "C62_over_lattice",
    "C62_over_boolean",
    "C62_sane_needed"
   ],
   "note": ""
  },
  {
   "property": "C63",
   "status": "proved",
   "theorems": [
    "C63_finite",
    "C63_powers",
    "C63_lattice",
    "C63_times",
    "C63_times_infinite",
    "C63_singular",
    "C63_inverse",
    "C63_polynomials",
    "C63_tower_euclidean",
    "C63_tower_field",
    "C63_tower_domain",
    "C63_tower_ring",
    "C63_tower_group"
   ],
   "note": ""
  },
  {
   "property": "C64",
   "status": "proved",
   "theorems": [
    "C64_euclidean",
    "C64_field",
    "C64_integral",
    "C64_ring",
    "C64_group",
    "C64_unsigned"
   ],
   "note": ""
  },
  {
   "property": "C65",
   "status": "proved",
   "theorems": [
    "C65_inverse",
    "C65_determinant",
    "C65_exact_refuted"
   ],
   "note": ""
  },
  {
   "property": "C66",
   "status": "proved",
   "theorems": [
    "C66_residue",
    "C66_kernel",
    "C66_onto",
    "C66_residue_field",
    "C66_residues",
    "C66_fraction",
    "C66_constant",
    "C66_extension",
    "C66_two"
   ],
   "note": ""
  },
  {
   "property": "C67",
   "status": "proved",
   "theorems": [
    "C67_vector",
    "C67_vector1",
    "C67_add",
    "C67_neg",
    "C67_sub",
    "C67_times",
    "C67_mul",
    "C67_small",
    "C67_mul_refuted",
    "C67_sub_refuted"
   ],
   "note": ""
  },
  {
   "property": "C68",
   "status": "proved",
   "theorems": [
    "C68_ring",
    "C68_field_ring",
    "C68_sums",
    "C68_sub_refuted",
    "C68_try_inv",
    "C68_inv",
    "C68_div",
    "C68_contains",
    "C68_order",
    "C68_meet",
    "C68_join"
   ],
   "note": ""
  },
  {
   "property": "C69",
   "status": "proved",
   "theorems": [
    "C69_laws",
    "C69_units",
    "C69_lcm",
    "C69_ZZ"
   ],
   "note": ""
  },
  {
   "property": "C70",
   "status": "proved",
   "theorems": [
    "C70_value",
    "C70_roots",
    "C70_remainder",
    "C70_irreducible",
    "C70_no_root",
    "C70_adjoin"
   ],
   "note": ""
  },
  {
   "property": "C71",
   "status": "proved",
   "theorems": [
    "C71_alike",
    "C71_QuotientRing",
    "C71_QuotientField",
    "C71_ReducedFractions",
    "C71_DivisibilityOrder",
    "C71_DivisibilityLattice",
    "C71_AdditiveGroup",
    "C71_MultiplicativeGroup",
    "C71_VectorRing",
    "C71_VectorGroup",
    "C71_VectorLattice",
    "C71_VectorBoolean",
    "C71_PolyRing",
    "C71_PolyIDom",
    "C71_PolyEucl",
    "C71_MatrixRing",
    "C71_determinant"
   ],
   "note": ""
  },
  {
   "property": "C72",
   "status": "proved",
   "theorems": [
    "C72_equals",
    "C72_field",
    "C72_lattice",
    "C72_polynomials",
    "C72_matrices"
   ],
   "note": ""
  },
  {
   "property": "C73",
   "status": "proved",
   "theorems": [
    "C73_residues",
    "C73_signs",
    "C73_machine",
    "C73_field",
    "C73_bits",
    "C73_bit_matrices",
    "C73_bit_fields"
   ],
   "note": ""
  },
  {
   "property": "C74",
   "status": "proved",
   "theorems": [
    "C74_matrices",
    "C74_polynomials",
    "C74_matrices_exact",
    "C74_polynomials_exact",
    "C74_times",
    "C74_times_exact",
    "C74_power",
    "C74_power_negative",
    "C74_power_exact"
   ],
   "note": ""
  },
  {
   "property": "C75",
   "status": "proved",
   "theorems": [
    "C75_matrix_mul",
    "C75_matrix_add",
    "C75_poly_mul",
    "C75_vector",
    "C75_vector_lattice"
   ],
   "note": ""
  },
  {
   "property": "C76",
   "status": "proved",
   "theorems": [
    "C76_ring",
    "C76_questions",
    "C76_try_div",
    "C76_quo_rem",
    "C76_shorter",
    "C76_panics",
    "C76_quo_rem_panics",
    "C76_gcd_nil",
    "C76_gcd"
   ],
   "note": ""
  },
  {
   "property": "C77",
   "status": "proved",
   "theorems": [
    "C77_any_vectors",
    "C77_transformations",
    "C77_inverse"
   ],
   "note": ""
  },
  {
   "property": "C78",
   "status": "proved",
   "theorems": [
    "C78_matrices",
    "C78_polynomials",
    "C78_permutations"
   ],
   "note": ""
  },
  {
   "property": "C79",
   "status": "proved",
   "theorems": [
    "C79_longer",
    "C79_longer_inverse",
    "C79_shorter",
    "C79_vector_multiples",
    "C79_vector_powers",
    "C79_matrix_multiples"
   ],
   "note": ""
  },
  {
   "property": "C80",
   "status": "proved",
   "theorems": [
    "C80_quotients",
    "C80_fractions",
    "C80_polynomials",
    "C80_machine_integers",
    "C80_numbers",
    "C80_floats",
    "C80_vectors",
    "C80_group_vectors",
    "C80_matrices",
    "C80_permutations",
    "C80_groups",
    "C80_members",
    "C80_matrix_members",
    "C80_machine_members"
   ],
   "note": ""
  },
  {
   "property": "C81",
   "status": "proved",
   "theorems": [
    "C81_vectors",
    "C81_poly_mul",
    "C81_poly_add",
    "C81_poly_quo_rem",
    "C81_poly_try_div",
    "C81_poly_gcd",
    "C81_matrix_mul",
    "C81_determinant",
    "C81_try_inv",
    "C81_times",
    "C81_power",
    "C81_gcd",
    "C81_extended_gcd"
   ],
   "note": ""
  },
  {
   "property": "C82",
   "status": "proved",
   "theorems": [
    "C82_determinant",
    "C82_invertible",
    "C82_inverse",
    "C82_entries",
    "C82_mul",
    "C82_mul_fits"
   ],
   "note": ""
  },
  {
   "property": "C83",
   "status": "proved",
   "theorems": [
    "C83_arithmetic",
    "C83_order"
   ],
   "note": ""
  },
  {
   "property": "C84",
   "status": "proved",
   "theorems": [
    "C84_determinant",
    "C84_factors",
    "C84_pivots",
    "C84_singular",
    "C84_near_refuted"
   ],
   "note": ""
  },
  {
   "property": "C85",
   "status": "proved",
   "theorems": [
    "C85_division",
    "C85_near_refuted"
   ],
   "note": ""
  },
  {
   "property": "C86",
   "status": "proved",
   "theorems": [
    "C86_try_inv",
    "C86_residual",
    "C86_steps",
    "C86_singular",
    "C86_near_refuted"
   ],
   "note": ""
  },
  {
   "property": "C87",
   "status": "proved",
   "theorems": [
    "C87_arithmetic",
    "C87_euclidean",
    "C87_field",
    "C87_integral",
    "C87_ring",
    "C87_group",
    "C87_contract",
    "C87_members",
    "C87_division",
    "C87_gcd",
    "C87_monic",
    "C87_determinant",
    "C87_inverse"
   ],
   "note": ""
  },
  {
   "property": "C88",
   "status": "proved",
   "theorems": [
    "C88_neg",
    "C88_add",
    "C88_sub",
    "C88_mul",
    "C88_quo_rem",
    "C88_residue_mul",
    "C88_residue_add",
    "C88_float_neg",
    "C88_float_add",
    "C88_float_sub",
    "C88_float_mul",
    "C88_float_residue_mul",
    "C88_float_residue_add"
   ],
   "note": ""
  },
  {
   "property": "C89",
   "status": "proved",
   "theorems": [
    "C89_field",
    "C89_euclidean",
    "C89_integral",
    "C89_ring",
    "C89_group",
    "C89_matrix",
    "C89_matrix_try_inv",
    "C89_new",
    "C89_float_euclidean",
    "C89_float_field",
    "C89_float_integral",
    "C89_float_ring",
    "C89_float_group",
    "C89_narrower_field",
    "C89_narrower_euclidean",
    "C89_narrower_integral",
    "C89_narrower_ring",
    "C89_narrower_group",
    "C89_least_isize"
   ],
   "note": ""
  },
  {
   "property": "C90",
   "status": "proved",
   "theorems": [
    "C90_determinant",
    "C90_invertible",
    "C90_inverse",
    "C90_frac_mul",
    "C90_frac_add",
    "C90_mul"
   ],
   "note": ""
  },
  {
   "property": "C91",
   "status": "proved",
   "theorems": [
    "C91_vector",
    "C91_matrix",
    "C91_quotient_ring",
    "C91_quotient_field",
    "C91_fractions",
    "C91_fractions_always",
    "C91_matrix_check",
    "C91_polynomials",
    "C91_wrappers",
    "C91_methods"
   ],
   "note": ""
  },
  {
   "property": "C92",
   "status": "proved",
   "theorems": [
    "C92_add",
    "C92_neg",
    "C92_sub",
    "C92_mul",
    "C92_mul_error",
    "C92_mul_norm",
    "C92_gaussian",
    "C92_inv",
    "C92_inv_error",
    "C92_div",
    "C92_inv_real",
    "C92_inverse_refuted"
   ],
   "note": "C92_inverse_refuted is the last sentence: a contained, nonzero product whose inverse panics."
  },
  {
   "property": "C93",
   "status": "proved",
   "theorems": [
    "C93_quadratic",
    "C93_quadratic_ring",
    "C93_series",
    "C93_cyclic",
    "C93_derivative"
   ],
   "note": ""
  },
  {
   "property": "C94",
   "status": "proved",
   "theorems": [
    "C94_permutations",
    "C94_perm_determinant",
    "C94_triangular",
    "C94_diagonal",
    "C94_regular",
    "C94_companion",
    "C94_companion_char",
    "C94_char_poly",
    "C94_value",
    "C94_cayley_hamilton"
   ],
   "note": ""
  },
  {
   "property": "C95",
   "status": "proved",
   "theorems": [
    "C95_monoids",
    "C95_groups",
    "C95_abelian",
    "C95_rings",
    "C95_fields",
    "C95_lattices",
    "C95_QuotientRing",
    "C95_QuotientField",
    "C95_finite_fields",
    "C95_isomorphic",
    "C95_cyclic"
   ],
   "note": ""
  },
  {
   "property": "C96",
   "status": "proved",
   "theorems": [
    "C96_F32",
    "C96_F64"
   ],
   "note": ""
  },
  {
   "property": "C97",
   "status": "proved",
   "theorems": [
    "C97_test",
    "C97_field",
    "C97_not_field"
   ],
   "note": ""
  },
  {
   "property": "C98",
   "status": "proved",
   "theorems": [
    "C98_generator"
   ],
   "note": ""
  },
  {
   "property": "C99",
   "status": "proved",
   "theorems": [
    "C99_values",
    "C99_interpolation",
    "C99_fourier"
   ],
   "note": ""
  },
  {
   "property": "C100",
   "status": "proved",
   "theorems": [
    "C100_unique",
    "C100_integers",
    "C100_polynomials"
   ],
   "note": ""
  },
  {
   "property": "C101",
   "status": "proved",
   "theorems": [
    "C101_nonzero",
    "C101_linear",
    "C101_factorial"
   ],
   "note": ""
  },
  {
   "property": "C102",
   "status": "proved",
   "theorems": [
    "C102_transform",
    "C102_inverse",
    "C102_finite"
   ],
   "note": ""
  },
  {
   "property": "C103",
   "status": "proved",
   "theorems": [
    "C103_power",
    "C103_exchange",
    "C103_encryption"
   ],
   "note": ""
  },
  {
   "property": "C104",
   "status": "proved",
   "theorems": [
    "C104_derivative",
    "C104_product",
    "C104_passed",
    "C104_finite",
    "C104_rational"
   ],
   "note": ""
  },
  {
   "property": "C105",
   "status": "proved",
   "theorems": [
    "C105_solve",
    "C105_shift",
    "C105_all"
   ],
   "note": ""
  },
  {
   "property": "C106",
   "status": "proved",
   "theorems": [
    "C106_even",
    "C106_odd",
    "C106_quadratic"
   ],
   "note": ""
  },
  {
   "property": "C107",
   "status": "proved",
   "theorems": [
    "C107_sound",
    "C107_complete"
   ],
   "note": ""
  },
  {
   "property": "C108",
   "status": "proved",
   "theorems": [
    "C108_divides",
    "C108_integral"
   ],
   "note": ""
  },
  {
   "property": "C109",
   "status": "proved",
   "theorems": [
    "C109_split"
   ],
   "note": ""
  },
  {
   "property": "C110",
   "status": "proved",
   "theorems": [
    "C110_compose",
    "C110_value",
    "C110_associative",
    "C110_degree",
    "C110_chain"
   ],
   "note": ""
  },
  {
   "property": "C111",
   "status": "proved",
   "theorems": [
    "C111_count",
    "C111_exists"
   ],
   "note": ""
  },
  {
   "property": "C112",
   "status": "proved",
   "theorems": [
    "C112_term",
    "C112_fibonacci"
   ],
   "note": ""
  },
  {
   "property": "C113",
   "status": "proved",
   "theorems": [
    "C113_gcd",
    "C113_lcm",
    "C113_gcd_order",
    "C113_lcm_order"
   ],
   "note": ""
  },
  {
   "property": "C114",
   "status": "proved",
   "theorems": [
    "C114_integers",
    "C114_polynomials",
    "C114_general",
    "C114_product"
   ],
   "note": ""
  },
  {
   "property": "C115",
   "status": "proved",
   "theorems": [
    "C115_newton"
   ],
   "note": ""
  },
  {
   "property": "C116",
   "status": "proved",
   "theorems": [
    "C116_smallest",
    "C116_generator"
   ],
   "note": ""
  },
  {
   "property": "C117",
   "status": "proved",
   "theorems": [
    "C117_inverses",
    "C117_same",
    "C117_zero"
   ],
   "note": ""
  },
  {
   "property": "C118",
   "status": "proved",
   "theorems": [
    "C118_order",
    "C118_generator"
   ],
   "note": ""
  },
  {
   "property": "C119",
   "status": "proved",
   "theorems": [
    "C119_congruences"
   ],
   "note": ""
  },
  {
   "property": "C120",
   "status": "proved",
   "theorems": [
    "C120_value"
   ],
   "note": ""
  },
  {
   "property": "C121",
   "status": "proved",
   "theorems": [
    "C121_convergent",
    "C121_lowest"
   ],
   "note": ""
  },
  {
   "property": "C122",
   "status": "proved",
   "theorems": [
    "C122_digits",
    "C122_back",
    "C122_forth"
   ],
   "note": ""
  },
  {
   "property": "C123",
   "status": "proved",
   "theorems": [
    "C123_product",
    "C123_same"
   ],
   "note": ""
  },
  {
   "property": "C124",
   "status": "proved",
   "theorems": [
    "C124_chain",
    "C124_sorts",
    "C124_order",
    "C124_divisors"
   ],
   "note": ""
  },
  {
   "property": "C125",
   "status": "proved",
   "theorems": [
    "C125_majority",
    "C125_between",
    "C125_middle"
   ],
   "note": ""
  }
 ]
}