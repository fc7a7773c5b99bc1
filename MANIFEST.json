{
 "claims": [
  {
   "property": "C01",
   "status": "proved",
   "theorems": [
    "C01_subsets_exact",
    "C01_subsets_vec"
   ],
   "note": ""
  },
  {
   "property": "C02",
   "status": "proved",
   "theorems": [
    "C02_partitions_sized_exact",
    "C02_partitions_sized_zero_exact"
   ],
   "note": ""
  },
  {
   "property": "C03",
   "status": "partial",
   "theorems": [
    "C03_partitions_exact_partial",
    "C03_partitions_zero_refuted"
   ],
   "note": "Proved for n>=1. FALSE of the code at n=0 (C03_partitions_zero_refuted): partitions(0) yields nothing although partitions_sized(0,0) yields the empty partition."
  },
  {
   "property": "C04",
   "status": "proved",
   "theorems": [
    "C04_combinations_history"
   ],
   "note": "for k<n; k>=n is C05"
  },
  {
   "property": "C05",
   "status": "partial",
   "theorems": [
    "C05_combinations_full_refuted",
    "C05_combinations_over_panics_refuted"
   ],
   "note": "The property is FALSE of the code: new(n,n) yields nothing at all and for k>n next() panics; both proved for all n."
  },
  {
   "property": "C14",
   "status": "partial",
   "theorems": [
    "C14_nat_pow",
    "C14_int_pow_partial",
    "C14_int_pow_zero_negative_refuted"
   ],
   "note": "nat_pow proved in full; int_pow proved for every case except base 0 with a negative exponent, where the property is FALSE of the code (C14_int_pow_zero_negative_refuted)."
  },
  {
   "property": "C15",
   "status": "proved",
   "theorems": [
    "C15_euclidean_xgcd",
    "C15_contracts_Z",
    "C15_contracts_field"
   ],
   "note": "for every structure meeting the trait contracts; Z and every field shown to meet them"
  },
  {
   "property": "C16",
   "status": "proved",
   "theorems": [
    "C16_gcd_list",
    "C16_lcm",
    "C16_xgcd_list",
    "C16_contracts_euclidean"
   ],
   "note": ""
  },
  {
   "property": "C17",
   "status": "proved",
   "theorems": [
    "C17_quotient_ring",
    "C17_quotient_field",
    "C17_norm_mono_needed"
   ],
   "note": "needs a norm that is monotone under multiplication (true of Z and F[x]); C17_norm_mono_needed shows the trait contract alone is not enough"
  },
  {
   "property": "C18",
   "status": "proved",
   "theorems": [
    "C18_generate_distinct"
   ],
   "note": ""
  },
  {
   "property": "C19",
   "status": "partial",
   "theorems": [
    "C19_modulo_partial",
    "C19_modulo_div",
    "C19_from_Integer_negative_refuted"
   ],
   "note": "Proved for From<usize>, From<isize>, non-negative From<Integer>, arithmetic and division; FALSE of the code for negative Integers (C19_from_Integer_negative_refuted)."
  },
  {
   "property": "C20",
   "status": "proved",
   "theorems": [
    "C20_quaternary_field"
   ],
   "note": ""
  },
  {
   "property": "C21",
   "status": "partial",
   "theorems": [
    "C21_expand",
    "C21_mul",
    "C21_pow_partial",
    "C21_pow_refuted",
    "C21_divisors",
    "C21_factors_list"
   ],
   "note": "mul, expand, divisors, count_divisors proved in full; pow is FALSE of the code whenever u^k differs from the unit u (C21_pow_refuted)."
  },
  {
   "property": "C53",
   "status": "proved",
   "theorems": [
    "C53_from_int_hom"
   ],
   "note": ""
  },
  {
   "property": "C54",
   "status": "proved",
   "theorems": [
    "C54_decide"
   ],
   "note": ""
  },
  {
   "property": "C55",
   "status": "proved",
   "theorems": [
    "C55_equal",
    "C55_factorize_by_find_factor"
   ],
   "note": ""
  },
  {
   "property": "C37",
   "status": "proved",
   "theorems": [
    "C37_new",
    "C37_eq_iff_same_action",
    "C37_group",
    "C37_conversion"
   ],
   "note": "Permutation::new (exact acceptance, no panic), group laws, == iff same action, conversions to/from Permutation<N>, for every value constructible through the API"
  },
  {
   "property": "C38",
   "status": "proved",
   "theorems": [
    "C38_sign_inversions",
    "C38_sign_homomorphism",
    "C38_sign_of_cycle"
   ],
   "note": "sign = parity of inversions, homomorphism to C2, sign of a k-cycle"
  },
  {
   "property": "C39",
   "status": "partial",
   "theorems": [
    "C39_disjoint_cycles",
    "C39_new_from_cycles",
    "C39_cycles_recompose",
    "C39_from_cycle_panics_refuted"
   ],
   "note": "disjoint_cycles/cycle_shape, Permutation<N>::new_from_cycles and recomposition proved; From<Cycle> for Permutation is refuted: it panics on every nonempty cycle"
  },
  {
   "property": "C40",
   "status": "proved",
   "theorems": [
    "C40_nat_pow",
    "C40_int_pow",
    "C40_exponents_add",
    "C40_compose_list"
   ],
   "note": "nat_pow, int_pow, exponent addition, compose_list in every group"
  },
  {
   "property": "C41",
   "status": "proved",
   "theorems": [
    "C41_generated_finite_subgroup",
    "C41_generated_table",
    "C41_permutations_terminate"
   ],
   "note": "generated_finite_subgroup and generated_finite_subgroup_table: exact generated subgroup, termination when finite, group table isomorphic to it; instance: permutations always terminate"
  },
  {
   "property": "C42",
   "status": "proved",
   "theorems": [
    "C42_new",
    "C42_from_raw_model",
    "C42_cyclic",
    "C42_direct_product",
    "C42_order",
    "C42_is_abelian",
    "C42_mul_many",
    "C42_conjugacy_classes",
    "C42_partition_check",
    "C42_partition_eq",
    "C42_from_subsets",
    "C42_check_state_flags"
   ],
   "note": "new/check_state never panic and accept exactly the group tables; from_raw_model, cyclic_group, direct_product, order, is_abelian, mul_many, conjugacy classes, Partition invariants, cached-flag check"
  },
  {
   "property": "C43",
   "status": "proved",
   "theorems": [
    "C43_generated_subgroup",
    "C43_generated_subgroup_err",
    "C43_normal_closure",
    "C43_to_group"
   ],
   "note": "least (normal) subgroup containing the set, termination, error on bad elements, to_group, for every hash iteration order"
  },
  {
   "property": "C44",
   "status": "proved",
   "theorems": [
    "C44_left_cosets",
    "C44_right_cosets",
    "C44_quotient",
    "C44_is_left_cosets",
    "C44_is_right_cosets",
    "C44_is_congruence",
    "C44_congruence_quotient"
   ],
   "note": "cosets partition into classes of equal size, Lagrange, quotient group is a group with the expected kernel; is_left_cosets / is_right_cosets / is_congruence decide"
  },
  {
   "property": "C45",
   "status": "partial",
   "theorems": [
    "C45_is_subgroup_partial",
    "C45_empty_refuted",
    "C45_is_normal_subgroup",
    "C45_left_right_mul"
   ],
   "note": "proved for non-empty subsets; is_subgroup accepts the empty set, refuted with witness"
  },
  {
   "property": "C46",
   "status": "partial",
   "theorems": [
    "C46_generating_set",
    "C46_small_generating_set_refuted",
    "C46_small_generating_set",
    "C46_generated_homomorphism",
    "C46_hom_check",
    "C46_to_isomorphism",
    "C46_iso_check",
    "C46_find_isomorphism"
   ],
   "note": "generating sets, homomorphism extension, to_isomorphism, find_isomorphism proved complete; small_generating_set proved for order > 1 and refuted (underflow panic) on the trivial group"
  },
  {
   "property": "C56",
   "status": "proved",
   "theorems": [
    "C56_subgroups",
    "C56_normal_subgroups"
   ],
   "note": "subgroups and normal_subgroups enumerate each exactly once, with generators"
  },
  {
   "property": "C47",
   "status": "partial",
   "theorems": [
    "C47_sound_partial",
    "C47_index_at_most",
    "C47_exact_when_checked",
    "C47_into_finite_group",
    "C47_relator_refuted",
    "C47_panic_refuted",
    "C47_transitive_refuted"
   ],
   "note": "a returned answer never merges distinct cosets, bounds the index, and is exact once the relators are checked; into_finite_group gives a group then; refuted with witnesses: relators can act non-trivially, points can be unreachable, and valid input can panic"
  },
  {
   "property": "C48",
   "status": "partial",
   "theorems": [
    "C48_halts_refuted",
    "C48_stable_partial"
   ],
   "note": "refuted: a one-generator presentation of the trivial group on which enumeration provably never halts; each answer is independent of the time limit"
  },
  {
   "property": "C57",
   "status": "proved",
   "theorems": [
    "C57_word_operations",
    "C57_translate",
    "C57_equal_in_every_model"
   ],
   "note": ""
  },
  {
   "property": "C06",
   "status": "proved",
   "theorems": [
    "C06_nth_root_floor",
    "C06_nth_root_ceil",
    "C06_sqrt"
   ],
   "note": ""
  },
  {
   "property": "C07",
   "status": "proved",
   "theorems": [
    "C07_factorial",
    "C07_choose",
    "C07_choose_usize",
    "C07_choose_factorials"
   ],
   "note": ""
  },
  {
   "property": "C08",
   "status": "proved",
   "theorems": [
    "C08_prime_generator",
    "C08_complete"
   ],
   "note": ""
  },
  {
   "property": "C09",
   "status": "proved",
   "theorems": [
    "C09_try_divisors",
    "C09_exclusive"
   ],
   "note": ""
  },
  {
   "property": "C10",
   "status": "proved",
   "theorems": [
    "C10_miller_rabin_sound",
    "C10_miller_rabin_exact",
    "C10_miller_rabin_small",
    "C10_any_bases_refuted"
   ],
   "note": "for bases in the documented (debug-asserted) range; without it the claim is refuted"
  },
  {
   "property": "C12",
   "status": "partial",
   "theorems": [
    "C12_factor_sound",
    "C12_factor_correct",
    "C12_factor_small_exact",
    "C12_rho_attempt",
    "C12_factor_zero",
    "C12_divisors_are_keys",
    "C12_primality_test",
    "C12_primes_recognised"
   ],
   "note": "what is returned is a factorisation for every n given a sound primality test; total and unconditionally exact below 10001^2; every Pollard rho attempt terminates. Missing: termination of the retry loop over start values, and soundness of the thirteen-base test below 3.3e24 (a published computation) and of AKS above it"
  },
  {
   "property": "C58",
   "status": "proved",
   "theorems": [
    "C58_is_power_test"
   ],
   "note": ""
  },
  {
   "property": "C59",
   "status": "proved",
   "theorems": [
    "C59_gcd",
    "C59_pow",
    "C59_bitcount"
   ],
   "note": ""
  },
  {
   "property": "C60",
   "status": "proved",
   "theorems": [
    "C60_expand",
    "C60_euler_totient",
    "C60_is_primitive_root",
    "C60_is_primitive_root_small"
   ],
   "note": "for a given correct factorisation of phi(n); unconditional below 10001^2"
  },
  {
   "property": "C13",
   "status": "proved",
   "theorems": [
    "C13_nat_valuation",
    "C13_int_valuation",
    "C13_rat_valuation",
    "C13_multiplicative",
    "C13_division",
    "C13_ultrametric",
    "C13_order"
   ],
   "note": ""
  },
  {
   "property": "C49",
   "status": "proved",
   "theorems": [
    "C49_add_intervals",
    "C49_add_intervals_tight",
    "C49_add_interval_rat",
    "C49_mul_intervals",
    "C49_mul_interval_rat",
    "C49_mul_by_zero_panics",
    "C49_add_boxes",
    "C49_add_box_rat",
    "C49_mul_boxes",
    "C49_mul_box_rat"
   ],
   "note": "for all real members (Coq reals); mul_interval_rat / mul_box_rat by 0 panic by design, also shown"
  },
  {
   "property": "C50",
   "status": "proved",
   "theorems": [
    "C50_floor",
    "C50_ceil",
    "C50_round",
    "C50_unique"
   ],
   "note": "malachite's Floor is trusted to be the floor"
  },
  {
   "property": "C51",
   "status": "proved",
   "theorems": [
    "C51_generator",
    "C51_middle"
   ],
   "note": "for every choice of interior point by malachite's simplest_rational_in_open_interval"
  },
  {
   "property": "C30",
   "status": "proved",
   "theorems": [
    "C30_history",
    "C30_construct",
    "C30_from_rows",
    "C30_from_rows_ragged"
   ],
   "note": "Every history of transpose/flip_rows/flip_cols/at_mut, every size; constructors. The Rust type has several spellings (_mut, _ref, by value) of one operation: one model definition each."
  },
  {
   "property": "C31",
   "status": "proved",
   "theorems": [
    "C31_add",
    "C31_neg",
    "C31_mul",
    "C31_mul_scalar",
    "C31_zero_ident_diag",
    "C31_equal",
    "C31_dot",
    "C31_trace",
    "C31_det_naive",
    "C31_nat_pow",
    "C31_shape_errors",
    "C31_join_diag",
    "C31_submatrix",
    "C31_joins",
    "C31_apply_map"
   ],
   "note": "Over any comRingType (Leibniz equality: rings whose elements have canonical representatives). itertools::permutations is trusted to list every ordering."
  },
  {
   "property": "C32",
   "status": "proved",
   "theorems": [
    "C32_row_hermite",
    "C32_col_hermite",
    "C32_row_reduced",
    "C32_col_reduced",
    "C32_contracts"
   ],
   "note": "Every matrix over any integral domain meeting the contracts of BezoutDomainStructure (C15/C16 prove them for euclidean_xgcd; C32_contracts for Z and for fields); never panics, including the debug assertions."
  },
  {
   "property": "C33",
   "status": "proved",
   "theorems": [
    "C33_det",
    "C33_det_not_square",
    "C33_rank",
    "C33_inverse"
   ],
   "note": "det, det_naive, det_hermite, rank; also inv (needs a norm that does not drop on multiples)."
  },
  {
   "property": "C34",
   "status": "partial",
   "theorems": [
    "C34_two_rows_partial",
    "C34_full_row_rank_partial",
    "C34_chain_refuted",
    "C34_panic_refuted",
    "C34_swap_refuted",
    "C34_swap_panic_refuted"
   ],
   "note": "The contract fails in general (refutation theorems: divisibility chain, two kinds of panic, s <> u m v). Proved: the whole contract with termination for at most two rows and a nonzero first row, over any Euclidean domain with monotone norm; for linearly independent rows of any size, if it returns then s = u m v, u and v invertible, s diagonal with normalised nonzero diagonal, k = rank."
  },
  {
   "property": "C35",
   "status": "proved",
   "theorems": [
    "C35_col_solve",
    "C35_row_solve",
    "C35_row_kernel",
    "C35_col_kernel",
    "C35_row_solution_lattice",
    "C35_col_solution_lattice"
   ],
   "note": "Every matrix and right-hand side over any Bezout domain (integers and fields are instances); never panics, including the debug assertions."
  },
  {
   "property": "C36",
   "status": "proved",
   "theorems": [
    "C36_from_span",
    "C36_from_basis",
    "C36_wrong_shape",
    "C36_basis_matrices",
    "C36_row_span",
    "C36_col_span",
    "C36_contains_point",
    "C36_contains_sublattice",
    "C36_equal",
    "C36_sum",
    "C36_intersect",
    "C36_transpose",
    "C36_take_nonzero_point"
   ],
   "note": "Lattices of matrices of any shape over any Bezout domain; sum and intersect for lists of any length."
  },
  {
   "property": "C61",
   "status": "partial",
   "theorems": [
    "C61_from_offset",
    "C61_contains_point",
    "C61_sum",
    "C61_intersect",
    "C61_row_affine_span",
    "C61_col_affine_span",
    "C61_contains_sublattice_partial",
    "C61_equal_partial",
    "C61_equal_refuted",
    "C61_contains_sublattice_refuted"
   ],
   "note": "contains_point, sum, intersect, affine spans: proved in full. contains_sublattice/equal: only completeness holds (a true inclusion is recognised); soundness is refuted: the offset of the other lattice is never tested."
  },
  {
   "property": "C62",
   "status": "partial",
   "theorems": [
    "C62_hyperplanes_refuted",
    "C62_extension_basis_refuted",
    "C62_hyperplanes_partial",
    "C62_hyperplanes_full_rank",
    "C62_hyperplanes_round_trip",
    "C62_extension_basis_partial",
    "C62_extension_not_contained",
    "C62_hyperplanes_field",
    "C62_extension_basis_field"
   ],
   "note": "Refuted over the integers for lattices of full rank / finite index (2Z). Proved over every Bezout domain: no panic, number and rank of the hyperplanes, intersection equal to the lattice whenever its rank is not full, empty list for full rank; extension_basis gives rank(b)-rank(a) matrices of b independent of a, spanning b up to nonzero multiples. Proved without restriction over fields."
  },
  {
   "property": "C23",
   "status": "proved",
   "theorems": [
    "C23_coeff",
    "C23_equal",
    "C23_reduce",
    "C23_add",
    "C23_mul",
    "C23_neg",
    "C23_zero_one_var",
    "C23_var_pow",
    "C23_mul_scalar",
    "C23_mul_var_pow",
    "C23_evaluate",
    "C23_compose",
    "C23_derivative",
    "C23_degree",
    "C23_leading_coeff",
    "C23_as_constant",
    "C23_is_monic",
    "C23_reversed",
    "C23_ring",
    "C23_reversed_refuted"
   ],
   "note": "Over any commutative ring whose elements are their canonical representatives (Leibniz equality). `reversed` needs a vector without trailing zero: without it the claim is refuted. compose is proved through the polynomial ring over the polynomial ring, as in the code."
  },
  {
   "property": "C24",
   "status": "proved",
   "theorems": [
    "C24_try_quorem",
    "C24_quorem_unique",
    "C24_div",
    "C24_try_quorem_monic",
    "C24_idom",
    "C24_fav_assoc",
    "C24_quorem_field",
    "C24_euclid",
    "C24_gcd_field"
   ],
   "note": "Over any integral domain meeting IntegralDomainStructure; fields: total, Euclidean, gcd and xgcd; never panics, including the debug assertion."
  },
  {
   "property": "C25",
   "status": "proved",
   "theorems": [
    "C25_lagrange",
    "C25_unique",
    "C25_linear_system"
   ],
   "note": "Both interpolation routines; also uniqueness, and the exact panic condition."
  },
  {
   "property": "C26",
   "status": "partial",
   "theorems": [
    "C26_resultant",
    "C26_sylvester_partial",
    "C26_sign_wrong",
    "C26_res_swap",
    "C26_zero",
    "C26_sequence",
    "C26_subresultant_gcd",
    "C26_is_squarefree",
    "C26_is_squarefree_char0",
    "C26_discriminant",
    "C26_sign_refuted"
   ],
   "note": "resultant is proved total and equal to the textbook Sylvester determinant of the arguments ordered by degree, over any integral domain; hence equal to Res(a,b) except for deg a < deg b both odd, where the sign is wrong (C26_sign_wrong, C26_sign_refuted). Also: the whole subresultant sequence, subresultant_gcd, zero iff common factor, is_squarefree, discriminant (characteristic 0)."
  },
  {
   "property": "C27",
   "status": "partial",
   "theorems": [
    "C27_gauss",
    "C27_factor_primitive",
    "C27_is_primitive",
    "C27_gcd_partial",
    "C27_gcd_primitive",
    "C27_squarefree_part",
    "C27_gcd_refuted",
    "C27_fav_refuted"
   ],
   "note": "Refuted as stated: the gcd of the contents is dropped (gcd(2x,4x) = x) and the result need not be the favourite associate. Proved over any GCD domain: never panics; the result is primitive, divides both, is divisible by every primitive common divisor, and times the gcd of the contents it is a gcd; hence a gcd when either argument is primitive. Also Gauss' lemma, factor_primitive, is_primitive, primitive_squarefree_part."
  },
  {
   "property": "C22",
   "status": "partial",
   "theorems": [
    "C22_yun_partial",
    "C22_kronecker_find",
    "C22_kronecker_method_partial",
    "C22_kronecker_zero",
    "C22_trying_all_factors",
    "C22_trying_find",
    "C22_integer_factor",
    "C22_int_kronecker_partial",
    "C22_refuted"
   ],
   "note": "Refuted as stated: the sign can be wrong (f = -(x^2-1)^2), because Factored::pow leaves the unit alone. Proved over any GCD domain of characteristic 0: Yun's algorithm never panics with any correct squarefree factoriser and gives a valid factorisation of f up to a unit constant (exact if the factoriser's units are 1); Kronecker's search is exact; Kronecker's method gives a valid factorisation of f or -f; the integer factor() meets the contract; trial division over a finite field is exact. Berlekamp-Zassenhaus itself is not modelled."
  },
  {
   "property": "C52",
   "status": "proved",
   "theorems": [
    "C52_cauchy"
   ],
   "note": "For the roots in any numeric field (ordered fields, the complex algebraic numbers); None exactly for constants; never panics."
  },
  {
   "property": "C63",
   "status": "proved",
   "theorems": [
    "C63_mignotte"
   ],
   "note": "Landau's inequality and Mignotte's bound, through the complex roots of the factors (mathcomp's algebraic numbers; no axioms)."
  },
  {
   "property": "C28",
   "status": "proved",
   "theorems": [
    "C28_step",
    "C28_linear",
    "C28_quadratic",
    "C28_into_hensel_factorization",
    "C28_integers",
    "C28_negative_prime_refuted",
    "C28_constant_factors_refuted",
    "C28_new_lifted_refuted",
    "C28_single_factor_refuted"
   ],
   "note": "for every Euclidean domain with a monotone norm in which 1 is its own remainder modulo p^k; over the integers, every prime p >= 2. The edge cases that fail are refuted with witnesses: p negative, constant factors, new::<true> with n >= 2, a single factor (factors() then returns h itself)."
  },
  {
   "property": "C29",
   "status": "proved",
   "theorems": [
    "C29_mono_new",
    "C29_mono_mul",
    "C29_mono_unique",
    "C29_get_var_pow",
    "C29_mono_check",
    "C29_lex",
    "C29_lex_order",
    "C29_graded_lex",
    "C29_reduce",
    "C29_add",
    "C29_mul",
    "C29_neg",
    "C29_constants",
    "C29_equal",
    "C29_normal_unique",
    "C29_ring_laws",
    "C29_free_vars",
    "C29_evaluate",
    "C29_value_occurs",
    "C29_evaluate_var_zero",
    "C29_has_all_vars_parts",
    "C29_as_constant",
    "C29_degree",
    "C29_split_by_degree",
    "C29_check",
    "C29_homogenize",
    "C29_expand",
    "C29_apply_map",
    "C29_apply_map_vars",
    "C29_hash_order",
    "C29_div",
    "C29_div_refuted",
    "C29_degree_refuted",
    "C29_as_constant_refuted",
    "C29_homogenize_refuted",
    "C29_apply_map_vars_refuted",
    "C29_check_refuted"
   ],
   "note": "monomials, the two orders, ring operations, equality, evaluation, degrees, expansion, homogenisation, renaming and exact division over any commutative ring (division: any integral domain), independent of hash order; *_refuted: inputs where the code departs (division by constant(0), degree/as_constant of unreduced polynomials, homogenize by an occurring variable, non-injective renaming, check_invariants of zero)"
  },
  {
   "property": "C64",
   "status": "proved",
   "theorems": [
    "C64_is_symmetric",
    "C64_elementary",
    "C64_elementary_symmetric",
    "C64_as_elementary",
    "C64_is_symmetric_refuted"
   ],
   "note": "over any integral domain (symmetry test and elementary polynomials: any commutative ring), for any order of the hash maps and any variable choice in the division; includes termination, uniqueness of the result and the debug assertion. C64_is_symmetric_refuted: a stored zero coefficient changes the answer of is_symmetric."
  },
  {
   "property": "C11",
   "status": "proved",
   "theorems": [
    "C11_composite_sound",
    "C11_prime",
    "C11_prime_real_factor",
    "C11_primality_test",
    "C11_debug_assertion_refuted"
   ],
   "note": "whole function modelled, including the packing of polynomials into integers and the debug assertions. Zero/One/Composite answers are right for any behaviour of the factorisation routine; every prime p is answered Prime (in debug and release) if the numbers <= p are factored correctly, unconditionally for p < 100020001. C11_debug_assertion_refuted: on 112 a debug build panics. Not claimed: that Prime is answered only for primes (the AKS theorem itself)."
  },
  {
   "property": "C65",
   "status": "partial",
   "theorems": [
    "C65_factorize_monic",
    "C65_squarefree_prime_field",
    "C65_squarefree_no_pth_power",
    "C65_squarefree_refuted"
   ],
   "note": "refuted as stated over non-prime fields: over F_4 x^2+beta is reported as (x+beta)^2, since the p-th root step does not take roots of the coefficients. Proved for every nonzero f over a prime field, and over any finite field for every f not divisible by a p-th power of a nonconstant polynomial; factorize_monic over any finite field."
  },
  {
   "property": "C66",
   "status": "proved",
   "theorems": [
    "C66_find_factor",
    "C66_berlekamp",
    "C66_factor_prime_field"
   ],
   "note": "over every finite field, from any squarefree factorisation; for prime fields also the whole chain factorize_monic, factorize_squarefree, factorize_berlekamps (over other fields the squarefree step is wrong, see C65)."
  },
  {
   "property": "C67",
   "status": "proved",
   "theorems": [
    "C67_distinct_degree",
    "C67_cantor_zassenhaus",
    "C67_cantor_zassenhaus_ends",
    "C67_cantor_zassenhaus_never_stuck",
    "C67_into_monic_factored",
    "C67_into_squarefree_factored",
    "C67_into_distinct_degree_factored",
    "C67_factor_prime_field"
   ],
   "note": "over every finite field; the pseudorandom stream is an arbitrary function, the unbounded loop is observed after any number of rounds. The debug assertion's conversion of q^i to usize is modelled with unbounded integers. For prime fields also the whole chain factorize_monic .. factorize_cantor_zassenhaus."
  },
  {
   "property": "C68",
   "status": "partial",
   "theorems": [
    "C68_search_partial",
    "C68_sign_refuted",
    "C68_squarefree_partial",
    "C68_berlekamp_zassenhaus_partial",
    "C68_zero",
    "C68_modular_factoriser",
    "C68_instance",
    "C68_refuted",
    "C68_naive_find_factor",
    "C68_naive_squarefree",
    "C68_naive_partial",
    "C68_naive_zero",
    "C68_naive_instance",
    "C68_naive_refuted"
   ],
   "note": "C68_berlekamp_zassenhaus_partial proves the whole algorithm (Yun, choice of the prime, Hensel lifting loop, search over subsets) for every nonzero f of degree below 2^64 - 1: it terminates, never panics, and returns a factorisation into primes of f or of -f. C68_refuted: the sign is wrong for f = x(x-1)(x+1)(x-2)(x+2)(x-3); C68_sign_refuted shows where it is lost. The factorisers modulo p and of integers are parameters with their contracts as hypotheses; C68_modular_factoriser shows that the algorithms of C65 and C66 meet the first one. Only the sign is missing. C68_naive_squarefree (exact, with the sign, any degree), C68_naive_partial (any nonzero f, up to the sign) and C68_naive_refuted do the same for the naive search; C68_naive_find_factor is one call of it."
  },
  {
   "property": "C69",
   "status": "proved",
   "theorems": [
    "C69_memory_stack",
    "C69_dminusone_sound"
   ],
   "note": "machine integers are numbers modulo 2^64; rationals are exact."
  },
  {
   "property": "C70",
   "status": "partial",
   "theorems": [
    "C70_factor_primitive_fof",
    "C70_factorize_partial",
    "C70_constant",
    "C70_squarefree",
    "C70_rationals_partial",
    "C70_rationals_instance",
    "C70_refuted",
    "C70_zero_refuted"
   ],
   "note": "proved: no panic on nonzero polynomials, the factors are pairwise non-associate monic primes with positive exponents, and the product is f up to a nonzero constant, which C70_constant gives exactly; C70_squarefree: squarefree polynomials are factored exactly. Refuted: (2x+1)^2 is returned as 2(x+1/2)^2, because the unit of a factor is multiplied in once instead of once per power (C70_refuted), and 0 panics instead of giving None (C70_zero_refuted). C70_rationals_partial is the instance Q[x] with the Berlekamp-Zassenhaus algorithm."
  },
  {
   "property": "C71",
   "status": "proved",
   "theorems": [
    "C71_rows",
    "C71_rows_panic",
    "C71_cols",
    "C71_cols_panic",
    "C71_lq",
    "C71_lq_panic",
    "C71_qr",
    "C71_rational",
    "C71_complex"
   ],
   "note": "over every field with an involutive conjugation under which only 0 has norm 0 (instances: the rationals, the complex algebraic numbers); the exact condition under which the algorithms panic: the plain version exactly when a nontrivial combination of the rows before the last one vanishes, the orthonormal ones exactly when the rows are dependent. Square roots are a parameter with its contract."
  },
  {
   "property": "C72",
   "status": "proved",
   "theorems": [
    "C72_multiplication",
    "C72_row_multiplication",
    "C72_constant_modulus",
    "C72_to_vector",
    "C72_from_vector",
    "C72_from_vector_panic",
    "C72_norm",
    "C72_trace",
    "C72_discriminant",
    "C72_discriminant_panic",
    "C72_norm_mul",
    "C72_norm_zero",
    "C72_number_field"
   ],
   "note": "over every field and every modulus of positive degree (a nonzero constant modulus panics: C72_constant_modulus). Norm and trace are characterised by the roots of the modulus in any extension where it splits, with multiplicity, so also for reducible and inseparable moduli. min_poly is not covered: it goes through the Smith form of a matrix over K[x], which C34 refutes in general."
  },
  {
   "property": "C73",
   "status": "partial",
   "theorems": [
    "C73_characteristic_partial",
    "C73_small",
    "C73_minimal_partial",
    "C73_not_square",
    "C73_min_poly_partial",
    "C73_contracts",
    "C73_field",
    "C73_panic_refuted"
   ],
   "note": "C73_panic_refuted: both functions panic on a 3 x 3 rational matrix, because they use the Smith algorithm, whose contract fails (C34). Proved over every field: up to two rows the contract in full (C73_small), hence min_poly in K[x]/(m) for deg m <= 2; for every size, whatever characteristic_polynomial returns is right, and the minimal polynomial is right whenever the Smith diagonal divides along. Polynomials over the field are identified with elements of {poly F} (canonical representatives) in the theorems and are lists of coefficients in the refutation."
  },
  {
   "property": "C74",
   "status": "proved",
   "theorems": [
    "C74_isolates",
    "C74_terminates"
   ],
   "note": "correctness over every real closed field, for every run that returns (the loop is modelled with fuel); termination and absence of panics (C74_terminates) for every squarefree integer polynomial in normal form without a root at 0 or 1: on small enough dyadic intervals the scaled Bernstein coefficients change sign at most once. Roots are those in the real closed field, so the statement covers the reals and the real algebraic numbers. C74_unreduced_panics: with a stored zero above the degree the subtraction degree - i underflows."
  }
 ]
}
