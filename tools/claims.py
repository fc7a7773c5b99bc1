# id -> (status, note); theorem names are collected from *Props.v by prefix "<id>_"
C = {
"C01": ("proved", ""),
"C02": ("proved", ""),
"C03": ("partial", "Proved for n>=1. FALSE of the code at n=0 (C03_partitions_zero_refuted): partitions(0) yields nothing although partitions_sized(0,0) yields the empty partition."),
"C04": ("proved", "for k<n; k>=n is C05"),
"C05": ("partial", "The property is FALSE of the code: new(n,n) yields nothing at all and for k>n next() panics; both proved for all n."),
"C14": ("partial", "nat_pow proved in full; int_pow proved for every case except base 0 with a negative exponent, where the property is FALSE of the code (C14_int_pow_zero_negative_refuted)."),
"C15": ("proved", "for every structure meeting the trait contracts; Z and every field shown to meet them"),
"C16": ("proved", ""),
"C17": ("proved", "needs a norm that is monotone under multiplication (true of Z and F[x]); C17_norm_mono_needed shows the trait contract alone is not enough"),
"C18": ("proved", ""),
"C19": ("partial", "Proved for From<usize>, From<isize>, non-negative From<Integer>, arithmetic and division; FALSE of the code for negative Integers (C19_from_Integer_negative_refuted)."),
"C20": ("proved", ""),
"C21": ("partial", "mul, expand, divisors, count_divisors proved in full; pow is FALSE of the code whenever u^k differs from the unit u (C21_pow_refuted)."),
"C53": ("proved", ""),
"C54": ("proved", ""),
"C55": ("proved", ""),
}
C["C37"] = ("proved", "Permutation::new (exact acceptance, no panic), group laws, == iff same action, conversions to/from Permutation<N>, for every value constructible through the API")
C["C38"] = ("proved", "sign = parity of inversions, homomorphism to C2, sign of a k-cycle")
C["C39"] = ("partial", "disjoint_cycles/cycle_shape, Permutation<N>::new_from_cycles and recomposition proved; From<Cycle> for Permutation is refuted: it panics on every nonempty cycle")
C["C40"] = ("proved", "nat_pow, int_pow, exponent addition, compose_list in every group")
C["C41"] = ("proved", "generated_finite_subgroup and generated_finite_subgroup_table: exact generated subgroup, termination when finite, group table isomorphic to it; instance: permutations always terminate")
C["C42"] = ("proved", "new/check_state never panic and accept exactly the group tables; from_raw_model, cyclic_group, direct_product, order, is_abelian, mul_many, conjugacy classes, Partition invariants, cached-flag check")
C["C43"] = ("proved", "least (normal) subgroup containing the set, termination, error on bad elements, to_group, for every hash iteration order")
C["C44"] = ("proved", "cosets partition into classes of equal size, Lagrange, quotient group is a group with the expected kernel; is_left_cosets / is_right_cosets / is_congruence decide")
C["C45"] = ("partial", "proved for non-empty subsets; is_subgroup accepts the empty set, refuted with witness")
C["C46"] = ("partial", "generating sets, homomorphism extension, to_isomorphism, find_isomorphism proved complete; small_generating_set proved for order > 1 and refuted (underflow panic) on the trivial group")
C["C56"] = ("proved", "subgroups and normal_subgroups enumerate each exactly once, with generators")
C["C47"] = ("partial", "a returned answer never merges distinct cosets, bounds the index, and is exact once the relators are checked; into_finite_group gives a group then; refuted with witnesses: relators can act non-trivially, points can be unreachable, and valid input can panic")
C["C48"] = ("partial", "refuted: a one-generator presentation of the trivial group on which enumeration provably never halts; each answer is independent of the time limit")
C["C57"] = ("proved", "")
C["C06"] = ("proved", "")
C["C07"] = ("proved", "")
C["C08"] = ("proved", "")
C["C09"] = ("proved", "")
C["C10"] = ("proved", "for bases in the documented (debug-asserted) range; without it the claim is refuted")
C["C12"] = ("partial", "what is returned is a factorisation for every n given a sound primality test; total and unconditionally exact below 10001^2; every Pollard rho attempt terminates. Missing: termination of the retry loop over start values, and soundness of the thirteen-base test below 3.3e24 (a published computation) and of AKS above it")
C["C58"] = ("proved", "")
C["C59"] = ("proved", "")
C["C60"] = ("proved", "for a given correct factorisation of phi(n); unconditional below 10001^2")
C["C13"] = ("proved", "")
C["C49"] = ("proved", "for all real members (Coq reals); mul_interval_rat / mul_box_rat by 0 panic by design, also shown")
C["C50"] = ("proved", "malachite's Floor is trusted to be the floor")
C["C51"] = ("proved", "for every choice of interior point by malachite's simplest_rational_in_open_interval")
C["C30"] = ("proved", "Every history of transpose/flip_rows/flip_cols/at_mut, every size; constructors. The Rust type has several spellings (_mut, _ref, by value) of one operation: one model definition each.")
C["C31"] = ("proved", "Over any comRingType (Leibniz equality: rings whose elements have canonical representatives). itertools::permutations is trusted to list every ordering.")
C["C32"] = ("proved", "Every matrix over any integral domain meeting the contracts of BezoutDomainStructure (C15/C16 prove them for euclidean_xgcd; C32_contracts for Z and for fields); never panics, including the debug assertions.")
C["C33"] = ("proved", "det, det_naive, det_hermite, rank; also inv (needs a norm that does not drop on multiples).")
C["C34"] = ("partial", "The contract fails in general (refutation theorems: divisibility chain, two kinds of panic, s <> u m v). Proved: the whole contract with termination for at most two rows and a nonzero first row, over any Euclidean domain with monotone norm; for linearly independent rows of any size, if it returns then s = u m v, u and v invertible, s diagonal with normalised nonzero diagonal, k = rank.")
C["C35"] = ("proved", "Every matrix and right-hand side over any Bezout domain (integers and fields are instances); never panics, including the debug assertions.")
C["C36"] = ("proved", "Lattices of matrices of any shape over any Bezout domain; sum and intersect for lists of any length.")
C["C61"] = ("partial", "contains_point, sum, intersect, affine spans: proved in full. contains_sublattice/equal: only completeness holds (a true inclusion is recognised); soundness is refuted: the offset of the other lattice is never tested.")
C["C62"] = ("partial", "Refuted over the integers for lattices of full rank / finite index (2Z). Proved over every Bezout domain: no panic, number and rank of the hyperplanes, intersection equal to the lattice whenever its rank is not full, empty list for full rank; extension_basis gives rank(b)-rank(a) matrices of b independent of a, spanning b up to nonzero multiples. Proved without restriction over fields.")
C["C23"] = ("proved", "Over any commutative ring whose elements are their canonical representatives (Leibniz equality). `reversed` needs a vector without trailing zero: without it the claim is refuted. compose is proved through the polynomial ring over the polynomial ring, as in the code.")
C["C24"] = ("proved", "Over any integral domain meeting IntegralDomainStructure; fields: total, Euclidean, gcd and xgcd; never panics, including the debug assertion.")
C["C25"] = ("proved", "Both interpolation routines; also uniqueness, and the exact panic condition.")
C["C26"] = ("partial", "resultant is proved total and equal to the textbook Sylvester determinant of the arguments ordered by degree, over any integral domain; hence equal to Res(a,b) except for deg a < deg b both odd, where the sign is wrong (C26_sign_wrong, C26_sign_refuted). Also: the whole subresultant sequence, subresultant_gcd, zero iff common factor, is_squarefree, discriminant (characteristic 0).")
C["C27"] = ("partial", "Refuted as stated: the gcd of the contents is dropped (gcd(2x,4x) = x) and the result need not be the favourite associate. Proved over any GCD domain: never panics; the result is primitive, divides both, is divisible by every primitive common divisor, and times the gcd of the contents it is a gcd; hence a gcd when either argument is primitive. Also Gauss' lemma, factor_primitive, is_primitive, primitive_squarefree_part.")
C["C22"] = ("partial", "Refuted as stated: the sign can be wrong (f = -(x^2-1)^2), because Factored::pow leaves the unit alone. Proved over any GCD domain of characteristic 0: Yun's algorithm never panics with any correct squarefree factoriser and gives a valid factorisation of f up to a unit constant (exact if the factoriser's units are 1); Kronecker's search is exact; Kronecker's method gives a valid factorisation of f or -f; the integer factor() meets the contract; trial division over a finite field is exact. Berlekamp-Zassenhaus itself is not modelled.")
C["C52"] = ("proved", "For the roots in any numeric field (ordered fields, the complex algebraic numbers); None exactly for constants; never panics.")
C["C63"] = ("proved", "Landau's inequality and Mignotte's bound, through the complex roots of the factors (mathcomp's algebraic numbers; no axioms).")

C["C28"] = ("proved", "for every Euclidean domain with a monotone norm in which 1 is its own remainder modulo p^k; over the integers, every prime p >= 2. The edge cases that fail are refuted with witnesses: p negative, constant factors, new::<true> with n >= 2, a single factor (factors() then returns h itself).")
C["C29"] = ("proved", "monomials, the two orders, ring operations, equality, evaluation, degrees, expansion, homogenisation, renaming and exact division over any commutative ring (division: any integral domain), independent of hash order; *_refuted: inputs where the code departs (division by constant(0), degree/as_constant of unreduced polynomials, homogenize by an occurring variable, non-injective renaming, check_invariants of zero)")
C["C64"] = ("proved", "over any integral domain (symmetry test and elementary polynomials: any commutative ring), for any order of the hash maps and any variable choice in the division; includes termination, uniqueness of the result and the debug assertion. C64_is_symmetric_refuted: a stored zero coefficient changes the answer of is_symmetric.")
C["C11"] = ("proved", "whole function modelled, including the packing of polynomials into integers and the debug assertions. Zero/One/Composite answers are right for any behaviour of the factorisation routine; every prime p is answered Prime (in debug and release) if the numbers <= p are factored correctly, unconditionally for p < 100020001. C11_debug_assertion_refuted: on 112 a debug build panics. Not claimed: that Prime is answered only for primes (the AKS theorem itself).")
C["C65"] = ("partial", "refuted as stated over non-prime fields: over F_4 x^2+beta is reported as (x+beta)^2, since the p-th root step does not take roots of the coefficients. Proved for every nonzero f over a prime field, and over any finite field for every f not divisible by a p-th power of a nonconstant polynomial; factorize_monic over any finite field.")
C["C66"] = ("proved", "over every finite field, from any squarefree factorisation; for prime fields also the whole chain factorize_monic, factorize_squarefree, factorize_berlekamps (over other fields the squarefree step is wrong, see C65).")
C["C67"] = ("proved", "over every finite field; the pseudorandom stream is an arbitrary function, the unbounded loop is observed after any number of rounds. The debug assertion's conversion of q^i to usize is modelled with unbounded integers. For prime fields also the whole chain factorize_monic .. factorize_cantor_zassenhaus.")
C["C68"] = ("partial", "the search over subsets is proved for every lifted factorisation that satisfies what Hensel lifting provides. C68_sign_refuted: the sign of f is lost (the result expands to f or to -f). Missing so far: the choice of the prime, the lifting loop, Yun's squarefree decomposition around it.")
C["C69"] = ("proved", "machine integers are numbers modulo 2^64; rationals are exact.")
C["C68"] = ("partial", "C68_berlekamp_zassenhaus_partial proves the whole algorithm (Yun, choice of the prime, Hensel lifting loop, search over subsets) for every nonzero f of degree below 2^64 - 1: it terminates, never panics, and returns a factorisation into primes of f or of -f. C68_refuted: the sign is wrong for f = x(x-1)(x+1)(x-2)(x+2)(x-3); C68_sign_refuted shows where it is lost. The factorisers modulo p and of integers are parameters with their contracts as hypotheses; C68_modular_factoriser shows that the algorithms of C65 and C66 meet the first one. Only the sign is missing. C68_naive_squarefree (exact, with the sign, any degree), C68_naive_partial (any nonzero f, up to the sign) and C68_naive_refuted do the same for the naive search; C68_naive_find_factor is one call of it.")
C["C70"] = ("partial", "proved: no panic on nonzero polynomials, the factors are pairwise non-associate monic primes with positive exponents, and the product is f up to a nonzero constant, which C70_constant gives exactly; C70_squarefree: squarefree polynomials are factored exactly. Refuted: (2x+1)^2 is returned as 2(x+1/2)^2, because the unit of a factor is multiplied in once instead of once per power (C70_refuted), and 0 panics instead of giving None (C70_zero_refuted). C70_rationals_partial is the instance Q[x] with the Berlekamp-Zassenhaus algorithm.")
C["C71"] = ("proved", "over every field with an involutive conjugation under which only 0 has norm 0 (instances: the rationals, the complex algebraic numbers); the exact condition under which the algorithms panic: the plain version exactly when a nontrivial combination of the rows before the last one vanishes, the orthonormal ones exactly when the rows are dependent. Square roots are a parameter with its contract.")
C["C72"] = ("proved", "over every field and every modulus of positive degree (a nonzero constant modulus panics: C72_constant_modulus). Norm and trace are characterised by the roots of the modulus in any extension where it splits, with multiplicity, so also for reducible and inseparable moduli. min_poly is not covered: it goes through the Smith form of a matrix over K[x], which C34 refutes in general.")
C["C73"] = ("partial", "C73_panic_refuted: both functions panic on a 3 x 3 rational matrix, because they use the Smith algorithm, whose contract fails (C34). Proved over every field: up to two rows the contract in full (C73_small), hence min_poly in K[x]/(m) for deg m <= 2; for every size, whatever characteristic_polynomial returns is right, and the minimal polynomial is right whenever the Smith diagonal divides along. Polynomials over the field are identified with elements of {poly F} (canonical representatives) in the theorems and are lists of coefficients in the refutation.")
C["C74"] = ("partial", "over every real closed field; for every run that returns (the loop is modelled with fuel): termination of the loop and absence of panics are not proved yet. Roots are those in the real closed field, so the statement covers the reals and the real algebraic numbers.")
C["C74"] = ("proved", "correctness over every real closed field, for every run that returns (the loop is modelled with fuel); termination and absence of panics (C74_terminates) for every squarefree integer polynomial in normal form without a root at 0 or 1: on small enough dyadic intervals the scaled Bernstein coefficients change sign at most once. Roots are those in the real closed field, so the statement covers the reals and the real algebraic numbers. C74_unreduced_panics: with a stored zero above the degree the subtraction degree - i underflows.")
