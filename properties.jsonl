{"id": "C01", "title": "subsets(n,k) is exactly the k-subsets of {0..n-1}", "statement": "The vector returned by subsets(n,k) contains every strictly increasing length-k list of numbers below n exactly once, contains nothing else, is in lexicographic order, and has C(n,k) entries; subsets_vec maps this through indexing.", "quantifier": "every n, every k (including k=0, k=n, k>n)", "why_tests_cant": "infinitely many (n,k); tests enumerate a handful of small pairs and cannot rule out a missing or repeated subset for large ones", "anchors": ["sets/src/subset.rs: subsets, subsets_vec"]}
{"id": "C02", "title": "partitions_sized(n,x,p) yields exactly the partitions of n into x parts", "statement": "Iterating predicated_partitions_sized(n,x,p) to exhaustion yields each nondecreasing list of x positive integers with sum n all satisfying p exactly once, in lexicographic order, then None forever; the _zero variant yields the same for parts >= 0.", "quantifier": "every n, x, every predicate p on naturals", "why_tests_cant": "the iterator is a recursive state machine over three indices and an arbitrary predicate; no finite set of (n,x,p) covers it", "anchors": ["sets/src/partition.rs: PartitionIterator, predicated_partitions_sized, predicated_partitions_sized_zero, partitions_sized"]}
{"id": "C03", "title": "partitions(n) yields every partition of n", "statement": "predicated_partitions(n,p) yields every partition of n with all parts satisfying p exactly once, including the empty partition of 0.", "quantifier": "every n and predicate p", "why_tests_cant": "unbounded n; and the n=0 corner is inconsistent with partitions_sized(0,0)", "anchors": ["sets/src/partition.rs: predicated_partitions, partitions"]}
{"id": "C04", "title": "Combination iterator with exclusions: any interleaving of next and exclude", "statement": "For LexicographicCombinationsWithRemovals::new(n,k), after any sequence of next()/exclude(a) calls (a<n), the subsets yielded so far are strictly lexicographically increasing, each next() returns the lexicographically first k-subset after the last one passed that avoids all excluded elements, and None is returned exactly when there is none; None is sticky.", "quantifier": "every n,k with k<n and every history of next/exclude calls", "why_tests_cant": "histories are unbounded interleavings of two operations over a mutable index structure", "anchors": ["sets/src/combinations.rs: LexicographicCombinationsWithRemovals::{new,next,exclude}"]}
{"id": "C05", "title": "Combination iterator when k = n", "statement": "LexicographicCombinationsWithRemovals::new(n,n) yields the single subset {0..n-1} and then None.", "quantifier": "every n", "why_tests_cant": "a boundary case the tests never construct", "anchors": ["sets/src/combinations.rs: LexicographicCombinationsWithRemovals::new"]}
{"id": "C06", "title": "Integer roots are exact floors and ceilings", "statement": "nth_root_floor(x,n) is the r with r^n <= x < (r+1)^n, nth_root_ceil(x,n) is the least r with x <= r^n, sqrt_floor/sqrt_ceil agree, and the bisection loop terminates.", "quantifier": "every natural x and every n >= 1", "why_tests_cant": "bisection loop invariants and termination over unbounded naturals", "anchors": ["rings/src/number/natural/functions.rs: nth_root_floor, nth_root_ceil, sqrt_floor, sqrt_ceil"]}
{"id": "C07", "title": "factorial and choose are the factorial and binomial functions", "statement": "factorial(n)=n!, choose(n,k)=choose_usize(n,k)=C(n,k) (0 if k>n).", "quantifier": "every n, k", "why_tests_cant": "infinite domain", "anchors": ["rings/src/number/natural/functions.rs: factorial, choose, choose_usize"]}
{"id": "C08", "title": "PrimeGenerator yields all primes in increasing order", "statement": "The i-th item of PrimeGenerator is the i-th prime; every item is prime and no prime is skipped; next() always terminates.", "quantifier": "every number of calls to next()", "why_tests_cant": "infinite stream", "anchors": ["rings/src/number/natural/primes.rs: PrimeGenerator"]}
{"id": "C09", "title": "Trial-division primality test is correct", "statement": "try_divisors_primality_test(n) answers Zero/One/Prime/Composite exactly according to n being 0, 1, a prime, or composite.", "quantifier": "every natural n", "why_tests_cant": "unbounded domain", "anchors": ["rings/src/number/natural/primes.rs: try_divisors_primality_test"]}
{"id": "C10", "title": "Miller-Rabin never calls a prime composite", "statement": "With bases in the documented range 2..=n-2, miller_rabin_primality_test(n, bases) returns Composite only if n is composite, answers Composite exactly when some base fails the strong probable prime condition, and on 0, 1, 2 and even n it returns Zero, One, Prime and Composite.", "quantifier": "every natural n and every list of bases", "why_tests_cant": "one-sided correctness over all primes and bases", "anchors": ["rings/src/number/natural/primes.rs: miller_rabin_primality_test"]}
{"id": "C11", "title": "AKS never calls a prime composite", "statement": "aks_primality_test(n) returns Zero, One and Composite only for 0, 1 and composite numbers, and every prime is answered Prime: the parameter search terminates, no assertion fails and the packed polynomial congruences all hold.", "quantifier": "every natural n", "why_tests_cant": "unbounded n, nested search for parameters and polynomial congruences", "anchors": ["rings/src/number/natural/primes.rs: aks_primality_test"]}
{"id": "C12", "title": "factor(n) is the prime factorisation", "statement": "factor(n) is None for 0 and otherwise a set of (prime, positive exponent) pairs with distinct primes whose product is n; every intermediate factoring step preserves the product.", "quantifier": "every natural n, given a correct primality test and any factor finder that returns true divisors", "why_tests_cant": "unbounded n and randomised work-list algorithm", "anchors": ["rings/src/number/natural/factor.rs: Factored, Factorizer, factor"]}
{"id": "C13", "title": "p-adic valuations", "statement": "padic_nat_valuation(p,n) is Infinity iff n=0 and otherwise the k with p^k | n and not p^(k+1) | n; padic_rat_valuation is multiplicative and ultrametric.", "quantifier": "every prime p, every natural / integer / rational", "why_tests_cant": "loop over unbounded n", "anchors": ["rings/src/number/algebraic/padic/valuation.rs: padic_nat_valuation, padic_int_valuation, padic_rat_valuation, Valuation"]}
{"id": "C14", "title": "nat_pow / int_pow are exponentiation", "statement": "In any commutative ring nat_pow(a,n) is the n-fold product (a^0=1); int_pow(a,-n) is the inverse of a^n when a is a unit and None otherwise.", "quantifier": "every ring, element and exponent", "why_tests_cant": "square-and-multiply over the binary expansion of an unbounded exponent", "anchors": ["rings/src/structure/structure.rs: nat_pow, int_pow"]}
{"id": "C15", "title": "Euclidean gcd and xgcd terminate with a gcd and Bezout coefficients", "statement": "euclidean_gcd(x,y) terminates and returns a common divisor divisible by every common divisor, in favourite-associate form; euclidean_xgcd(x,y)=(g,a,b) has the same g and g = a*x + b*y.", "quantifier": "every Euclidean domain meeting the trait contract and every pair of elements (including zeros)", "why_tests_cant": "termination and gcd-ness over all Euclidean domains", "anchors": ["rings/src/structure/structure.rs: euclidean_gcd, euclidean_xgcd; rings/src/number/integer/mod.rs"]}
{"id": "C16", "title": "gcd_list, lcm, lcm_list, xgcd_list", "statement": "gcd_list is a greatest common divisor of the list, lcm_list a least common multiple, xgcd_list returns coefficients whose dot product with the list is the gcd; lcm handles zero arguments.", "quantifier": "every finite list over a Bezout domain", "why_tests_cant": "lists of unbounded length", "anchors": ["rings/src/structure/structure.rs: gcd_list, lcm, lcm_list, xgcd_list"]}
{"id": "C17", "title": "Quotient rings: arithmetic is arithmetic mod the modulus and division inverts", "statement": "In QuotientStructure over a Bezout Euclidean domain, equal(a,b) iff modulus | a-b, add/mul/neg are well defined on classes, and with an irreducible modulus div(a,b) returns c with b*c = a mod modulus for every b not 0 mod modulus and DivideByZero otherwise.", "quantifier": "every Euclidean domain, modulus and pair of elements", "why_tests_cant": "all moduli and representatives", "anchors": ["rings/src/structure/quotient.rs: QuotientStructure"]}
{"id": "C18", "title": "generate_distinct_elements enumerates the integers without repetition", "statement": "Over a characteristic-zero ring generate_distinct_elements yields 0,1,-1,2,-2,... : no element twice, and every integer multiple of one eventually.", "quantifier": "every number of calls", "why_tests_cant": "infinite stream", "anchors": ["rings/src/structure/structure.rs: CharZeroStructure::generate_distinct_elements"]}
{"id": "C19", "title": "Modulo<N> is Z/N", "statement": "Every way of building a Modulo<N> from an integer z yields the residue of z mod N in 0..N-1, arithmetic respects residues, and division is correct for prime N.", "quantifier": "every N >= 1, all integers", "why_tests_cant": "all integers including negatives; tests only convert non-negative values", "anchors": ["rings/src/number/finite_fields/modulo.rs: From<Integer>, From<usize>, From<isize>, add, mul, neg, div, xgcd"]}
{"id": "C20", "title": "QuaternaryField is the field with four elements", "statement": "The hard-coded tables satisfy all field axioms and div is the inverse of mul.", "quantifier": "all triples of elements", "why_tests_cant": "associativity/distributivity need all triples; the unit tests check pairs against the same tables", "anchors": ["rings/src/number/finite_fields/quaternary_field.rs"]}
{"id": "C21", "title": "Factored: expand is a homomorphism", "statement": "expand(mul(a,b)) = expand(a)*expand(b), expand(pow(a,k)) = expand(a)^k, divisors() lists every divisor up to units and count_divisors counts them.", "quantifier": "every factored value over every UFD, every exponent k", "why_tests_cant": "all units, factors and exponents", "anchors": ["rings/src/structure/factorization.rs: Factored::{mul,mul_mut,mul_by_unchecked,pow,expand,divisors,count_divisors}"]}
{"id": "C22", "title": "Factoring an integer polynomial expands back to it", "statement": "For every nonzero integer polynomial f, expand(factor(f)) = f.", "quantifier": "every nonzero polynomial, whatever correct squarefree factoriser is plugged in", "why_tests_cant": "all polynomials, including repeated factors with negative leading coefficients", "anchors": ["rings/src/polynomial/factoring.rs: factorize_using_primitive_sqfree_factorize_by_yuns_algorithm", "rings/src/structure/factorization.rs: pow"]}
{"id": "C23", "title": "Polynomial arithmetic agrees with the polynomial ring", "statement": "equal, add, mul, neg, evaluate, compose, derivative, mul_var_pow, mul_scalar, degree, leading_coeff on coefficient vectors (with possible trailing zeros) agree with the abstract polynomial ring operations.", "quantifier": "all coefficient vectors over any commutative ring", "why_tests_cant": "unbounded degree, unreduced representatives", "anchors": ["rings/src/polynomial/polynomial.rs: PolynomialStructure"]}
{"id": "C24", "title": "Polynomial division with remainder", "statement": "If try_quorem(a,b) returns (q,r) then a = q*b + r and deg r < deg b; over a field it always succeeds for b != 0; div succeeds iff b divides a exactly, and returns the quotient.", "quantifier": "all polynomials over an integral domain", "why_tests_cant": "unbounded degree; completeness (NotDivisible only when really not divisible) cannot be tested", "anchors": ["rings/src/polynomial/polynomial.rs: try_quorem, div_impl"]}
{"id": "C25", "title": "Lagrange interpolation", "statement": "interpolate_by_lagrange_basis(points) with distinct abscissae returns Some(f) with f(xi)=yi and deg f < number of points if such an f over the ring exists, and None otherwise.", "quantifier": "every list of points over an integral domain", "why_tests_cant": "unbounded number of points", "anchors": ["rings/src/polynomial/polynomial.rs: interpolate_by_lagrange_basis"]}
{"id": "C26", "title": "Resultant sign", "statement": "resultant(a,b) = (-1)^(deg a * deg b) resultant(b,a), and equals the Sylvester determinant.", "quantifier": "all nonzero polynomials over an integral domain", "why_tests_cant": "the swap branch is only wrong for odd*odd degrees", "anchors": ["rings/src/polynomial/polynomial.rs: pseudo_remainder_subresultant_sequence, resultant"]}
{"id": "C27", "title": "gcd over Z[x] is a greatest common divisor", "statement": "gcd(a,b) over the integers is divisible by every common divisor of a and b.", "quantifier": "all pairs of integer polynomials", "why_tests_cant": "needs all common divisors, including constants", "anchors": ["rings/src/polynomial/polynomial.rs: gcd_by_primitive_subresultant, factor_primitive", "rings/src/number/integer/polynomial.rs"]}
{"id": "C28", "title": "Hensel lifting", "statement": "If h = alpha*f*g mod i^n and a*f+b*g = 1 mod i with f, g monic, then the lifted factors satisfy h = alpha*f'*g' mod i^(n+1), f' = f and g' = g mod i^n, and are again monic of the same degrees. For a whole HenselFactorization built from pairwise coprime (mod p) nonconstant monic factors, any number of linear lifts, or of quadratic lifts, succeeds without panicking (including every debug assertion); the modulus is p^(n+k), respectively p^(2^k); h is its leading coefficient times the product of factors() modulo it, and the factors are, in order, lifts of the ones given.", "quantifier": "all Euclidean coefficient rings, irreducible moduli, exponents, numbers of factors and of lifts", "why_tests_cant": "unbounded degree, modulus, number of factors and number of lifts", "anchors": ["rings/src/polynomial/hensel_lifting.rs: HenselFactorization::new, factors, modolus, check, compute_lift_factors, linear_lift, quadratic_lift, dont_lift_bezout_coeffs"]}
{"id": "C29", "title": "Multivariate polynomial arithmetic", "statement": "Monomial multiplication adds exponents, lexicographic_order is a total order compatible with canonical monomials, and add/mul/neg/equal agree with evaluation at every point.", "quantifier": "all multivariate polynomials over any commutative ring", "why_tests_cant": "unbounded numbers of variables and terms; HashMap iteration order", "anchors": ["rings/src/polynomial/multipoly.rs"]}
{"id": "C30", "title": "Matrix views: transpose and flips", "statement": "For every sequence of transpose / flip_rows / flip_cols / at_mut the entries visible through at(r,c) are those of the mathematical matrix after the same operations; out of range accesses give errors.", "quantifier": "every matrix and every history of in-place view changes and writes", "why_tests_cant": "index bookkeeping through three boolean flags over arbitrary histories", "anchors": ["rings/src/linear/matrix.rs: Matrix::{rc_to_idx,at,at_mut,transpose_mut,flip_rows_mut,flip_cols_mut}"]}
{"id": "C31", "title": "Matrix arithmetic", "statement": "add, mul, neg, mul_scalar, trace, join_rows/cols/diag, submatrix, nat_pow, dot agree with the matrix algebra; det_naive is the Leibniz determinant; incompatible shapes give the documented errors.", "quantifier": "all shapes and entries over any commutative ring", "why_tests_cant": "unbounded dimensions", "anchors": ["rings/src/linear/matrix.rs: MatrixStructure"]}
{"id": "C32", "title": "Row Hermite algorithm", "statement": "row_hermite_algorithm(m) terminates and returns (h,u,u_det,pivs) with h = u*m, det(u) = u_det a unit, h in row echelon form with pivot columns pivs.", "quantifier": "every matrix over a Bezout domain", "why_tests_cant": "unbounded dimensions, termination of the elimination loops", "anchors": ["rings/src/linear/matrix.rs: row_hermite_algorithm"]}
{"id": "C33", "title": "Determinant and rank through Hermite form", "statement": "det(m) computed by the Hermite algorithm equals det_naive(m); rank(m) is the rank over the field of fractions.", "quantifier": "every matrix over a Bezout domain", "why_tests_cant": "unbounded dimensions", "anchors": ["rings/src/linear/matrix.rs: det, rank, inv"]}
{"id": "C34", "title": "Smith normal form", "statement": "smith_algorithm(m)=(u,s,v,k) satisfies s = u*m*v with u,v invertible and s diagonal with divisibility chain.", "quantifier": "every matrix over a Bezout domain", "why_tests_cant": "the faulty branch needs a zero leading column", "anchors": ["rings/src/linear/matrix.rs: smith_algorithm"]}
{"id": "C35", "title": "Linear systems and kernels", "statement": "row_solve/col_solve return Some(x) with x*m = y iff the system is solvable over the ring; row_kernel/col_kernel span exactly the kernel.", "quantifier": "every matrix and right-hand side over a Bezout domain", "why_tests_cant": "completeness (None only if unsolvable) is universally quantified", "anchors": ["rings/src/linear/matrix.rs: row_solve, col_solve, row_kernel, col_kernel"]}
{"id": "C36", "title": "Linear lattices", "statement": "from_span, sum, intersect_pair, contains_point, contains_sublattice and equal implement exactly the submodule operations.", "quantifier": "all lattices of matrices of any shape over a Bezout domain", "why_tests_cant": "unbounded ranks", "anchors": ["rings/src/linear/subspace.rs: LinearLatticeStructure"]}
{"id": "C37", "title": "Permutations form a group with canonical representation", "statement": "Permutation::new accepts exactly the vectors that are bijections of 0..len-1; compose/inverse/identity satisfy the group laws; two permutations are == iff they act identically on all naturals.", "quantifier": "all permutations of all degrees (mixed lengths)", "why_tests_cant": "unbounded degree; trailing fixed points", "anchors": ["groups/src/permutation.rs: Permutation"]}
{"id": "C38", "title": "Sign is a homomorphism", "statement": "sign(compose(p,q)) = sign(p)*sign(q), and it is the inversion parity.", "quantifier": "all permutations", "why_tests_cant": "unbounded degree", "anchors": ["groups/src/permutation.rs: sign", "groups/src/examples/c2.rs"]}
{"id": "C39", "title": "Cycles convert to permutations", "statement": "Converting a cycle (a1 ... ak) to a Permutation yields the permutation sending ai to a(i+1); disjoint_cycles of a permutation composes back to it.", "quantifier": "every cycle / permutation", "why_tests_cant": "unbounded support", "anchors": ["groups/src/permutation.rs: From<Cycle> for Permutation, disjoint_cycles, new_from_cycles"]}
{"id": "C40", "title": "Group exponentiation", "statement": "nat_pow and int_pow in any Group compute the n-fold composition, with int_pow(-n) the inverse.", "quantifier": "every group, element, integer exponent", "why_tests_cant": "unbounded exponent", "anchors": ["groups/src/group.rs: nat_pow, int_pow"]}
{"id": "C41", "title": "generated_finite_subgroup", "statement": "generated_finite_subgroup_table(gens) returns a composition table of exactly the subgroup generated by gens, with mutually inverse index maps.", "quantifier": "every finite group and generating list", "why_tests_cant": "closure computation over unbounded groups", "anchors": ["groups/src/group.rs: generated_finite_subgroup_table, generated_finite_subgroup"]}
{"id": "C42", "title": "FiniteGroupMultiplicationTable::new accepts exactly group tables", "statement": "new(size, identity, inverse table, mul table, flags) succeeds iff the tables describe a group with that identity and inverses (and the optional flags are right).", "quantifier": "every size and table", "why_tests_cant": "all tables of all sizes", "anchors": ["groups/src/composition_table/group.rs: new, check_state"]}
{"id": "C43", "title": "Generated subgroups and normal closures", "statement": "generated_subgroup(gens) is the smallest subgroup containing gens; normal_closure(gens) the smallest normal subgroup.", "quantifier": "every finite group table and subset", "why_tests_cant": "work-list loop over all groups; iteration order of hash sets", "anchors": ["groups/src/composition_table/group.rs: generated_subgroup, normal_closure", "groups/src/composition_table/generating_set.rs"]}
{"id": "C44", "title": "Cosets and quotients", "statement": "left_cosets/right_cosets partition the group into classes of the size of the subgroup; quotient_group of a normal subgroup is a group and the projection is a homomorphism.", "quantifier": "every finite group and subgroup", "why_tests_cant": "all groups", "anchors": ["groups/src/composition_table/subgroup.rs", "groups/src/composition_table/normal_subgroup.rs", "groups/src/composition_table/partition.rs"]}
{"id": "C45", "title": "Subset::is_subgroup decides being a subgroup", "statement": "is_subgroup(S) is true iff S is a subgroup (in particular nonempty).", "quantifier": "every finite group and subset", "why_tests_cant": "all subsets", "anchors": ["groups/src/composition_table/subset.rs: is_subgroup"]}
{"id": "C46", "title": "Homomorphism extension and isomorphism search", "statement": "A map on a generating set extends to a homomorphism iff the extension routine returns it, and it is the unique one; find_isomorphism returns Some(iso) iff the groups are isomorphic.", "quantifier": "every pair of finite groups", "why_tests_cant": "search over all groups", "anchors": ["groups/src/composition_table/generating_set.rs: generated_homomorphism", "groups/src/composition_table/homomorphism.rs: find_isomorphism"]}
{"id": "C47", "title": "Coset enumeration is sound when it halts", "statement": "When enumerate_cosets returns tables, every generator acts as a permutation of the cosets with the stated inverses, every relator acts trivially, every subgroup generator fixes coset 0, and every coset is reachable from coset 0.", "quantifier": "every finite presentation and subgroup generator list on which it halts", "why_tests_cant": "all presentations; union-find style coincidence processing", "anchors": ["groups/src/free_group/todd_coxeter.rs: enumerate_cosets_impl"]}
{"id": "C48", "title": "Coset enumeration halts when the index is finite", "statement": "enumerate_cosets terminates whenever the subgroup has finite index.", "quantifier": "every finite presentation with finite index", "why_tests_cant": "termination can't be tested", "anchors": ["groups/src/free_group/todd_coxeter.rs: enumerate_cosets_impl, unify"]}
{"id": "C49", "title": "Interval and box arithmetic encloses", "statement": "add_intervals, mul_intervals, add_boxes, mul_boxes return the tightest interval/box (hull) containing all sums/products of members.", "quantifier": "all rational intervals / boxes and all members", "why_tests_cant": "all real members of the intervals", "anchors": ["rings/src/number/algebraic/real/interval.rs", "rings/src/number/algebraic/complex/boxes.rs"]}
{"id": "C50", "title": "Rational floor, ceil, round", "statement": "floor(x) <= x < floor(x)+1, ceil(x)-1 < x <= ceil(x), |round(x)-x| <= 1/2 with ties rounded up.", "quantifier": "all rationals", "why_tests_cant": "infinite domain", "anchors": ["rings/src/number/rational.rs: RealRoundingStructure"]}
{"id": "C51", "title": "RationalSimpleBetweenGenerator", "statement": "Every yielded rational lies strictly inside (a,b), no rational is yielded twice, and the stored regions always tile the interval minus the yielded points.", "quantifier": "every a<b and every number of calls", "why_tests_cant": "infinite stream over a mutable map of regions", "anchors": ["rings/src/number/algebraic/bisection_gen.rs"]}
{"id": "C52", "title": "Cauchy root bound", "statement": "Every root of a nonconstant integer polynomial has absolute value strictly below cauchys_root_bound.", "quantifier": "every nonconstant integer polynomial and every rational (real) root", "why_tests_cant": "all polynomials", "anchors": ["rings/src/number/integer/polynomial.rs: cauchys_root_bound, mignotte_factor_coefficient_bound"]}
{"id": "C53", "title": "from_int is the ring homomorphism from the integers", "statement": "from_nat(n) is the n-fold sum of 1; from_int preserves 0, 1, +, * and negation, and is injective in characteristic zero.", "quantifier": "every commutative ring and all integers", "why_tests_cant": "double-and-add over unbounded integers in every ring", "anchors": ["rings/src/structure/structure.rs: from_nat, from_int"]}
{"id": "C54", "title": "divisible, is_unit and are_associate decide", "statement": "In an integral domain meeting the division contract divisible(a,b) holds iff b is nonzero and divides a; is_unit(a) iff a has an inverse; are_associate(a,b) iff a and b differ by a unit (including 0,0).", "quantifier": "every integral domain and every pair of elements", "why_tests_cant": "quantifies over all rings meeting the contract", "anchors": ["rings/src/structure/structure.rs: divisible, is_unit, are_associate"]}
{"id": "C55", "title": "Factored::equal and factorize_by_find_factor", "statement": "On factorisations satisfying the documented invariant, equal(a,b) holds iff they expand to the same element; factorize_by_find_factor turns any correct splitting oracle into a valid factorisation of its input.", "quantifier": "every UFD-like ring, every pair of factorisations, every oracle that decreases a measure", "why_tests_cant": "unique factorisation argument over unbounded factor lists", "anchors": ["rings/src/structure/factorization.rs: Factored::equal, factorize_by_find_factor"]}
{"id": "C56", "title": "subgroups() and normal_subgroups() enumerate exactly the (normal) subgroups", "statement": "For every finite group table, subgroups() terminates and lists every subgroup exactly once, each paired with a set generating it; normal_subgroups() likewise with normal subgroups and normal closures; the result does not depend on hash-map iteration order.", "quantifier": "every finite group, every hash iteration order", "why_tests_cant": "quantifies over all groups and all iteration orders", "anchors": ["groups/src/composition_table/group.rs: subgroups_impl, subgroups, normal_subgroups"]}
{"id": "C57", "title": "Group expressions mean what they say", "statement": "In every group and under every assignment of elements to generators, the product, inverse and (positive, zero or negative) power of expressions evaluate to the product, inverse and power of the values; a two-sided relation holds iff its sides have equal values; the stored relator has the value of the expression it came from; translation panics exactly when the expression mentions a generator of another presentation.", "quantifier": "every group, assignment, expression and presentation", "why_tests_cant": "quantifies over all groups", "anchors": ["groups/src/free_group/todd_coxeter.rs: FinitelyGeneratedGroupElement, FinitelyGeneratedGroupPresentation"]}
{"id": "C58", "title": "is_power_test detects perfect powers", "statement": "is_power_test(n) terminates and returns Power(a,k) only with a^k = n and k >= 2, and No only if n > 1 is not a k-th power for any k >= 2; Zero and One exactly for 0 and 1.", "quantifier": "every natural n", "why_tests_cant": "unbounded domain, loop over a stream of primes", "anchors": ["rings/src/number/natural/functions.rs: is_power_test"]}
{"id": "C59", "title": "gcd, pow and bitcount on naturals", "statement": "gcd(x,y) is the greatest common divisor (0 for 0,0) and terminates; pow(x,n)=x^n; bitcount(n) is the least k with n < 2^k.", "quantifier": "every x, y, n", "why_tests_cant": "unbounded domain", "anchors": ["rings/src/number/natural/functions.rs: gcd, pow, bitcount"]}
{"id": "C60", "title": "Factored naturals: expand, Euler totient, primitive roots", "statement": "For the factorisation of n, expand gives n back, euler_totient gives the number of 1..=n coprime to n, and is_primitive_root(x) answers NonUnit/Yes/No exactly according to gcd(x,n) != 1 / x having multiplicative order phi(n) / not, independently of hash order.", "quantifier": "every n > 1, every x, every hash order", "why_tests_cant": "unbounded domain; number theoretic criterion", "anchors": ["rings/src/number/natural/factor.rs: Factored::expand, euler_totient, is_primitive_root"]}
{"id": "C61", "title": "Affine lattices", "statement": "contains_point, contains_sublattice, equal, sum, intersect, row_affine_span/col_affine_span and the solution lattices of affine lattices denote exactly the corresponding sets: two affine lattices are equal() iff they contain the same points, sum() is the Minkowski sum, intersect() the intersection.", "quantifier": "all affine lattices of matrices of any shape over a Bezout domain, every list of them", "why_tests_cant": "unbounded ranks and list lengths; set equality is universally quantified over points", "anchors": ["rings/src/linear/subspace.rs: AffineLatticeStructure", "rings/src/linear/matrix.rs: row_affine_span, col_affine_span"]}
{"id": "C62", "title": "Hyperplanes and basis extension", "statement": "as_hyperplane_intersection returns hyperplanes whose intersection is the lattice; extension_basis(a, b) for a inside b returns matrices which together with a basis of a form a basis of b.", "quantifier": "all lattices over a Bezout domain", "why_tests_cant": "unbounded dimensions", "anchors": ["rings/src/linear/subspace.rs: LinearLatticeStructure::as_hyperplane_intersection, extension_basis"]}
{"id": "C63", "title": "Mignotte bound", "statement": "mignotte_factor_coefficient_bound(f) bounds the absolute value of every coefficient of every integer polynomial factor of f, and is None exactly for f = 0.", "quantifier": "every integer polynomial, every factor, every coefficient", "why_tests_cant": "all polynomials and all their factors; the Berlekamp-Zassenhaus recombination is wrong if the bound fails once", "anchors": ["rings/src/number/integer/polynomial.rs: mignotte_factor_coefficient_bound"]}
{"id": "C64", "title": "Symmetric polynomials", "statement": "is_symmetric(vars, p) is true iff p contains only variables of vars and is invariant under every permutation of them; elementary_symmetric(n, vars) is the n-th elementary symmetric polynomial; as_elementary_symmetric_polynomials(vars, p) never panics, is None iff p is not symmetric, and otherwise returns the unique polynomial in fresh variables e1..en which gives p when ei is replaced by the i-th elementary symmetric polynomial.", "quantifier": "every polynomial over an integral domain, every list of distinct variables, every hash order", "why_tests_cant": "all permutations of any number of variables, any degree; the fundamental theorem of symmetric polynomials", "anchors": ["rings/src/polynomial/symmetric.rs: is_symmetric, elementary_symmetric, as_elementary_symmetric_polynomials, as_elementary_symmetric_polynomials_unchecked"]}
{"id": "C65", "title": "Finite-field monic and squarefree factorisation", "statement": "For a nonzero polynomial f over a finite field, factorize_monic returns a unit u and a monic m with f = u*m (None for 0), and factorize_squarefree of that returns u and pairs (g_i, k_i) with g_i monic, nonconstant, squarefree, pairwise coprime, the k_i distinct and positive, and f = u * prod g_i^k_i.", "quantifier": "every finite field, every polynomial over it", "why_tests_cant": "all polynomials over all finite fields; the characteristic p branch only fires on p-th powers", "anchors": ["rings/src/number/finite_fields/polynomial.rs: MonicFactored, factorize_monic, factorize_squarefree"]}
{"id": "C66", "title": "Berlekamp factorisation over a finite field", "statement": "For a squarefree nonconstant f over a finite field, find_factor_by_berlekamps_algorithm returns two nonconstant factors with product f, or Irreducible exactly when f is irreducible. factorize_berlekamps turns any squarefree factorisation of A into u and distinct monic irreducible g_i with positive exponents k_i and A = u * prod g_i^k_i; neither panics.", "quantifier": "every finite field, every polynomial / squarefree factorisation over it, every order of all_elements", "why_tests_cant": "all polynomials over all finite fields; irreducibility quantifies over all divisors", "anchors": ["rings/src/number/finite_fields/polynomial.rs: find_factor_by_berlekamps_algorithm, factorize_by_berlekamps_algorithm / factorize_berlekamps"]}
{"id": "C67", "title": "Distinct degree and Cantor-Zassenhaus factorisation over a finite field", "statement": "factorize_distinct_degree turns any squarefree factorisation of A into u and labelled pairs (d_i, g_i, k_i): the g_i are monic, nonconstant, squarefree and pairwise coprime, every irreducible factor of g_i has degree d_i, no two have the same d and k, and A = u * prod g_i^k_i; it never panics. factorize_cantor_zassenhaus on such a factorisation never panics whatever the pseudorandom stream, whatever it returns is u and distinct monic irreducibles with positive exponents whose product is A, it returns at the latest one round after every coefficient vector has been drawn, and no prefix of the stream makes termination impossible. The into_* conversions keep the polynomial.", "quantifier": "every finite field, every factorisation over it, every pseudorandom stream and every number of rounds", "why_tests_cant": "all polynomials over all finite fields, and the loop is unbounded with a random stream", "anchors": ["rings/src/number/finite_fields/polynomial.rs: factorize_distinct_degree, factorize_cantor_zassenhaus, into_monic_factored, into_squarefree_factored, into_distinct_degree_factored", "rings/src/polynomial/quotient.rs: to_col_vector, from_col_vector"]}
{"id": "C68", "title": "Berlekamp-Zassenhaus factorisation of integer polynomials", "statement": "factorize_by_berlekamp_zassenhaus_algorithm on a nonzero integer polynomial f terminates without panicking and returns a unit and pairwise non-associate primes of Z[x] with positive exponents whose product is f (None on zero). In particular for a primitive squarefree f the loop over primes ends, the lifted factors multiply to f modulo a power of p exceeding twice the factor bound, and the search over subsets of them, with its exclusion of used factors, its halving at cardinality m/2, its d-1 test and its remembered partial products, finds every factor. factorize_by_berlekamp_zassenhaus_algorithm_naive, which searches all subsets, does the same for every degree.", "quantifier": "every nonzero integer polynomial of degree below 2^64 - 1, every factoriser modulo primes that is right", "why_tests_cant": "all integer polynomials; irreducibility of the factors quantifies over all divisors; the search is exponential and its pruning must never lose a factor", "anchors": ["rings/src/number/integer/berlekamp_zassenhaus.rs: factorize_by_berlekamp_zassenhaus_algorithm, BerlekampAassenhausAlgorithmState::{new,next_prime}, new_at_prime, factor_by_try_all_subsets, factorize_by_berlekamp_zassenhaus_algorithm_naive"]}
{"id": "C69", "title": "The d-1 test and the memory of partial products", "statement": "If f = F * H over the integers and the lifted factors g_i, i in s, are those of F modulo m, then the d-1 test of the subset s, with its wrap-around 64-bit arithmetic and after any history of tests, does not panic and does not rule s out. The memory stack returns the product over the requested subset after any history of requests.", "quantifier": "every polynomial, factor, modulus and subset, all coefficient sizes, degrees below 2^64; every sequence of requests", "why_tests_cant": "floating wrap-around interval arithmetic must be sound for all coefficient values; the memory depends on the whole history", "anchors": ["rings/src/number/integer/berlekamp_zassenhaus.rs: DMinusOneTest, MemoryStack::get_product"]}
{"id": "C70", "title": "Factorisation over a field of fractions", "statement": "factor_primitive_fof(f) returns u and a primitive h over the base ring with f = u*h for every nonzero f; factor (through the primitive part) of a nonzero polynomial over a field of fractions, in particular over the rationals, does not panic and returns a unit and distinct monic primes with positive exponents whose product is f (None for 0).", "quantifier": "every nonzero polynomial over the field of fractions of a GCD domain; every factoriser over the base ring that is right", "why_tests_cant": "all polynomials; primality over the field of fractions quantifies over all polynomials (Gauss's lemma)", "anchors": ["rings/src/polynomial/polynomial.rs: factor_primitive_fof, primitive_part_fof", "rings/src/polynomial/factoring.rs: factorize_by_factorize_primitive_part", "rings/src/structure/structure.rs: FieldOfFractionsStructure::as_base_ring", "rings/src/number/rational.rs: factor"]}
{"id": "C71", "title": "Gram-Schmidt and LQ / QR decomposition", "statement": "gram_schmidt_row_orthogonalization_algorithm on A returns (L, Q) with Q = L A, L lower unitriangular and the rows of Q pairwise orthogonal, unless some nontrivial combination of the rows before the last one vanishes, in which case it panics (division by zero). lq_decomposition_algorithm returns Q = L A with Q Q^* = 1 and L lower triangular with nonzero diagonal when the rows are independent, and panics otherwise. The column versions do the same on the transpose.", "quantifier": "every matrix of every shape over every field with a conjugation and an anisotropic inner product", "why_tests_cant": "all matrices; orthogonality must survive every step of the elimination", "anchors": ["rings/src/linear/matrix.rs: gram_schmidt_row_orthogonalization_algorithm, gram_schmidt_col_orthogonalization_algorithm, lq_decomposition_algorithm, qr_decomposition_algorithm"]}
{"id": "C72", "title": "Norm, trace and discriminant in K[x]/(m)", "statement": "For a modulus m of positive degree over a field K, col_multiplication_matrix(a) is the matrix of multiplication by a in the basis 1, x, .., and row_multiplication_matrix its transpose; to_/from_ row and column vectors are inverse to each other modulo m. norm(a) and trace(a) are the product and the sum of a over the roots of m in any extension where m splits; the norm is multiplicative and vanishes exactly on non-invertible elements. trace_form_matrix has the traces of the products as entries, and discriminant is the square of the determinant of the conjugates. None of them panics.", "quantifier": "every field, every modulus of positive degree, every element and every list of elements", "why_tests_cant": "all moduli of all degrees; the statement is about roots that the code never computes", "anchors": ["rings/src/polynomial/quotient.rs: col_multiplication_matrix, row_multiplication_matrix, to_col_vector, from_col_vector, norm, trace", "rings/src/number/anf/number_field.rs: trace_form_matrix, discriminant"]}
{"id": "C73", "title": "Characteristic and minimal polynomial of a matrix", "statement": "characteristic_polynomial of a square matrix A over a field returns det(x - A), and minimal_polynomial the monic generator of the polynomials that vanish at A; neither panics; a matrix that is not square gives Err(NotSquare). min_poly(a) in K[x]/(m) is the monic generator of the polynomials p with p(a) = 0 modulo m.", "quantifier": "every nonempty square matrix over every field; every modulus and element", "why_tests_cant": "all matrices of all sizes; minimality quantifies over all polynomials", "anchors": ["rings/src/linear/matrix.rs: presentation_matrix, minimal_polynomial, characteristic_polynomial", "rings/src/polynomial/quotient.rs: min_poly"]}
{"id": "C74", "title": "Collins-Akritas isolation of real roots", "statement": "For an integer polynomial with p(0) and p(1) nonzero and without multiple roots, isolate_real_roots_by_collin_akritas returns disjoint pieces of (0, 1), from left to right, each a dyadic point c/2^k or an open interval (c/2^k, (c+1)/2^k), such that each piece contains exactly one real root and every real root in [0, 1] is in exactly one piece; the search stops and does not panic.", "quantifier": "every integer polynomial that passes the debug assertions, over every real closed field", "why_tests_cant": "all polynomials; the statement is about real roots, that the code never computes, and the depth of the bisection has no bound over all inputs", "anchors": ["rings/src/number/algebraic/real/polynomial.rs: sign_variations, isolate_real_roots_by_collin_akritas"]}
