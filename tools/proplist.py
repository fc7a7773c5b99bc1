P = []
def prop(id, title, statement, quantifier, why, anchors, status=None, theorems=(), note=""):
    P.append(dict(id=id, title=title, statement=statement, quantifier=quantifier, why=why,
                  anchors=list(anchors), status=status, theorems=list(theorems), note=note))

# ------------------------------------------------------------------ sets
prop("C01", "subsets(n,k) is exactly the k-subsets of {0..n-1}",
 "The vector returned by subsets(n,k) contains every strictly increasing length-k list of numbers below n exactly once, contains nothing else, is in lexicographic order, and has C(n,k) entries; subsets_vec maps this through indexing.",
 "every n, every k (including k=0, k=n, k>n)",
 "infinitely many (n,k); tests enumerate a handful of small pairs and cannot rule out a missing or repeated subset for large ones",
 ["sets/src/subset.rs: subsets, subsets_vec"])
prop("C02", "partitions_sized(n,x,p) yields exactly the partitions of n into x parts",
 "Iterating predicated_partitions_sized(n,x,p) to exhaustion yields each nondecreasing list of x positive integers with sum n all satisfying p exactly once, in lexicographic order, then None forever; the _zero variant yields the same for parts >= 0.",
 "every n, x, every predicate p on naturals",
 "the iterator is a recursive state machine over three indices and an arbitrary predicate; no finite set of (n,x,p) covers it",
 ["sets/src/partition.rs: PartitionIterator, predicated_partitions_sized, predicated_partitions_sized_zero, partitions_sized"])
prop("C03", "partitions(n) yields every partition of n",
 "predicated_partitions(n,p) yields every partition of n with all parts satisfying p exactly once, including the empty partition of 0.",
 "every n and predicate p",
 "unbounded n; and the n=0 corner is inconsistent with partitions_sized(0,0)",
 ["sets/src/partition.rs: predicated_partitions, partitions"])
prop("C04", "Combination iterator with exclusions: any interleaving of next and exclude",
 "For LexicographicCombinationsWithRemovals::new(n,k), after any sequence of next()/exclude(a) calls (a<n), the subsets yielded so far are strictly lexicographically increasing, each next() returns the lexicographically first k-subset after the last one passed that avoids all excluded elements, and None is returned exactly when there is none; None is sticky.",
 "every n,k with k<n and every history of next/exclude calls",
 "histories are unbounded interleavings of two operations over a mutable index structure",
 ["sets/src/combinations.rs: LexicographicCombinationsWithRemovals::{new,next,exclude}"])
prop("C05", "Combination iterator when k = n",
 "LexicographicCombinationsWithRemovals::new(n,n) yields the single subset {0..n-1} and then None.",
 "every n",
 "a boundary case the tests never construct",
 ["sets/src/combinations.rs: LexicographicCombinationsWithRemovals::new"])
# ------------------------------------------------------------------ naturals
prop("C06", "Integer roots are exact floors and ceilings",
 "nth_root_floor(x,n) is the r with r^n <= x < (r+1)^n, nth_root_ceil(x,n) is the least r with x <= r^n, sqrt_floor/sqrt_ceil agree, and the bisection loop terminates.",
 "every natural x and every n >= 1",
 "bisection loop invariants and termination over unbounded naturals",
 ["rings/src/number/natural/functions.rs: nth_root_floor, nth_root_ceil, sqrt_floor, sqrt_ceil"])
prop("C07", "factorial and choose are the factorial and binomial functions",
 "factorial(n)=n!, choose(n,k)=choose_usize(n,k)=C(n,k) (0 if k>n).",
 "every n, k",
 "infinite domain",
 ["rings/src/number/natural/functions.rs: factorial, choose, choose_usize"])
prop("C08", "PrimeGenerator yields all primes in increasing order",
 "The i-th item of PrimeGenerator is the i-th prime; every item is prime and no prime is skipped; next() always terminates.",
 "every number of calls to next()",
 "infinite stream",
 ["rings/src/number/natural/primes.rs: PrimeGenerator"])
prop("C09", "Trial-division primality test is correct",
 "try_divisors_primality_test(n) answers Zero/One/Prime/Composite exactly according to n being 0, 1, a prime, or composite.",
 "every natural n",
 "unbounded domain",
 ["rings/src/number/natural/primes.rs: try_divisors_primality_test"])
prop("C10", "Miller-Rabin never calls a prime composite",
 "With bases in the documented range 2..=n-2, miller_rabin_primality_test(n, bases) returns Composite only if n is composite, answers Composite exactly when some base fails the strong probable prime condition, and on 0, 1, 2 and even n it returns Zero, One, Prime and Composite.",
 "every natural n and every list of bases",
 "one-sided correctness over all primes and bases",
 ["rings/src/number/natural/primes.rs: miller_rabin_primality_test"])
prop("C11", "AKS never calls a prime composite",
 "aks_primality_test(n) returns Zero, One and Composite only for 0, 1 and composite numbers, and every prime is answered Prime: the parameter search terminates, no assertion fails and the packed polynomial congruences all hold.",
 "every natural n",
 "unbounded n, nested search for parameters and polynomial congruences",
 ["rings/src/number/natural/primes.rs: aks_primality_test"])
prop("C12", "factor(n) is the prime factorisation",
 "factor(n) is None for 0 and otherwise a set of (prime, positive exponent) pairs with distinct primes whose product is n; every intermediate factoring step preserves the product.",
 "every natural n, given a correct primality test and any factor finder that returns true divisors",
 "unbounded n and randomised work-list algorithm",
 ["rings/src/number/natural/factor.rs: Factored, Factorizer, factor"])
prop("C13", "p-adic valuations",
 "padic_nat_valuation(p,n) is Infinity iff n=0 and otherwise the k with p^k | n and not p^(k+1) | n; padic_rat_valuation is multiplicative and ultrametric.",
 "every prime p, every natural / integer / rational",
 "loop over unbounded n",
 ["rings/src/number/algebraic/padic/valuation.rs: padic_nat_valuation, padic_int_valuation, padic_rat_valuation, Valuation"])
# ------------------------------------------------------------------ generic rings
prop("C14", "nat_pow / int_pow are exponentiation",
 "In any commutative ring nat_pow(a,n) is the n-fold product (a^0=1); int_pow(a,-n) is the inverse of a^n when a is a unit and None otherwise.",
 "every ring, element and exponent",
 "square-and-multiply over the binary expansion of an unbounded exponent",
 ["rings/src/structure/structure.rs: nat_pow, int_pow"])
prop("C15", "Euclidean gcd and xgcd terminate with a gcd and Bezout coefficients",
 "euclidean_gcd(x,y) terminates and returns a common divisor divisible by every common divisor, in favourite-associate form; euclidean_xgcd(x,y)=(g,a,b) has the same g and g = a*x + b*y.",
 "every Euclidean domain meeting the trait contract and every pair of elements (including zeros)",
 "termination and gcd-ness over all Euclidean domains",
 ["rings/src/structure/structure.rs: euclidean_gcd, euclidean_xgcd; rings/src/number/integer/mod.rs"])
prop("C16", "gcd_list, lcm, lcm_list, xgcd_list",
 "gcd_list is a greatest common divisor of the list, lcm_list a least common multiple, xgcd_list returns coefficients whose dot product with the list is the gcd; lcm handles zero arguments.",
 "every finite list over a Bezout domain",
 "lists of unbounded length",
 ["rings/src/structure/structure.rs: gcd_list, lcm, lcm_list, xgcd_list"])
prop("C17", "Quotient rings: arithmetic is arithmetic mod the modulus and division inverts",
 "In QuotientStructure over a Bezout Euclidean domain, equal(a,b) iff modulus | a-b, add/mul/neg are well defined on classes, and with an irreducible modulus div(a,b) returns c with b*c = a mod modulus for every b not 0 mod modulus and DivideByZero otherwise.",
 "every Euclidean domain, modulus and pair of elements",
 "all moduli and representatives",
 ["rings/src/structure/quotient.rs: QuotientStructure"])
prop("C18", "generate_distinct_elements enumerates the integers without repetition",
 "Over a characteristic-zero ring generate_distinct_elements yields 0,1,-1,2,-2,... : no element twice, and every integer multiple of one eventually.",
 "every number of calls",
 "infinite stream",
 ["rings/src/structure/structure.rs: CharZeroStructure::generate_distinct_elements"])
prop("C19", "Modulo<N> is Z/N",
 "Every way of building a Modulo<N> from an integer z yields the residue of z mod N in 0..N-1, arithmetic respects residues, and division is correct for prime N.",
 "every N >= 1, all integers",
 "all integers including negatives; tests only convert non-negative values",
 ["rings/src/number/finite_fields/modulo.rs: From<Integer>, From<usize>, From<isize>, add, mul, neg, div, xgcd"])
prop("C20", "QuaternaryField is the field with four elements",
 "The hard-coded tables satisfy all field axioms and div is the inverse of mul.",
 "all triples of elements",
 "associativity/distributivity need all triples; the unit tests check pairs against the same tables",
 ["rings/src/number/finite_fields/quaternary_field.rs"])
prop("C21", "Factored: expand is a homomorphism",
 "expand(mul(a,b)) = expand(a)*expand(b), expand(pow(a,k)) = expand(a)^k, divisors() lists every divisor up to units and count_divisors counts them.",
 "every factored value over every UFD, every exponent k",
 "all units, factors and exponents",
 ["rings/src/structure/factorization.rs: Factored::{mul,mul_mut,mul_by_unchecked,pow,expand,divisors,count_divisors}"])
prop("C22", "Factoring an integer polynomial expands back to it",
 "For every nonzero integer polynomial f, expand(factor(f)) = f.",
 "every nonzero polynomial, whatever correct squarefree factoriser is plugged in",
 "all polynomials, including repeated factors with negative leading coefficients",
 ["rings/src/polynomial/factoring.rs: factorize_using_primitive_sqfree_factorize_by_yuns_algorithm", "rings/src/structure/factorization.rs: pow"])
# ------------------------------------------------------------------ polynomials
prop("C23", "Polynomial arithmetic agrees with the polynomial ring",
 "equal, add, mul, neg, evaluate, compose, derivative, mul_var_pow, mul_scalar, degree, leading_coeff on coefficient vectors (with possible trailing zeros) agree with the abstract polynomial ring operations.",
 "all coefficient vectors over any commutative ring",
 "unbounded degree, unreduced representatives",
 ["rings/src/polynomial/polynomial.rs: PolynomialStructure"])
prop("C24", "Polynomial division with remainder",
 "If try_quorem(a,b) returns (q,r) then a = q*b + r and deg r < deg b; over a field it always succeeds for b != 0; div succeeds iff b divides a exactly, and returns the quotient.",
 "all polynomials over an integral domain",
 "unbounded degree; completeness (NotDivisible only when really not divisible) cannot be tested",
 ["rings/src/polynomial/polynomial.rs: try_quorem, div_impl"])
prop("C25", "Lagrange interpolation",
 "interpolate_by_lagrange_basis(points) with distinct abscissae returns Some(f) with f(xi)=yi and deg f < number of points if such an f over the ring exists, and None otherwise.",
 "every list of points over an integral domain",
 "unbounded number of points",
 ["rings/src/polynomial/polynomial.rs: interpolate_by_lagrange_basis"])
prop("C26", "Resultant sign",
 "resultant(a,b) = (-1)^(deg a * deg b) resultant(b,a), and equals the Sylvester determinant.",
 "all nonzero polynomials over an integral domain",
 "the swap branch is only wrong for odd*odd degrees",
 ["rings/src/polynomial/polynomial.rs: pseudo_remainder_subresultant_sequence, resultant"])
prop("C27", "gcd over Z[x] is a greatest common divisor",
 "gcd(a,b) over the integers is divisible by every common divisor of a and b.",
 "all pairs of integer polynomials",
 "needs all common divisors, including constants",
 ["rings/src/polynomial/polynomial.rs: gcd_by_primitive_subresultant, factor_primitive", "rings/src/number/integer/polynomial.rs"])
prop("C28", "Hensel lifting",
 "If h = alpha*f*g mod i^n and a*f+b*g = 1 mod i with f, g monic, then the lifted factors satisfy h = alpha*f'*g' mod i^(n+1), f' = f and g' = g mod i^n, and are again monic of the same degrees. For a whole HenselFactorization built from pairwise coprime (mod p) nonconstant monic factors, any number of linear lifts, or of quadratic lifts, succeeds without panicking (including every debug assertion); the modulus is p^(n+k), respectively p^(2^k); h is its leading coefficient times the product of factors() modulo it, and the factors are, in order, lifts of the ones given.",
 "all Euclidean coefficient rings, irreducible moduli, exponents, numbers of factors and of lifts",
 "unbounded degree, modulus, number of factors and number of lifts",
 ["rings/src/polynomial/hensel_lifting.rs: HenselFactorization::new, factors, modolus, check, compute_lift_factors, linear_lift, quadratic_lift, dont_lift_bezout_coeffs"])
prop("C29", "Multivariate polynomial arithmetic",
 "Monomial multiplication adds exponents, lexicographic_order is a total order compatible with canonical monomials, and add/mul/neg/equal agree with evaluation at every point.",
 "all multivariate polynomials over any commutative ring",
 "unbounded numbers of variables and terms; HashMap iteration order",
 ["rings/src/polynomial/multipoly.rs"])
# ------------------------------------------------------------------ matrices
prop("C30", "Matrix views: transpose and flips",
 "For every sequence of transpose / flip_rows / flip_cols / at_mut the entries visible through at(r,c) are those of the mathematical matrix after the same operations; out of range accesses give errors.",
 "every matrix and every history of in-place view changes and writes",
 "index bookkeeping through three boolean flags over arbitrary histories",
 ["rings/src/linear/matrix.rs: Matrix::{rc_to_idx,at,at_mut,transpose_mut,flip_rows_mut,flip_cols_mut}"])
prop("C31", "Matrix arithmetic",
 "add, mul, neg, mul_scalar, trace, join_rows/cols/diag, submatrix, nat_pow, dot agree with the matrix algebra; det_naive is the Leibniz determinant; incompatible shapes give the documented errors.",
 "all shapes and entries over any commutative ring",
 "unbounded dimensions",
 ["rings/src/linear/matrix.rs: MatrixStructure"])
prop("C32", "Row Hermite algorithm",
 "row_hermite_algorithm(m) terminates and returns (h,u,u_det,pivs) with h = u*m, det(u) = u_det a unit, h in row echelon form with pivot columns pivs.",
 "every matrix over a Bezout domain",
 "unbounded dimensions, termination of the elimination loops",
 ["rings/src/linear/matrix.rs: row_hermite_algorithm"])
prop("C33", "Determinant and rank through Hermite form",
 "det(m) computed by the Hermite algorithm equals det_naive(m); rank(m) is the rank over the field of fractions.",
 "every matrix over a Bezout domain",
 "unbounded dimensions",
 ["rings/src/linear/matrix.rs: det, rank, inv"])
prop("C34", "Smith normal form",
 "smith_algorithm(m)=(u,s,v,k) satisfies s = u*m*v with u,v invertible and s diagonal with divisibility chain.",
 "every matrix over a Bezout domain",
 "the faulty branch needs a zero leading column",
 ["rings/src/linear/matrix.rs: smith_algorithm"])
prop("C35", "Linear systems and kernels",
 "row_solve/col_solve return Some(x) with x*m = y iff the system is solvable over the ring; row_kernel/col_kernel span exactly the kernel.",
 "every matrix and right-hand side over a Bezout domain",
 "completeness (None only if unsolvable) is universally quantified",
 ["rings/src/linear/matrix.rs: row_solve, col_solve, row_kernel, col_kernel"])
prop("C36", "Linear lattices",
 "from_span, sum, intersect_pair, contains_point, contains_sublattice and equal implement exactly the submodule operations.",
 "all lattices of matrices of any shape over a Bezout domain",
 "unbounded ranks",
 ["rings/src/linear/subspace.rs: LinearLatticeStructure"])
# ------------------------------------------------------------------ groups
prop("C37", "Permutations form a group with canonical representation",
 "Permutation::new accepts exactly the vectors that are bijections of 0..len-1; compose/inverse/identity satisfy the group laws; two permutations are == iff they act identically on all naturals.",
 "all permutations of all degrees (mixed lengths)",
 "unbounded degree; trailing fixed points",
 ["groups/src/permutation.rs: Permutation"])
prop("C38", "Sign is a homomorphism",
 "sign(compose(p,q)) = sign(p)*sign(q), and it is the inversion parity.",
 "all permutations",
 "unbounded degree",
 ["groups/src/permutation.rs: sign", "groups/src/examples/c2.rs"])
prop("C39", "Cycles convert to permutations",
 "Converting a cycle (a1 ... ak) to a Permutation yields the permutation sending ai to a(i+1); disjoint_cycles of a permutation composes back to it.",
 "every cycle / permutation",
 "unbounded support",
 ["groups/src/permutation.rs: From<Cycle> for Permutation, disjoint_cycles, new_from_cycles"])
prop("C40", "Group exponentiation",
 "nat_pow and int_pow in any Group compute the n-fold composition, with int_pow(-n) the inverse.",
 "every group, element, integer exponent",
 "unbounded exponent",
 ["groups/src/group.rs: nat_pow, int_pow"])
prop("C41", "generated_finite_subgroup",
 "generated_finite_subgroup_table(gens) returns a composition table of exactly the subgroup generated by gens, with mutually inverse index maps.",
 "every finite group and generating list",
 "closure computation over unbounded groups",
 ["groups/src/group.rs: generated_finite_subgroup_table, generated_finite_subgroup"])
prop("C42", "FiniteGroupMultiplicationTable::new accepts exactly group tables",
 "new(size, identity, inverse table, mul table, flags) succeeds iff the tables describe a group with that identity and inverses (and the optional flags are right).",
 "every size and table",
 "all tables of all sizes",
 ["groups/src/composition_table/group.rs: new, check_state"])
prop("C43", "Generated subgroups and normal closures",
 "generated_subgroup(gens) is the smallest subgroup containing gens; normal_closure(gens) the smallest normal subgroup.",
 "every finite group table and subset",
 "work-list loop over all groups; iteration order of hash sets",
 ["groups/src/composition_table/group.rs: generated_subgroup, normal_closure", "groups/src/composition_table/generating_set.rs"])
prop("C44", "Cosets and quotients",
 "left_cosets/right_cosets partition the group into classes of the size of the subgroup; quotient_group of a normal subgroup is a group and the projection is a homomorphism.",
 "every finite group and subgroup",
 "all groups",
 ["groups/src/composition_table/subgroup.rs", "groups/src/composition_table/normal_subgroup.rs", "groups/src/composition_table/partition.rs"])
prop("C45", "Subset::is_subgroup decides being a subgroup",
 "is_subgroup(S) is true iff S is a subgroup (in particular nonempty).",
 "every finite group and subset",
 "all subsets",
 ["groups/src/composition_table/subset.rs: is_subgroup"])
prop("C46", "Homomorphism extension and isomorphism search",
 "A map on a generating set extends to a homomorphism iff the extension routine returns it, and it is the unique one; find_isomorphism returns Some(iso) iff the groups are isomorphic.",
 "every pair of finite groups",
 "search over all groups",
 ["groups/src/composition_table/generating_set.rs: generated_homomorphism", "groups/src/composition_table/homomorphism.rs: find_isomorphism"])
prop("C47", "Coset enumeration is sound when it halts",
 "When enumerate_cosets returns tables, every generator acts as a permutation of the cosets with the stated inverses, every relator acts trivially, every subgroup generator fixes coset 0, and every coset is reachable from coset 0.",
 "every finite presentation and subgroup generator list on which it halts",
 "all presentations; union-find style coincidence processing",
 ["groups/src/free_group/todd_coxeter.rs: enumerate_cosets_impl"])
prop("C48", "Coset enumeration halts when the index is finite",
 "enumerate_cosets terminates whenever the subgroup has finite index.",
 "every finite presentation with finite index",
 "termination can't be tested",
 ["groups/src/free_group/todd_coxeter.rs: enumerate_cosets_impl, unify"])
# ------------------------------------------------------------------ reals
prop("C49", "Interval and box arithmetic encloses",
 "add_intervals, mul_intervals, add_boxes, mul_boxes return the tightest interval/box (hull) containing all sums/products of members.",
 "all rational intervals / boxes and all members",
 "all real members of the intervals",
 ["rings/src/number/algebraic/real/interval.rs", "rings/src/number/algebraic/complex/boxes.rs"])
prop("C50", "Rational floor, ceil, round",
 "floor(x) <= x < floor(x)+1, ceil(x)-1 < x <= ceil(x), |round(x)-x| <= 1/2 with ties rounded up.",
 "all rationals",
 "infinite domain",
 ["rings/src/number/rational.rs: RealRoundingStructure"])
prop("C51", "RationalSimpleBetweenGenerator",
 "Every yielded rational lies strictly inside (a,b), no rational is yielded twice, and the stored regions always tile the interval minus the yielded points.",
 "every a<b and every number of calls",
 "infinite stream over a mutable map of regions",
 ["rings/src/number/algebraic/bisection_gen.rs"])
prop("C52", "Cauchy root bound",
 "Every root of a nonconstant integer polynomial has absolute value strictly below cauchys_root_bound.",
 "every nonconstant integer polynomial and every rational (real) root",
 "all polynomials",
 ["rings/src/number/integer/polynomial.rs: cauchys_root_bound, mignotte_factor_coefficient_bound"])
prop("C53", "from_int is the ring homomorphism from the integers",
 "from_nat(n) is the n-fold sum of 1; from_int preserves 0, 1, +, * and negation, and is injective in characteristic zero.",
 "every commutative ring and all integers",
 "double-and-add over unbounded integers in every ring",
 ["rings/src/structure/structure.rs: from_nat, from_int"])
prop("C54", "divisible, is_unit and are_associate decide",
 "In an integral domain meeting the division contract divisible(a,b) holds iff b is nonzero and divides a; is_unit(a) iff a has an inverse; are_associate(a,b) iff a and b differ by a unit (including 0,0).",
 "every integral domain and every pair of elements",
 "quantifies over all rings meeting the contract",
 ["rings/src/structure/structure.rs: divisible, is_unit, are_associate"])
prop("C55", "Factored::equal and factorize_by_find_factor",
 "On factorisations satisfying the documented invariant, equal(a,b) holds iff they expand to the same element; factorize_by_find_factor turns any correct splitting oracle into a valid factorisation of its input.",
 "every UFD-like ring, every pair of factorisations, every oracle that decreases a measure",
 "unique factorisation argument over unbounded factor lists",
 ["rings/src/structure/factorization.rs: Factored::equal, factorize_by_find_factor"])
prop("C56", "subgroups() and normal_subgroups() enumerate exactly the (normal) subgroups",
 "For every finite group table, subgroups() terminates and lists every subgroup exactly once, each paired with a set generating it; normal_subgroups() likewise with normal subgroups and normal closures; the result does not depend on hash-map iteration order.",
 "every finite group, every hash iteration order",
 "quantifies over all groups and all iteration orders",
 ["groups/src/composition_table/group.rs: subgroups_impl, subgroups, normal_subgroups"])
prop("C57", "Group expressions mean what they say",
 "In every group and under every assignment of elements to generators, the product, inverse and (positive, zero or negative) power of expressions evaluate to the product, inverse and power of the values; a two-sided relation holds iff its sides have equal values; the stored relator has the value of the expression it came from; translation panics exactly when the expression mentions a generator of another presentation.",
 "every group, assignment, expression and presentation",
 "quantifies over all groups",
 ["groups/src/free_group/todd_coxeter.rs: FinitelyGeneratedGroupElement, FinitelyGeneratedGroupPresentation"])

prop("C58", "is_power_test detects perfect powers",
 "is_power_test(n) terminates and returns Power(a,k) only with a^k = n and k >= 2, and No only if n > 1 is not a k-th power for any k >= 2; Zero and One exactly for 0 and 1.",
 "every natural n",
 "unbounded domain, loop over a stream of primes",
 ["rings/src/number/natural/functions.rs: is_power_test"])
prop("C59", "gcd, pow and bitcount on naturals",
 "gcd(x,y) is the greatest common divisor (0 for 0,0) and terminates; pow(x,n)=x^n; bitcount(n) is the least k with n < 2^k.",
 "every x, y, n",
 "unbounded domain",
 ["rings/src/number/natural/functions.rs: gcd, pow, bitcount"])
prop("C60", "Factored naturals: expand, Euler totient, primitive roots",
 "For the factorisation of n, expand gives n back, euler_totient gives the number of 1..=n coprime to n, and is_primitive_root(x) answers NonUnit/Yes/No exactly according to gcd(x,n) != 1 / x having multiplicative order phi(n) / not, independently of hash order.",
 "every n > 1, every x, every hash order",
 "unbounded domain; number theoretic criterion",
 ["rings/src/number/natural/factor.rs: Factored::expand, euler_totient, is_primitive_root"])
prop("C61", "Affine lattices",
 "contains_point, contains_sublattice, equal, sum, intersect, row_affine_span/col_affine_span and the solution lattices of affine lattices denote exactly the corresponding sets: two affine lattices are equal() iff they contain the same points, sum() is the Minkowski sum, intersect() the intersection.",
 "all affine lattices of matrices of any shape over a Bezout domain, every list of them",
 "unbounded ranks and list lengths; set equality is universally quantified over points",
 ["rings/src/linear/subspace.rs: AffineLatticeStructure", "rings/src/linear/matrix.rs: row_affine_span, col_affine_span"])
prop("C62", "Hyperplanes and basis extension",
 "as_hyperplane_intersection returns hyperplanes whose intersection is the lattice; extension_basis(a, b) for a inside b returns matrices which together with a basis of a form a basis of b.",
 "all lattices over a Bezout domain",
 "unbounded dimensions",
 ["rings/src/linear/subspace.rs: LinearLatticeStructure::as_hyperplane_intersection, extension_basis"])
prop("C63", "Mignotte bound",
 "mignotte_factor_coefficient_bound(f) bounds the absolute value of every coefficient of every integer polynomial factor of f, and is None exactly for f = 0.",
 "every integer polynomial, every factor, every coefficient",
 "all polynomials and all their factors; the Berlekamp-Zassenhaus recombination is wrong if the bound fails once",
 ["rings/src/number/integer/polynomial.rs: mignotte_factor_coefficient_bound"])
prop("C64", "Symmetric polynomials",
 "is_symmetric(vars, p) is true iff p contains only variables of vars and is invariant under every permutation of them; elementary_symmetric(n, vars) is the n-th elementary symmetric polynomial; as_elementary_symmetric_polynomials(vars, p) never panics, is None iff p is not symmetric, and otherwise returns the unique polynomial in fresh variables e1..en which gives p when ei is replaced by the i-th elementary symmetric polynomial.",
 "every polynomial over an integral domain, every list of distinct variables, every hash order",
 "all permutations of any number of variables, any degree; the fundamental theorem of symmetric polynomials",
 ["rings/src/polynomial/symmetric.rs: is_symmetric, elementary_symmetric, as_elementary_symmetric_polynomials, as_elementary_symmetric_polynomials_unchecked"])
prop("C65", "Finite-field monic and squarefree factorisation",
 "For a nonzero polynomial f over a finite field, factorize_monic returns a unit u and a monic m with f = u*m (None for 0), and factorize_squarefree of that returns u and pairs (g_i, k_i) with g_i monic, nonconstant, squarefree, pairwise coprime, the k_i distinct and positive, and f = u * prod g_i^k_i.",
 "every finite field, every polynomial over it",
 "all polynomials over all finite fields; the characteristic p branch only fires on p-th powers",
 ["rings/src/number/finite_fields/polynomial.rs: MonicFactored, factorize_monic, factorize_squarefree"])
prop("C66", "Berlekamp factorisation over a finite field",
 "For a squarefree nonconstant f over a finite field, find_factor_by_berlekamps_algorithm returns two nonconstant factors with product f, or Irreducible exactly when f is irreducible. factorize_berlekamps turns any squarefree factorisation of A into u and distinct monic irreducible g_i with positive exponents k_i and A = u * prod g_i^k_i; neither panics.",
 "every finite field, every polynomial / squarefree factorisation over it, every order of all_elements",
 "all polynomials over all finite fields; irreducibility quantifies over all divisors",
 ["rings/src/number/finite_fields/polynomial.rs: find_factor_by_berlekamps_algorithm, factorize_by_berlekamps_algorithm / factorize_berlekamps"])
prop("C67", "Distinct degree and Cantor-Zassenhaus factorisation over a finite field",
 "factorize_distinct_degree turns any squarefree factorisation of A into u and labelled pairs (d_i, g_i, k_i): the g_i are monic, nonconstant, squarefree and pairwise coprime, every irreducible factor of g_i has degree d_i, no two have the same d and k, and A = u * prod g_i^k_i; it never panics. factorize_cantor_zassenhaus on such a factorisation never panics whatever the pseudorandom stream, whatever it returns is u and distinct monic irreducibles with positive exponents whose product is A, it returns at the latest one round after every coefficient vector has been drawn, and no prefix of the stream makes termination impossible. The into_* conversions keep the polynomial.",
 "every finite field, every factorisation over it, every pseudorandom stream and every number of rounds",
 "all polynomials over all finite fields, and the loop is unbounded with a random stream",
 ["rings/src/number/finite_fields/polynomial.rs: factorize_distinct_degree, factorize_cantor_zassenhaus, into_monic_factored, into_squarefree_factored, into_distinct_degree_factored", "rings/src/polynomial/quotient.rs: to_col_vector, from_col_vector"])
prop("C68", "Berlekamp-Zassenhaus factorisation of integer polynomials",
 "factorize_by_berlekamp_zassenhaus_algorithm on a nonzero integer polynomial f terminates without panicking and returns a unit and pairwise non-associate primes of Z[x] with positive exponents whose product is f (None on zero). In particular for a primitive squarefree f the loop over primes ends, the lifted factors multiply to f modulo a power of p exceeding twice the factor bound, and the search over subsets of them, with its exclusion of used factors, its halving at cardinality m/2, its d-1 test and its remembered partial products, finds every factor. factorize_by_berlekamp_zassenhaus_algorithm_naive, which searches all subsets, does the same for every degree.",
 "every nonzero integer polynomial of degree below 2^64 - 1, every factoriser modulo primes that is right",
 "all integer polynomials; irreducibility of the factors quantifies over all divisors; the search is exponential and its pruning must never lose a factor",
 ["rings/src/number/integer/berlekamp_zassenhaus.rs: factorize_by_berlekamp_zassenhaus_algorithm, BerlekampAassenhausAlgorithmState::{new,next_prime}, new_at_prime, factor_by_try_all_subsets, factorize_by_berlekamp_zassenhaus_algorithm_naive"])
prop("C69", "The d-1 test and the memory of partial products",
 "If f = F * H over the integers and the lifted factors g_i, i in s, are those of F modulo m, then the d-1 test of the subset s, with its wrap-around 64-bit arithmetic and after any history of tests, does not panic and does not rule s out. The memory stack returns the product over the requested subset after any history of requests.",
 "every polynomial, factor, modulus and subset, all coefficient sizes, degrees below 2^64; every sequence of requests",
 "floating wrap-around interval arithmetic must be sound for all coefficient values; the memory depends on the whole history",
 ["rings/src/number/integer/berlekamp_zassenhaus.rs: DMinusOneTest, MemoryStack::get_product"])
prop("C70", "Factorisation over a field of fractions",
 "factor_primitive_fof(f) returns u and a primitive h over the base ring with f = u*h for every nonzero f; factor (through the primitive part) of a nonzero polynomial over a field of fractions, in particular over the rationals, does not panic and returns a unit and distinct monic primes with positive exponents whose product is f (None for 0).",
 "every nonzero polynomial over the field of fractions of a GCD domain; every factoriser over the base ring that is right",
 "all polynomials; primality over the field of fractions quantifies over all polynomials (Gauss's lemma)",
 ["rings/src/polynomial/polynomial.rs: factor_primitive_fof, primitive_part_fof", "rings/src/polynomial/factoring.rs: factorize_by_factorize_primitive_part", "rings/src/structure/structure.rs: FieldOfFractionsStructure::as_base_ring", "rings/src/number/rational.rs: factor"])
prop("C71", "Gram-Schmidt and LQ / QR decomposition",
 "gram_schmidt_row_orthogonalization_algorithm on A returns (L, Q) with Q = L A, L lower unitriangular and the rows of Q pairwise orthogonal, unless some nontrivial combination of the rows before the last one vanishes, in which case it panics (division by zero). lq_decomposition_algorithm returns Q = L A with Q Q^* = 1 and L lower triangular with nonzero diagonal when the rows are independent, and panics otherwise. The column versions do the same on the transpose.",
 "every matrix of every shape over every field with a conjugation and an anisotropic inner product",
 "all matrices; orthogonality must survive every step of the elimination",
 ["rings/src/linear/matrix.rs: gram_schmidt_row_orthogonalization_algorithm, gram_schmidt_col_orthogonalization_algorithm, lq_decomposition_algorithm, qr_decomposition_algorithm"])
prop("C72", "Norm, trace and discriminant in K[x]/(m)",
 "For a modulus m of positive degree over a field K, col_multiplication_matrix(a) is the matrix of multiplication by a in the basis 1, x, .., and row_multiplication_matrix its transpose; to_/from_ row and column vectors are inverse to each other modulo m. norm(a) and trace(a) are the product and the sum of a over the roots of m in any extension where m splits; the norm is multiplicative and vanishes exactly on non-invertible elements. trace_form_matrix has the traces of the products as entries, and discriminant is the square of the determinant of the conjugates. None of them panics.",
 "every field, every modulus of positive degree, every element and every list of elements",
 "all moduli of all degrees; the statement is about roots that the code never computes",
 ["rings/src/polynomial/quotient.rs: col_multiplication_matrix, row_multiplication_matrix, to_col_vector, from_col_vector, norm, trace", "rings/src/number/anf/number_field.rs: trace_form_matrix, discriminant"])
prop("C73", "Characteristic and minimal polynomial of a matrix",
 "characteristic_polynomial of a square matrix A over a field returns det(x - A), and minimal_polynomial the monic generator of the polynomials that vanish at A; neither panics; a matrix that is not square gives Err(NotSquare). min_poly(a) in K[x]/(m) is the monic generator of the polynomials p with p(a) = 0 modulo m.",
 "every nonempty square matrix over every field; every modulus and element",
 "all matrices of all sizes; minimality quantifies over all polynomials",
 ["rings/src/linear/matrix.rs: presentation_matrix, minimal_polynomial, characteristic_polynomial", "rings/src/polynomial/quotient.rs: min_poly"])
prop("C74", "Collins-Akritas isolation of real roots",
 "For an integer polynomial with p(0) and p(1) nonzero and without multiple roots, isolate_real_roots_by_collin_akritas returns disjoint pieces of (0, 1), from left to right, each a dyadic point c/2^k or an open interval (c/2^k, (c+1)/2^k), such that each piece contains exactly one real root and every real root in [0, 1] is in exactly one piece; the search stops and does not panic.",
 "every integer polynomial that passes the debug assertions, over every real closed field",
 "all polynomials; the statement is about real roots, that the code never computes, and the depth of the bisection has no bound over all inputs",
 ["rings/src/number/algebraic/real/polynomial.rs: sign_variations, isolate_real_roots_by_collin_akritas"])
