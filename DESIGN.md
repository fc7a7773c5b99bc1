# Formal model of Rust-Computational-Algebra in Rocq (Coq 8.16.1)

## Layout

* `rocq/theories/<Area>Model.v` – executable Gallina models, function by function, each definition with a
  comment citing file and lines in `/repo`. No proofs.
* `rocq/theories/<Area>Proofs.v` – lemmas.
* `rocq/theories/<Area>Props.v` – the property theorems only, each closed by `exact lemma` with
  `Print Assumptions` below it, together with `Example`s showing that a concrete, non-trivial case meets the
  hypotheses. Small specification definitions that statements use (e.g. "is a k-subset", "is a group table")
  live in `<Area>Spec.v` files which do not import the model.
* `properties.jsonl`, `MANIFEST.json` – generated by `tools/props.py` from `tools/proplist.py`.
* `seeded/LOG.jsonl` – record of mutation experiments on the model.

## Modelling conventions

* A function mutating through `&mut` returns the new value; `Result`/`Option` stay data; a reachable panic
  (`unwrap` on `None`, `assert!`, index out of bounds, usize underflow in a debug build) is an explicit error value.
* Loops are structural recursion, folds over ranges, or fuelled recursion whose out-of-fuel result is distinct from every
  normal answer and is either excluded by a theorem (termination) or named in the statement.
* `usize`, `Natural`, `Integer`, `Rational` are unbounded (`nat`, `N`, `Z`, `Q`, or mathcomp's `nat`/`int`/`rat`); overflow of
  `usize` by sizes larger than memory is not modelled. malachite's arithmetic (`+ - * div_mod % pow cmp`, `gcd`) is
  trusted to be the mathematical operation with the documented rounding
  (`div_mod` floors, `%` truncates).
* A Rust `RingStructure` whose `equal` is an equivalence is modelled either by an operations record with a boolean `equal`
  and explicit laws, or by a mathcomp `comRingType`/`idomainType`/`fieldType` (elements taken up to `equal`).
* `HashMap`/`HashSet` iteration order is modelled by quantifying over arbitrary orders/choice functions.
* Random choices (Pollard rho, Cantor–Zassenhaus) are oracle arguments.
* Where the real code violates the property, the theorem is named `..._refuted` and exhibits the witness; the
  strongest true variant is proved next to it.

## Properties: what is modelled and how it is proved

| id | model | proof |
|----|-------|-------|
| C01 | `subsets` recursion | induction on n; sortedness/NoDup/count separately |
| C02 | `PartitionIterator` as a state machine with `next` | the state is related to the list of partitions still to come; refinement |
| C03 | `predicated_partitions` | positive for n>=1, refuted at n=0 |
| C04 | iterator record with `next`, `exclude` | invariant + refinement to the abstract sorted list of remaining subsets |
| C05 | same | refuted |
| C06 | bisection loops on N with fuel | loop invariant, fuel bound = termination |
| C07 | recursion / loop | agreement with factorial/binomial |
| C08–C11 | primes.rs functions on N/nat | mathcomp `prime`, Fermat, polynomial Frobenius |
| C12 | work-list factoriser with oracle | invariant: product preserved, multiset of to-do |
| C13 | loop | invariant p^k * n' = n |
| C14–C18 | generic Euclidean domain record | invariants, well-founded norm |
| C19 | Modulo functions on Z | arithmetic; refuted for From<Integer> |
| C20 | inductive type with 4 constructors | exhaustive case analysis (finite domain) |
| C21, C22 | Factored record over generic ring; Yun loop over Z | algebra; refuted witnesses |
| C23–C27 | coefficient lists over mathcomp rings | agreement with `{poly R}` |
| C28 | `compute_lift_factors` on coefficient lists | algebra in `{poly R}` modulo ideals |
| C29 | term lists | agreement with evaluation |
| C30 | record with flags | abstraction function to `nat -> nat -> A` |
| C31–C35 | matrices as flag-free dense arrays after C30 | agreement with mathcomp `'M[R]_(m,n)` |
| C36 | lattice operations | spans as predicates |
| C37–C39 | reduced vectors | action on nat; extensionality |
| C40, C41 | generic group record | induction |
| C42–C46 | tables as nat matrices | group axioms as predicates, closure as least fixed point |
| C47, C48 | coset table state machine | invariants; divergence via an invariant family of states |
| C49–C52 | rational functions; intervals and boxes (C49) | ordered field reasoning; C49 over the Coq reals; C52 in any numeric field |
| C53, C54, C55 | from_int, divisible/is_unit/are_associate, `Factored` equality and factorize_by_find_factor | generic domain with laws; unique factorisation from primality |
| C56, C57 | subgroup enumeration; group word expressions | closure enumeration; induction on words |
| C58–C60 | is_power_test, gcd/pow/bit count, Factored naturals (phi, order test, primitive roots) | arithmetic on N, mathcomp `totient` |
| C61, C62 | affine lattices; hyperplanes and basis extension | spans as predicates; refutations; ranks over the field of fractions for as_hyperplane_intersection and extension_basis (LatProofs6, 7; LatProps2) |
| C63 | Mignotte bound | Landau's inequality through the complex roots (mathcomp `algC`) |
| C64 | symmetric polynomials | leading-monomial induction; uniqueness by algebraic independence |
| C65–C67 | finite_fields/polynomial.rs: monic, squarefree, Berlekamp, distinct degree, Cantor–Zassenhaus | agreement with `{poly F}` over a `finFieldType`; kernel of Frobenius − 1; x^(q^i) − x; the random stream is an arbitrary function |
| C68–C69 | integer/berlekamp_zassenhaus.rs: subset search, d−1 test, memory stack, prime loop, lifting loop, through Yun; the naive search over all subsets | the set of modular factors dividing F mod p; each true factor is lead(H)F modulo p^t, so within Mignotte's bound; root sums in algC for the d−1 test; the factoriser modulo p is a parameter with its contract as hypothesis |
| C70 | polynomial.rs factor_primitive_fof, factoring.rs factorize_by_factorize_primitive_part, rational.rs factor | clear denominators; a prime of R[x] of positive degree stays prime over the field of fractions (divide after clearing denominators); the exact constant by which the result is wrong; Q[x] with Berlekamp–Zassenhaus as instance |
| C71 | matrix.rs gram_schmidt_row/col_orthogonalization_algorithm, lq/qr_decomposition_algorithm | after row i is processed the rows before it are orthogonal and the accumulated row operations are unitriangular; a zero row met as a divisor gives the dependency |
| C72 | polynomial/quotient.rs (all but min_poly), number_field.rs trace_form_matrix, discriminant | matrix of multiplication through remainders; over an extension where the modulus splits it is triangular in the Newton basis, with the values at the roots on the diagonal; trace form = V^T V |
| C73 | matrix.rs presentation_matrix, minimal_polynomial, characteristic_polynomial, quotient.rs min_poly | S = U(A - x)V: the product of the diagonal is det(x - A) up to a unit; p(A) = 0 iff x - A divides p in matrices over K[x] iff the last invariant factor divides p; a 3 x 3 matrix on which both panic |
| C74 | real/polynomial.rs sign_variations, isolate_real_roots_by_collin_akritas | Descartes for 0 and 1 variations over a real closed field; invariant of the stack: each polynomial has the roots of p in its dyadic piece; termination: Bernstein coefficients on an interval of width h differ from a linear function by O(h^2), and a Bezout identity for p, p' bounds one of p, p' below |

All properties are expressible in a model; those not finished are listed in the section "Status" below and are absent from or `partial` in MANIFEST.json.

## Trusted base

* Coq 8.16.1's kernel, and the checker `coqchk`.
* `Print Assumptions` follows every property theorem in the `*Props*.v` files and is printed at build time. Every theorem is
  "Closed under the global context" except those of C49 (intervals and boxes, stated over the Coq reals), which list
  `ClassicalDedekindReals.sig_forall_dec` and `FunctionalExtensionality.functional_extensionality_dep` (standard library).
  No axiom of our own and no other library's axiom is used. (`From mathcomp Require Import zify` only provides `lia`
  instances; mathcomp's algebraic numbers, used for C52/C63, are constructed without axioms.)
* The faithfulness of the hand-written models: every definition cites the Rust source it was read from, simplifications are
  stated there.

### Modelled
Crates `sets` (combinatorics: subsets, partitions, LexicographicCombinations), `groups` (permutations, composition tables,
subgroups, normal subgroups, cosets, quotients, homomorphisms, isomorphism search, Todd–Coxeter, words) and, in `rings`:
structure/{structure, quotient, factorization}; number/natural (roots, factorial, primes: generator, trial division, Miller–Rabin,
AKS, Pollard rho, factor, functions), number/integer and number/finite_fields (Modulo, QuaternaryField, polynomial
factorisation), rational rounding, intervals, boxes, bisection; linear (matrix views, arithmetic, Hermite, Smith, det, rank, inv,
solve, kernels, linear and affine lattices); polynomial (dense arithmetic, division, gcd, resultants, interpolation, Yun,
Kronecker, Mignotte/Cauchy bounds, Hensel lifting, sparse multivariate, symmetric).

### Trusted or left as parameters
* malachite: unbounded integer/natural/rational arithmetic, `Floor`, `simplest_rational_in_open_interval` (any interior rational),
  `mod_pow`; `usize` is unbounded (so the `nat_to_usize` of a debug assertion in factorize_distinct_degree never fails).
* itertools (`permutations`, `multi_cartesian_product`) and Rust's stable sort are taken to do what they document.
* HashMap/HashSet iteration order: an arbitrary permutation/choice function, quantified in the statements.
* Random streams (Pollard rho start values, Cantor–Zassenhaus): arbitrary functions.
* Ring theorems are over rings with Leibniz equality (mathcomp `comRingType`, `idomainType`, `fieldType`) unless the structure's own
  `equal` is modelled (`ring_ops` with laws: C14–C18, C21, C53–C55, quotient rings); trait contracts (`div`, `factor_fav_assoc`,
  `gcd`, `xgcd`, norms) are explicit hypotheses, instantiated for Z, Q, fields, F_p and F_4.

### Not modelled
Complex root isolation, real root refinement and bounds (number/algebraic), number fields beyond norm, trace, discriminant and minimal polynomial, p-adic algebraic numbers,
the geometry crate, Golay codes and designs, printing/parsing,
and the command-line/drawing crates. Time and memory use are not modelled. For AKS (C11) the number-theoretic theorem itself
(a Prime answer implies a prime) is not claimed.

## Status

74 properties; MANIFEST.json is the machine-readable list. Partial ones and why (details in the notes there):
* false of the code as stated, refuted with a witness, and the strongest true variant proved: C03, C05, C14, C19, C21, C22, C26, C27,
  C34, C39, C45, C46, C47, C48, C61, C62, C65, C68, C70, C73;
* incomplete proof: C12 (termination of Pollard's retry loop; soundness of the thirteen-base test), C34 (general position).
