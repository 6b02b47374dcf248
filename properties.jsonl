{"id": "C01", "title": "Integer GCD/LCM are the greatest common divisor and least common multiple", "statement": "For integers a and b, `a.gcd(&b)` is the non-negative greatest common divisor, `a.lcm(&b)` the non-negative least common multiple, `gcd_lcm` returns both, and (as documented) gcd*lcm equals a*b.", "quantifier": "all pairs of integers, including zero and negative ones", "why_tests_cant": "The claim ranges over unboundedly many (big-integer) inputs; a test only samples finitely many of them.", "anchors": ["src/traits.rs:GCD", "src/traits.rs:impl_gcd_for_int", "src/traits.rs:lcm", "src/traits.rs:gcd_lcm"]}
{"id": "C02", "title": "Extended GCD returns Bezout coefficients", "statement": "For integers a and b, `a.extended_gcd(&b)` returns (g,x,y) with g the non-negative gcd and a*x + b*y = g; `extended_gcd_lcm` additionally returns the lcm.", "quantifier": "all pairs of integers", "why_tests_cant": "The claim ranges over unboundedly many (big-integer) inputs; a test only samples finitely many of them.", "anchors": ["src/traits.rs:ExtendedGCD", "src/traits.rs:ExtendedGCDResult"]}
{"id": "C03", "title": "Rational GCD/LCM/extended GCD", "statement": "For rationals a and b the GCD is a common divisor with integer quotients, every common rational divisor divides it, gcd*lcm has absolute value |a*b|, extended_gcd satisfies the Bezout identity, and the gcd is non-negative.", "quantifier": "all pairs of rational numbers", "why_tests_cant": "The claim ranges over unboundedly many (big-integer) inputs; a test only samples finitely many of them.", "anchors": ["src/traits.rs:impl GCD for Ratio<T>", "src/traits.rs:impl ExtendedGCD for Ratio<T>"]}
{"id": "C04", "title": "Nearest division really is nearest division", "statement": "`checked_div_rem_nearest(a,b)` is None exactly for b = 0 (or unrepresentable quotient) and otherwise returns (q,r) with a = q*b + r and 2*|r| <= |b|; as documented, unsigned types round the quotient down instead, and rationals divide exactly.", "quantifier": "all integer pairs, for big integers, fixed-width signed and unsigned integers, and rationals", "why_tests_cant": "The claim ranges over unboundedly many (big-integer) inputs; a test only samples finitely many of them. The defect only shows on particular sign/size combinations.", "anchors": ["src/traits.rs:DivRemNearest", "src/traits.rs:checked_div_rem_nearest"]}
{"id": "C05", "title": "Integer logarithms and trailing zeros", "statement": "floor_log2(n), ceil_log2(n) are None exactly for n <= 0 and otherwise are the largest k with 2^k <= n and the smallest k with n <= 2^k; trailing_zeros(n) is None exactly for 0 and otherwise the exponent of the largest power of two dividing n.", "quantifier": "all integers", "why_tests_cant": "The claim ranges over unboundedly many (big-integer) inputs; a test only samples finitely many of them.", "anchors": ["src/traits.rs:FloorLog2", "src/traits.rs:CeilLog2", "src/traits.rs:TrailingZeros"]}
{"id": "C06", "title": "Exact integer division", "statement": "`checked_exact_div(a,b)` returns the q with q*b = a when b is non-zero, divides a and (fixed width) q is representable, and None in every other case; `exact_div` returns the same q and panics in every other case.", "quantifier": "all integer pairs", "why_tests_cant": "The claim ranges over unboundedly many (big-integer) inputs; a test only samples finitely many of them.", "anchors": ["src/traits.rs:ExactDiv", "src/traits.rs:impl_exact_div_for_int"]}
{"id": "C07", "title": "u32 primality test is exact", "statement": "is_prime_u32(n) returns true exactly when n is a prime number.", "quantifier": "all 2^32 unsigned 32-bit integers", "why_tests_cant": "Correctness rests on a 6542-entry literal table and trial division; exhaustive testing is 2^32 trial divisions and one wrong table entry affects arbitrary inputs.", "anchors": ["src/util.rs:is_prime_u32", "src/util.rs:PRIMES_THAT_FIT_IN_U16"]}
{"id": "C08", "title": "prev_prime / next_prime return the neighbouring prime", "statement": "prev_prime_u32(n) is the greatest prime strictly below n (None if there is none); next_prime_u32(n) is the least prime strictly above n that fits in u32 (None if there is none).", "quantifier": "all 2^32 unsigned 32-bit integers", "why_tests_cant": "Boundary behaviour at both ends of the range and across the table boundary; every skipped candidate must be composite.", "anchors": ["src/util.rs:prev_prime_u32", "src/util.rs:next_prime_u32"]}
{"id": "C09", "title": "Subset enumeration is complete and duplicate free", "statement": "for_subsets_of_size calls the callback once for each k-element subset of the range, in lexicographic order, each in increasing order, with no duplicates and no omissions; it stops immediately when the callback breaks.", "quantifier": "all ranges, all subset sizes, all callbacks (all break points)", "why_tests_cant": "Number of subsets is combinatorial and the callback is arbitrary.", "anchors": ["src/util.rs:for_subsets_of_size"]}
{"id": "C10", "title": "Modular integers are canonical residues and obey ring arithmetic without overflow", "statement": "For a positive modulus m, every modular integer stores its canonical residue in 0..m-1; + - * and negation return the canonical residue of the exact integer result; two modular integers with equal modulus compare equal exactly when they are congruent; fixed-width arithmetic never overflows.", "quantifier": "all values, all positive moduli that fit the integer type", "why_tests_cant": "Overflow only appears near the top of the type; all moduli/values cannot be enumerated.", "anchors": ["src/mod_int.rs:ModularInteger", "src/mod_int.rs:ModularReduce", "src/mod_int.rs:impl_int_modulus"]}
{"id": "C11", "title": "Modular inverse and division", "statement": "checked_inverse(a) is Some exactly when a is invertible modulo m, and then a * inverse = 1 (mod m) in canonical form; modular division a/b is a * b^-1 and fails exactly when b is not invertible; operations between different moduli fail instead of silently mixing them.", "quantifier": "all values and positive moduli", "why_tests_cant": "The claim ranges over unboundedly many (big-integer) inputs; a test only samples finitely many of them.", "anchors": ["src/mod_int.rs:checked_inverse", "src/mod_int.rs:checked_div"]}
{"id": "C12", "title": "Modular exponentiation", "statement": "pow(a,e) modulo m is the canonical residue of a^e for every non-negative exponent, including e = 0.", "quantifier": "all bases, exponents and positive moduli", "why_tests_cant": "The claim ranges over unboundedly many (big-integer) inputs; a test only samples finitely many of them.", "anchors": ["src/mod_int.rs:pow_modular_reduce", "src/mod_int.rs:ModularReducePow"]}
{"id": "C13", "title": "Polynomials are always in normal form; equality is mathematical equality", "statement": "Every polynomial obtained through the public constructors and operations has no trailing zero coefficient and a reduced common divisor, so `==`, degree, len, is_zero and the leading coefficient agree with the mathematical polynomial.", "quantifier": "all coefficient sequences over integers, rationals, modular integers and nested polynomials; all operation sequences", "why_tests_cant": "Invariant over every history of operations.", "anchors": ["src/polynomial.rs:Polynomial", "src/polynomial.rs:normalize", "src/polynomial.rs:from_coefficients"]}
{"id": "C14", "title": "Polynomial addition, subtraction and negation", "statement": "(p+q), (p-q) and -p have coefficientwise sums, differences and negations, for integer, rational and modular coefficients, including cancellation of leading terms.", "quantifier": "all polynomial pairs", "why_tests_cant": "The claim ranges over unboundedly many (big-integer) inputs; a test only samples finitely many of them.", "anchors": ["src/polynomial/add_sub.rs:add_sub_assign", "src/polynomial.rs:Neg"]}
{"id": "C15", "title": "Adding or subtracting a single coefficient", "statement": "p + c and p - c (c a coefficient) change only the constant coefficient, by exactly c.", "quantifier": "all polynomials and coefficients, integer or rational", "why_tests_cant": "The claim ranges over unboundedly many (big-integer) inputs; a test only samples finitely many of them.", "anchors": ["src/polynomial/add_sub.rs:add_sub_assign_single"]}
{"id": "C16", "title": "Polynomial multiplication", "statement": "p*q has the convolution product of the coefficients, and p*c scales every coefficient by c; zero operands give zero.", "quantifier": "all polynomial pairs, integer, rational, modular and nested coefficients", "why_tests_cant": "The claim ranges over unboundedly many (big-integer) inputs; a test only samples finitely many of them.", "anchors": ["src/polynomial/mul.rs:Mul", "src/polynomial/mul.rs:mul_single"]}
{"id": "C17", "title": "Polynomial powers", "statement": "checked_pow(p,n) is p multiplied by itself n times; it is None exactly for a negative exponent or for 0^0.", "quantifier": "all polynomials and all exponents", "why_tests_cant": "The claim ranges over unboundedly many (big-integer) inputs; a test only samples finitely many of them.", "anchors": ["src/polynomial/mul.rs:checked_pow", "src/polynomial.rs:pow"]}
{"id": "C18", "title": "Polynomial evaluation and derivative", "statement": "p.eval(x) is the value sum c_i x^i, and p.derivative() is the formal derivative, for every coefficient type.", "quantifier": "all polynomials and points", "why_tests_cant": "The claim ranges over unboundedly many (big-integer) inputs; a test only samples finitely many of them.", "anchors": ["src/polynomial.rs:eval", "src/polynomial.rs:derivative"]}
{"id": "C19", "title": "Pseudo-division", "statement": "pseudo_div_rem(p,q) returns (quotient, remainder, factor) with factor*p = quotient*q + remainder, degree remainder < degree q and a non-zero factor that is a power of q's leading coefficient; it is None exactly when q = 0.", "quantifier": "all polynomial pairs over an integral domain", "why_tests_cant": "The claim ranges over unboundedly many (big-integer) inputs; a test only samples finitely many of them.", "anchors": ["src/polynomial/div_rem.rs:checked_pseudo_div_rem", "src/polynomial/div_rem.rs:element_pseudo_div_rem"]}
{"id": "C20", "title": "Polynomial Euclidean division over a field", "statement": "p/q and p%q over rationals or integers modulo a prime satisfy p = (p/q)*q + p%q with deg(p%q) < deg q, and division fails exactly for q = 0.", "quantifier": "all polynomial pairs over a field", "why_tests_cant": "The claim ranges over unboundedly many (big-integer) inputs; a test only samples finitely many of them.", "anchors": ["src/polynomial/div_rem.rs:checked_div_rem"]}
{"id": "C21", "title": "Exact polynomial division over the integers", "statement": "checked_exact_div(p,q) returns s with s*q = p whenever such an integer polynomial exists, and reports failure when q = 0; it never returns a wrong quotient.", "quantifier": "all integer polynomial pairs", "why_tests_cant": "The claim ranges over unboundedly many (big-integer) inputs; a test only samples finitely many of them.", "anchors": ["src/polynomial/div_rem.rs:ExactDiv"]}
{"id": "C22", "title": "A failed checked in-place division leaves its operand unchanged", "statement": "checked_div_assign / checked_exact_div_assign returning Err leaves the left-hand polynomial with its previous value, for polynomial and for scalar divisors.", "quantifier": "all operands on which the checked operation fails", "why_tests_cant": "Failure paths are rarely tested and the property is about the state after an error.", "anchors": ["src/polynomial/div_rem.rs:checked_div_assign_single", "src/polynomial/div_rem.rs:checked_exact_div_assign"]}
{"id": "C23", "title": "Modular power of polynomials", "statement": "b.powmod(e, m) is congruent to b^e modulo m and, for a non-constant modulus, has degree below that of m.", "quantifier": "all polynomials over a field, all exponents", "why_tests_cant": "The claim ranges over unboundedly many (big-integer) inputs; a test only samples finitely many of them.", "anchors": ["src/polynomial/div_rem.rs:powmod"]}
{"id": "C24", "title": "Polynomial GCD and LCM over a field", "statement": "p.gcd(q) divides both and is divisible by every common divisor; gcd*lcm is associated to p*q; gcd(0,0)=0.", "quantifier": "all polynomial pairs over rationals and prime fields", "why_tests_cant": "The claim ranges over unboundedly many (big-integer) inputs; a test only samples finitely many of them.", "anchors": ["src/polynomial/gcd.rs:GCD", "src/polynomial/gcd.rs:subresultant_gcd"]}
{"id": "C25", "title": "Polynomial extended GCD", "statement": "p.extended_gcd(q) returns (g,s,t) with s*p + t*q = g and g a monic greatest common divisor.", "quantifier": "all polynomial pairs over a field", "why_tests_cant": "The claim ranges over unboundedly many (big-integer) inputs; a test only samples finitely many of them.", "anchors": ["src/polynomial/gcd.rs:extended_gcd"]}
{"id": "C26", "title": "Resultants", "statement": "p.resultant(q) is the determinant of the Sylvester matrix; in particular it is zero exactly when p and q have a common non-constant factor, for integer and nested polynomial coefficients.", "quantifier": "all pairs of non-zero polynomials", "why_tests_cant": "The subresultant recurrence has data-dependent degree drops; no finite sample covers all degree patterns.", "anchors": ["src/polynomial/gcd.rs:nonzero_resultant", "src/polynomial/gcd.rs:resultant"]}
{"id": "C27", "title": "Content and primitive part", "statement": "content(p) is the gcd of the coefficients (with the sign of the leading coefficient), content(p) * primitive_part(p) = p, and the primitive part has unit content and positive leading coefficient.", "quantifier": "all integer and rational polynomials", "why_tests_cant": "The claim ranges over unboundedly many (big-integer) inputs; a test only samples finitely many of them.", "anchors": ["src/polynomial.rs:nonzero_content", "src/polynomial.rs:primitive_part_assign"]}
{"id": "C28", "title": "Sturm sequences count real roots", "statement": "For p non-zero and a < b non-roots, the sign-change count of the Sturm sequence at a minus that at b equals the number of distinct real roots of p in (a,b); this holds for both the generic and the primitive variant.", "quantifier": "all non-zero integer/rational polynomials, all intervals", "why_tests_cant": "Quantifies over all real roots of all polynomials.", "anchors": ["src/polynomial.rs:into_generic_sturm_sequence", "src/polynomial.rs:into_primitive_sturm_sequence", "src/algebraic_numbers.rs:sign_changes_at"]}
{"id": "C29", "title": "Square-free factorisation (Yun)", "statement": "square_free_factorization of p returns the content and factors f_1, f_2, ... that are square-free and pairwise coprime with p = content * prod f_i^i.", "quantifier": "all polynomials over a field of characteristic zero / integers", "why_tests_cant": "The claim ranges over unboundedly many (big-integer) inputs; a test only samples finitely many of them.", "anchors": ["src/polynomial.rs:square_free_factorization_using_yuns_algorithm", "src/polynomial.rs:is_square_free"]}
{"id": "C30", "title": "Integer polynomial factorisation multiplies back", "statement": "factor(p) returns a constant, and pairs (f_i, n_i) with p = constant * prod f_i^n_i, each f_i primitive, non-constant, with positive leading coefficient, for every outcome of the random generator.", "quantifier": "all non-zero integer polynomials, every random stream", "why_tests_cant": "Randomised algorithm: all random streams cannot be sampled.", "anchors": ["src/polynomial/factorization_over_integers.rs:factor_with_rng", "src/polynomial/factorization_over_integers.rs:factor_square_free_polynomial_with_rng"]}
{"id": "C31", "title": "Integer polynomial factors are irreducible", "statement": "Every factor returned by factor(p) is irreducible over the rationals.", "quantifier": "all non-zero integer polynomials, every random stream", "why_tests_cant": "Irreducibility quantifies over all factorizations.", "anchors": ["src/polynomial/factorization_over_integers.rs:factor_square_free_polynomial_with_rng"]}
{"id": "C32", "title": "Distinct-degree factorisation", "statement": "For a square-free polynomial over a prime field the i-th output is the product of all monic irreducible factors of degree i, and the outputs multiply back to the input.", "quantifier": "all square-free polynomials over every prime field", "why_tests_cant": "The claim ranges over unboundedly many (big-integer) inputs; a test only samples finitely many of them.", "anchors": ["src/polynomial/distinct_degree_factorization.rs:distinct_degree_factorization"]}
{"id": "C33", "title": "Same-degree factorisation", "statement": "If a square-free monic polynomial over an odd prime field has all irreducible factors of degree d, every list returned by same_degree_factorization(d) consists of exactly those irreducible factors, for every random stream.", "quantifier": "all such polynomials, all random streams", "why_tests_cant": "All random streams cannot be sampled.", "anchors": ["src/polynomial/same_degree_factorization.rs:same_degree_factorization"]}
{"id": "C34", "title": "Polynomial norms", "statement": "max_norm is the maximum absolute coefficient, manhattan_norm the sum of absolute values; the nonzero_ variants fail exactly for the zero polynomial.", "quantifier": "all integer and rational polynomials", "why_tests_cant": "The claim ranges over unboundedly many (big-integer) inputs; a test only samples finitely many of them.", "anchors": ["src/polynomial.rs:max_norm", "src/polynomial.rs:manhattan_norm"]}
{"id": "C35", "title": "Hensel lifting", "statement": "Lifting a factorization modulo p to a higher power of p returns factors congruent to the originals modulo p whose product is congruent to the polynomial modulo the higher power.", "quantifier": "all monic-compatible coprime modular factorizations and all target precisions", "why_tests_cant": "The claim ranges over unboundedly many (big-integer) inputs; a test only samples finitely many of them.", "anchors": ["src/polynomial/factorization_over_integers.rs:ModularFactorTreeInteriorNode"]}
{"id": "C36", "title": "Interval constructors enclose and are tightest", "statement": "from_int, from_ratio, from_int_range, from_ratio_range and convert_log2_denom return an interval containing the given value(s), whose bounds are the closest multiples of 2^-k. Setting one bound keeps the numbers between the new bound and the other one, and is refused exactly when it would reverse the bounds.", "quantifier": "all rationals, ranges and precisions", "why_tests_cant": "The claim ranges over unboundedly many (big-integer) inputs; a test only samples finitely many of them.", "anchors": ["src/interval_arithmetic.rs:from_ratio_range", "src/interval_arithmetic.rs:convert_log2_denom", "src/interval_arithmetic.rs:into_ratio_range", "src/interval_arithmetic.rs:set_lower_bound_numer"]}
{"id": "C37", "title": "Interval addition, subtraction and negation enclose", "statement": "For x in A and y in B: x+y in A+B, x-y in A-B, -x in -A, for intervals of different precisions and for integer and rational scalars; results stay well-ordered (lower <= upper).", "quantifier": "all intervals, all members, all precisions", "why_tests_cant": "The claim ranges over unboundedly many (big-integer) inputs; a test only samples finitely many of them.", "anchors": ["src/interval_arithmetic.rs:AddAssign", "src/interval_arithmetic.rs:SubAssign", "src/interval_arithmetic.rs:Neg"]}
{"id": "C38", "title": "Interval multiplication and squaring enclose", "statement": "For x in A and y in B: x*y in A*B and x^2 in A.square().", "quantifier": "all intervals and members", "why_tests_cant": "The claim ranges over unboundedly many (big-integer) inputs; a test only samples finitely many of them.", "anchors": ["src/interval_arithmetic.rs:MulAssign", "src/interval_arithmetic.rs:square"]}
{"id": "C39", "title": "Interval division and reciprocal enclose", "statement": "For x in A and y in B with 0 not in B: x/y in A/B and 1/y in B.recip(); the operation panics exactly when 0 is in B.", "quantifier": "all intervals and members", "why_tests_cant": "The claim ranges over unboundedly many (big-integer) inputs; a test only samples finitely many of them.", "anchors": ["src/interval_arithmetic.rs:DivAssign", "src/interval_arithmetic.rs:recip"]}
{"id": "C40", "title": "Interval square root encloses", "statement": "For x in A, x >= 0: sqrt(x) is in A.sqrt(), with bounds within one unit of the tightest.", "quantifier": "all intervals with non-negative lower bound", "why_tests_cant": "The claim ranges over unboundedly many (big-integer) inputs; a test only samples finitely many of them.", "anchors": ["src/interval_arithmetic.rs:into_sqrt"]}
{"id": "C41", "title": "Interval absolute value, union, floor and ceiling", "statement": "abs, union, floor(k), ceil(k) and contains_zero on intervals agree with the pointwise set operations.", "quantifier": "all intervals and members", "why_tests_cant": "The claim ranges over unboundedly many (big-integer) inputs; a test only samples finitely many of them.", "anchors": ["src/interval_arithmetic.rs:abs", "src/interval_arithmetic.rs:union", "src/interval_arithmetic.rs:floor", "src/interval_arithmetic.rs:contains_zero"]}
{"id": "C42", "title": "Interval integer powers enclose", "statement": "For x in A and every non-negative integer n: x^n in A.pow(n).", "quantifier": "all intervals, members and exponents", "why_tests_cant": "The claim ranges over unboundedly many (big-integer) inputs; a test only samples finitely many of them.", "anchors": ["src/interval_arithmetic.rs:Pow"]}
{"id": "C43", "title": "Interval logarithm encloses", "statement": "For x in A with A strictly positive, ln x is in A.log(), and natural_log_of_2 contains ln 2.", "quantifier": "all positive intervals and members", "why_tests_cant": "Transcendental values cannot be compared exactly by a test.", "anchors": ["src/interval_arithmetic.rs:log", "src/interval_arithmetic.rs:log_core", "src/interval_arithmetic.rs:natural_log_of_2"]}
{"id": "C44", "title": "Interval exponential encloses", "statement": "For x in A, e^x is in A.exp().", "quantifier": "all intervals and members", "why_tests_cant": "Transcendental values cannot be compared exactly by a test.", "anchors": ["src/interval_arithmetic.rs:into_exp"]}
{"id": "C45", "title": "Interval arithmetic-geometric mean", "statement": "arithmetic_geometric_mean terminates and encloses the AGM limit of every pair of members.", "quantifier": "all non-negative intervals", "why_tests_cant": "The claim ranges over unboundedly many (big-integer) inputs; a test only samples finitely many of them.", "anchors": ["src/interval_arithmetic.rs:arithmetic_geometric_mean"]}
{"id": "C46", "title": "Shared constant cache is transparent under every schedule", "statement": "However calls from several threads interleave, and whatever is cached already, a cached constant request returns an enclosure of the constant at the requested precision, and the cache is never replaced by something less precise than a previous content read.", "quantifier": "all thread schedules and request histories", "why_tests_cant": "Race-dependent: schedules cannot be enumerated by tests.", "anchors": ["src/interval_arithmetic.rs:ConstantCache"]}
{"id": "C47", "title": "Integers and rationals embed exactly", "statement": "RealAlgebraicNumber::from(integer or rational) denotes that number; to_rational / to_integer / is_rational / is_integer invert it, and return None exactly for irrational (non-integer) numbers.", "quantifier": "all integers and rationals; all algebraic numbers", "why_tests_cant": "The claim ranges over unboundedly many (big-integer) inputs; a test only samples finitely many of them.", "anchors": ["src/algebraic_numbers.rs:From", "src/algebraic_numbers.rs:to_rational", "src/algebraic_numbers.rs:to_integer"]}
{"id": "C48", "title": "Refining the isolating interval never changes the number", "statement": "Every interval-shrinking step keeps the denoted number inside the interval, keeps it the only root there, and either halves the interval or makes it exact, so refinement converges.", "quantifier": "all algebraic numbers, any number of refinement steps", "why_tests_cant": "Invariant over unbounded refinement histories on arbitrary polynomials.", "anchors": ["src/algebraic_numbers.rs:IntervalShrinker", "src/algebraic_numbers.rs:shrink"]}
{"id": "C49", "title": "Sign of an algebraic number", "statement": "cmp_with_zero, is_positive, is_negative and signum return the true sign of the denoted real number, and terminate.", "quantifier": "all algebraic numbers", "why_tests_cant": "The claim ranges over unboundedly many (big-integer) inputs; a test only samples finitely many of them.", "anchors": ["src/algebraic_numbers.rs:cmp_with_zero"]}
{"id": "C50", "title": "Floor, ceiling and truncation", "statement": "to_integer_floor, to_integer_ceil and to_integer_trunc return the true floor, ceiling and truncation, and terminate.", "quantifier": "all algebraic numbers", "why_tests_cant": "The claim ranges over unboundedly many (big-integer) inputs; a test only samples finitely many of them.", "anchors": ["src/algebraic_numbers.rs:into_integer_floor", "src/algebraic_numbers.rs:into_integer_ceil", "src/algebraic_numbers.rs:into_integer_trunc"]}
{"id": "C51", "title": "Fractional part", "statement": "fract(x) equals x - floor(x), and lies in [0,1).", "quantifier": "all algebraic numbers", "why_tests_cant": "The claim ranges over unboundedly many (big-integer) inputs; a test only samples finitely many of them.", "anchors": ["src/algebraic_numbers.rs:into_fract"]}
{"id": "C52", "title": "Negation and absolute value of algebraic numbers", "statement": "-x and |x| denote the negation and absolute value.", "quantifier": "all algebraic numbers", "why_tests_cant": "The claim ranges over unboundedly many (big-integer) inputs; a test only samples finitely many of them.", "anchors": ["src/algebraic_numbers.rs:Neg", "src/algebraic_numbers.rs:abs"]}
{"id": "C53", "title": "Reciprocal of algebraic numbers", "statement": "checked_recip(x) is None exactly for x = 0 and otherwise denotes 1/x as a valid isolating representation.", "quantifier": "all algebraic numbers", "why_tests_cant": "The claim ranges over unboundedly many (big-integer) inputs; a test only samples finitely many of them.", "anchors": ["src/algebraic_numbers.rs:checked_recip"]}
{"id": "C54", "title": "Addition and subtraction of algebraic numbers", "statement": "x+y and x-y denote the exact sum and difference.", "quantifier": "all pairs of algebraic numbers, whatever their isolating intervals", "why_tests_cant": "Which root is selected depends on interval endpoints; only particular representations expose errors.", "anchors": ["src/algebraic_numbers.rs:AddAssign", "src/algebraic_numbers.rs:RootSelector"]}
{"id": "C55", "title": "Multiplication and division of algebraic numbers", "statement": "x*y and x/y denote the exact product and quotient; division by zero is an error.", "quantifier": "all pairs of algebraic numbers", "why_tests_cant": "As for addition.", "anchors": ["src/algebraic_numbers.rs:MulAssign", "src/algebraic_numbers.rs:ExactDiv"]}
{"id": "C56", "title": "Equality and ordering of algebraic numbers", "statement": "==, <, cmp agree with the order of the real numbers; in particular they are independent of the isolating intervals and form a total order.", "quantifier": "all pairs of algebraic numbers", "why_tests_cant": "The claim ranges over unboundedly many (big-integer) inputs; a test only samples finitely many of them.", "anchors": ["src/algebraic_numbers.rs:PartialEq", "src/algebraic_numbers.rs:Ord"]}
{"id": "C57", "title": "Rational powers", "statement": "checked_pow(x, n/d) is the non-negative real d-th root of x^n where defined; it is None exactly for zero raised to a non-positive exponent and for negative bases with non-integer exponents.", "quantifier": "all algebraic bases and rational exponents", "why_tests_cant": "The claim ranges over unboundedly many (big-integer) inputs; a test only samples finitely many of them.", "anchors": ["src/algebraic_numbers.rs:checked_pow_impl"]}
{"id": "C58", "title": "Integer logarithms of algebraic numbers", "statement": "checked_floor_log2 / checked_ceil_log2 are None exactly for x <= 0, and otherwise give k with 2^k <= x < 2^(k+1), respectively 2^(k-1) < x <= 2^k.", "quantifier": "all algebraic numbers", "why_tests_cant": "The claim ranges over unboundedly many (big-integer) inputs; a test only samples finitely many of them.", "anchors": ["src/algebraic_numbers.rs:checked_floor_log2", "src/algebraic_numbers.rs:checked_ceil_log2"]}
{"id": "C59", "title": "Remainder of algebraic numbers", "statement": "x % y = x - trunc(x/y)*y, with |x % y| < |y| and the sign of x.", "quantifier": "all pairs with y non-zero", "why_tests_cant": "The claim ranges over unboundedly many (big-integer) inputs; a test only samples finitely many of them.", "anchors": ["src/algebraic_numbers.rs:Rem"]}
{"id": "C60", "title": "Minimal polynomials are canonical", "statement": "minimal_polynomial() of any computed number is the primitive irreducible integer polynomial with positive leading coefficient that vanishes at the number.", "quantifier": "all algebraic numbers reachable through the API", "why_tests_cant": "Invariant over all computation histories.", "anchors": ["src/algebraic_numbers.rs:minimal_polynomial"]}
{"id": "C61", "title": "Two-dimensional arrays", "statement": "2D-array indexing, slicing and position iteration visit each in-bounds (x,y) exactly once, front and back iteration meet without overlap, and out-of-range indices are rejected.", "quantifier": "all sizes, slices and interleavings of next/next_back", "why_tests_cant": "Iteration histories interleave arbitrarily.", "anchors": ["src/array2d.rs:Positions", "src/array2d.rs:do_slice", "src/array2d.rs:get_index"]}
{"id": "C62", "title": "Lattice reduction preserves the lattice", "statement": "Gram-Schmidt/LLL reduction returns a basis of the same lattice.", "quantifier": "all integer bases", "why_tests_cant": "The claim ranges over unboundedly many (big-integer) inputs; a test only samples finitely many of them.", "anchors": ["src/lattice.rs"]}
{"id": "C63", "title": "Python layer error mapping", "statement": "The Python operators raise ZeroDivisionError exactly when the divisor is zero and ValueError exactly when the Rust operation is undefined, and otherwise return the Rust result; comparisons map to the Rust ordering.", "quantifier": "all operands", "why_tests_cant": "The claim ranges over unboundedly many (big-integer) inputs; a test only samples finitely many of them.", "anchors": ["src/python.rs"]}
{"id": "C64", "title": "Comparison of quadratic numbers", "statement": "Comparisons of numbers (a + b*sqrt(c))/d agree with the real order.", "quantifier": "all quadratic numbers", "why_tests_cant": "The claim ranges over unboundedly many (big-integer) inputs; a test only samples finitely many of them.", "anchors": ["src/quadratic_numbers.rs"]}
{"id": "C65", "title": "Sign arithmetic", "statement": "The Sign type multiplies and negates like signs of non-zero reals, and is recovered from any number by its sign.", "quantifier": "all signs and numbers", "why_tests_cant": "Exhaustive on signs but relies on every numeric type.", "anchors": ["src/util.rs:Sign"]}
{"id": "C66", "title": "Display of variables is unambiguous", "statement": "get_variable_name assigns distinct variable names to distinct nesting depths.", "quantifier": "all nesting depths", "why_tests_cant": "Unbounded depth.", "anchors": ["src/polynomial.rs:get_variable_name"]}
{"id": "C67", "title": "Equality of 2D arrays is equality of size and contents", "statement": "Two 2D arrays (owned arrays, or slices of larger arrays) compare equal exactly when they have the same number of columns and rows and equal elements at every position.", "quantifier": "all pairs of 2D arrays of all sizes, owned or sliced, over any element type with decidable equality", "why_tests_cant": "The claim ranges over all sizes, all contents and all ways of slicing a larger array; a test samples finitely many.", "anchors": ["src/array2d.rs:Array2DBase derive(PartialEq)", "src/array2d.rs:slice"]}
{"id": "C68", "title": "Construction and arithmetic of quadratic numbers", "statement": "A quadratic number is built from a polynomial exactly when that has a real root, and is then the documented root; conversions from and to integers and fractions, sign tests, negation, absolute value, sums, differences and reciprocals have the value of the same operation on reals, and an error is reported only if the result is not a quadratic number.", "quantifier": "all polynomials of degree at most two and all quadratic numbers built from them", "why_tests_cant": "The claim ranges over unboundedly many big-integer coefficients; a test samples finitely many of them.", "anchors": ["src/quadratic_numbers.rs:RealQuadraticNumber"]}
{"id": "C69", "title": "The generic pseudo-prime test", "statement": "`is_pseudo_prime` returns for every integer; a number it reports prime is prime, and a prime is reported prime.", "quantifier": "all integers", "why_tests_cant": "The claim ranges over unboundedly many inputs; a test samples finitely many of them.", "anchors": ["src/util.rs:IsPseudoPrime"]}
{"id": "C70", "title": "The generic prime-power test", "statement": "`is_pseudo_prime_power` returns base and exponent of a prime power, with the base prime and base^exponent the given number, and an error exactly for numbers that are no prime power.", "quantifier": "all integers", "why_tests_cant": "The claim ranges over unboundedly many inputs; a test samples finitely many of them.", "anchors": ["src/util.rs:IsPseudoPrimePower"]}
{"id": "C71", "title": "The text of a polynomial has its value and determines it", "statement": "The text written for a polynomial, read as an arithmetic expression with the usual precedence, has the value of the polynomial for all values of the variables, and different polynomials have different texts, for nested polynomials too; the text of a factor determines its polynomial and power.", "quantifier": "all polynomials in any number of variables over integers, rationals or modular integers", "why_tests_cant": "The claim ranges over unboundedly many inputs; a test samples finitely many of them.", "anchors": ["src/polynomial.rs:fmt", "src/polynomial.rs:get_variable_name", "src/mod_int.rs:fmt"]}
{"id": "C72", "title": "The text of an interval or algebraic number determines it", "statement": "Two intervals with the same text are the same interval; two algebraic numbers with the same debug text, or the same Python repr, are equal.", "quantifier": "all intervals and all algebraic numbers", "why_tests_cant": "The claim ranges over unboundedly many inputs; a test samples finitely many of them.", "anchors": ["src/interval_arithmetic.rs:fmt", "src/algebraic_numbers.rs:debug_real_algebraic_number", "src/python.rs:__repr__"]}
{"id": "C73", "title": "Iterators over the coefficients of a polynomial", "statement": "Borrowing and owning iterators yield the coefficients in order from the front and in reverse order from the back, each coefficient once, under every interleaving of calls, and know how many are left.", "quantifier": "all polynomials over any coefficient type and all finite sequences of next and next_back calls", "why_tests_cant": "The claim ranges over unboundedly many polynomials and call histories; a test samples finitely many of them.", "anchors": ["src/polynomial.rs:Iter", "src/polynomial.rs:IntoIter"]}
{"id": "C74", "title": "Conversions between polynomials and primitive numbers", "statement": "A polynomial converts to a number of a primitive integer type exactly if it is constant with a value in the range of the type, and gives that value; a number converts to the constant polynomial.", "quantifier": "all integer polynomials and all integer ranges containing zero", "why_tests_cant": "The claim ranges over unboundedly many inputs; a test samples finitely many of them.", "anchors": ["src/polynomial.rs:ToPrimitive", "src/polynomial.rs:FromPrimitive"]}
{"id": "C75", "title": "Randomised factorisation never gets stuck", "statement": "Whatever values the random generator has produced so far, there is a continuation with which the factorisation of an integer polynomial, and of a square-free polynomial with factors of one degree modulo an odd prime, ends: no input and no sequence of unlucky draws leads into a state from which the search loops cannot finish.", "quantifier": "all integer polynomials, all odd primes, degrees and square-free monic polynomials with irreducible factors of that degree, and all finite prefixes of the random stream", "why_tests_cant": "Termination for unboundedly many polynomials and random prefixes cannot be observed by finitely many runs; a test cannot tell an unlucky run from an endless one.", "anchors": ["src/polynomial/same_degree_factorization.rs:same_degree_factorization", "src/polynomial/factorization_over_integers.rs:factor_with_rng"]}
{"id": "C76", "title": "Precision of logarithms of intervals", "statement": "The logarithm of a positive interval returns, and unless the interval contains a number 3*2^k its bounds are within little more than two units in the last place of the logarithms of the bounds, so they become arbitrarily close as the precision grows.", "quantifier": "all positive intervals, all precisions and all admissible values of the ln 2 cache", "why_tests_cant": "The claim ranges over unboundedly many inputs and precisions; an enclosure test passes however wide the result is.", "anchors": ["src/interval_arithmetic.rs:log_core", "src/interval_arithmetic.rs:into_log"]}
{"id": "C77", "title": "Precision and totality of exponentials of intervals", "statement": "The exponential of an interval returns, and its bounds are within little more than two units in the last place of the exponentials of the bounds unless the interval contains a multiple of ln 2.", "quantifier": "all intervals up to the sizes a machine can hold, all precisions and all admissible values of the ln 2 cache", "why_tests_cant": "The claim ranges over unboundedly many inputs and precisions; an enclosure test passes however wide the result is, and the points at which the code panics are one per precision.", "anchors": ["src/interval_arithmetic.rs:into_exp"]}
{"id": "C78", "title": "The exponent of a power may be written in any way", "statement": "A power of an algebraic number takes its exponent as an integer of any width, a pair of numerator and denominator, a fraction or a reference to one of these. Exponents that stand for the same rational number give the same result in both forms of the power; a pair with denominator zero panics; None is returned exactly for 0 to an exponent <= 0 and for a negative number to an exponent that is not an integer.", "quantifier": "all algebraic numbers, all integers, pairs and fractions in lowest terms, and all streams of the random generator", "why_tests_cant": "There are unboundedly many ways to write each exponent (signs, common factors); tests try a few pairs.", "anchors": ["src/algebraic_numbers.rs:IntoRationalExponent", "src/algebraic_numbers.rs:checked_pow", "src/algebraic_numbers.rs:checked_into_pow"]}
{"id": "C79", "title": "What a modulus type claims about its value is true", "statement": "For every integer type, the built-in modulus ModN has the value N, is marked odd, prime or a power of a prime exactly if N is, and reports the right prime and exponent. The wrappers for known primes and known odd numbers, nested in any way around any modulus, keep the value and the other marks, and if the caller's promise is true, everything the resulting type claims is true.", "quantifier": "all built-in moduli, all integer types and all nestings of wrappers and references", "why_tests_cant": "Nestings are unbounded, and the marks are trait implementations without a value a test could compare.", "anchors": ["src/mod_int.rs:impl_static_modulus", "src/mod_int.rs:KnownPrime", "src/mod_int.rs:KnownOdd", "src/mod_int.rs:PrimePowerModulus"]}
{"id": "C80", "title": "Precision of integer powers of intervals", "statement": "The power of an interval with a non-negative integer exponent returns, and its bounds are the least and the greatest power of the members of the interval up to a rounding error of two units in the last place per factor (relative to the power for numbers above one); a negative exponent gives the power of the reciprocal.", "quantifier": "all intervals, all integer exponents and all precisions", "why_tests_cant": "Every exponent and every precision is a different sequence of roundings, so a sample of powers says nothing about how errors add up in the others.", "anchors": ["src/interval_arithmetic.rs:Pow", "src/interval_arithmetic.rs:DyadicFractionInterval::pow"]}
{"id": "C81", "title": "Precision of the arithmetic-geometric mean", "statement": "For intervals of numbers of at least 1 the arithmetic-geometric mean does not stop before it has converged: the width of the result is, up to rounding errors proportional to the number of steps, the relative width of the operands; for two exact numbers between 1 and M given with k bits after the point it is at most 200 k M units in the last place.", "quantifier": "all intervals with lower bounds of at least 1, all precisions", "why_tests_cant": "The number of steps and all roundings differ for every pair and precision; the iteration stops as soon as one step does not help, which a sample cannot show to be late enough for the others.", "anchors": ["src/interval_arithmetic.rs:DyadicFractionInterval::arithmetic_geometric_mean", "src/interval_arithmetic.rs:DyadicFractionInterval::into_arithmetic_geometric_mean"]}
{"id": "C82", "title": "Printed arrays", "statement": "A two-dimensional array with at least one row and one column is printed as a rectangle of characters, plainly or as a reStructuredText table: all printed lines are equally long, every line of every element's text appears in full in the columns and rows reserved for that element, blanks follow it, and the areas of different rows and columns do not overlap. An array without elements is printed as its two sizes.", "quantifier": "all sizes, all element texts of one-byte characters including empty ones and ones of several lines, both formats", "why_tests_cant": "Column widths and row heights depend on all elements at once; a documented example covers one combination, and the documentation test is ignored by the build.", "anchors": ["src/array2d.rs:Array2DBase (Display)"]}
{"id": "C83", "title": "Printed trees", "statement": "A printed factor tree can be read back: two trees give the same output only if they have the same shape and the same lines of text in corresponding leaves and nodes. The lines come from left to right, each in full and indented according to its depth, whatever the output is written to, and the first failed write ends the output and is reported.", "quantifier": "all finite trees with arbitrary texts in leaves and nodes, including empty ones and ones of several lines, and all writers, failing at any line", "why_tests_cant": "Trees are unbounded and their texts arbitrary: a text could imitate the lines of the drawing. A failure can occur at any line.", "anchors": ["src/util.rs:PrintTree::write_or_print_tree", "src/util.rs:PrintTree::write_tree", "src/util.rs:PrintTree::print_tree"]}
{"id": "C84", "title": "Quadratic numbers as floating-point numbers", "statement": "Converting a quadratic number to f64 gives a finite number close to its value: rationals with numerator and denominator below 2^53 are rounded to the nearest f64, and other numbers have a relative error of a few units in the last place.", "quantifier": "all quadratic numbers a user can build", "why_tests_cant": "The tests compare 37 values with a tolerance of 10^-10; cancellation in the quadratic formula depends on the coefficients and shows for none of them.", "anchors": ["src/quadratic_numbers.rs:RealQuadraticNumber::to_f64"]}
{"id": "C85", "title": "Precision of cached constants", "statement": "When ln 2 or sqrt 2 is asked for with n binary digits, it is computed and kept with at least n digits and at most 26 % more (counting n as at least 32), whatever was asked for before and by however many threads.", "quantifier": "all precisions that fit a usize, all sequences and interleavings of requests, all monotone log2 functions with an error of at most 2^-40", "why_tests_cant": "The classes of precisions come from floating-point logarithms; a rounding at one boundary among 2^64 precisions could give too few digits or skip a class.", "anchors": ["src/interval_arithmetic.rs:ConstantCache::log2_denom_to_cache_index", "src/interval_arithmetic.rs:ConstantCache::get_required_log2_denom_for_cache_index", "src/interval_arithmetic.rs:ConstantCache::get"]}
{"id": "C86", "title": "Hashing agrees with equality", "statement": "Polynomials, quadratic numbers and the data of algebraic numbers feed the same to a hasher exactly if they are equal: equal values built in different ways are found again in a hash set, and no two different values, also inside larger keys, are confused before the hash function itself.", "quantifier": "all pairs of values of these types, however they were built", "why_tests_cant": "Equality is structural, so it depends on every construction path reaching one normal form; there are no tests with hash sets.", "anchors": ["src/polynomial.rs:Polynomial", "src/polynomial.rs:DivisorIsOne", "src/mod_int.rs:ModularInteger", "src/quadratic_numbers.rs:RealQuadraticNumber", "src/algebraic_numbers.rs:RealAlgebraicNumberData"]}
{"id": "C87", "title": "Primitive GCD of integer polynomials", "statement": "For integer polynomials, reducing yields a content-free polynomial with positive leading coefficient whose product with the reducing factor is the original; p.to_reduced().subresultant_gcd(q.to_reduced()).into_reduced() returns, divides both, is a multiple of every content-free common divisor, and is the greatest common divisor in Z[X] exactly when p and q have no common integer factor.", "quantifier": "all pairs of polynomials with integer coefficients", "why_tests_cant": "The claim ranges over unboundedly many (big-integer) inputs and over all common divisors; a test only samples finitely many of them.", "anchors": ["src/polynomial.rs:get_nonzero_reducing_factor", "src/polynomial.rs:to_reduced", "src/polynomial.rs:into_reduced", "src/polynomial/gcd.rs:subresultant_gcd"]}
