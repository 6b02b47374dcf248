# A Rocq model of `algebraics`

The crate (`/repo`, Rust) implements exact real algebraic numbers on top of
big-integer arithmetic: integer helpers and primes (`traits.rs`, `util.rs`),
modular integers (`mod_int.rs`), polynomials over several coefficient types
(`polynomial.rs`, `polynomial/*.rs`), dyadic interval arithmetic
(`interval_arithmetic.rs`), real algebraic numbers (`algebraic_numbers.rs`), a
Python wrapper (`python.rs`), and some unused helper modules (`array2d.rs`,
`lattice.rs`, `quadratic_numbers.rs`).

The properties are listed in `properties.jsonl` (C01 ...), the status of each in
`MANIFEST.json`, the mutation experiments in `seeded/LOG.jsonl`.

## 1. Modelling conventions

| Rust | Model |
|---|---|
| `BigInt` / `BigUint` | `Z` (`N`), exact; `>>` on negative numbers is floor division by a power of two (`Z.shiftr`), as in num-bigint |
| fixed-width ints | `Z` with explicit range checks, wherever overflow is part of the property |
| `usize` lengths, indices, `log2_denom` | `nat`; machine-word overflow of lengths is not modelled |
| `Ratio<BigInt>` | `Q` kept reduced with `Qred`, as `Ratio` does |
| `&mut self` methods | functions returning the new value |
| panic / `assert!` / `unwrap` | `None` (or `Panic` in a `result` type), distinct from API-level `Option`/`Err` |
| unbounded `loop`/`while` | recursion on explicit fuel; out-of-fuel is an error value distinct from every result |
| `Rng` | an arbitrary stream of values supplied by the caller (universally quantified) |
| `RwLock` | atomic read/write steps of an interleaving semantics |
| generic `PolynomialCoefficient` | a record of coefficient operations; instances for `Z`, modular ints, rationals and nested polynomials |

The crates `num-bigint`, `num-integer`, `num-rational`, `num-traits` are not in
the sandbox. Their documented behaviour (exact arithmetic, `div_floor`,
`mod_floor`, `gcd`, `extended_gcd`, `sqrt` = floor of square root, `Ratio`
always reduced with positive denominator) is part of the trusted base.

Model files `M_*.v` contain definitions only (they run under `vm_compute`),
each definition citing the `/repo` lines it models. Proofs live in `P_*.v`,
independent specifications in `S_*.v`, and `T_*.v` files contain only the
property theorems (each closed by `exact`), examples and `Print Assumptions`.

When the faithful model violates the English property, the theorem
`..._refuted` exhibits a witness and a companion theorem proves the property
under the exact guard that makes it true. Section 4 lists those findings.

## 2. Properties: what is modelled and how it is proved

### Integers (`traits.rs`, `util.rs`)
- C01, C02, C03: the trait wrappers over num-integer's gcd. Spec: divisibility in `Z`/`Q`. The doc claim `gcd*lcm = a*b` is checked for negative operands.
- C04: both `checked_div_rem_nearest` bodies, transcribed with `Z` arithmetic; spec `a = q*b+r /\ 2|r| <= |b|`.
- C05: `floor_log2`/`ceil_log2`/`trailing_zeros`; spec by powers of two.
- C06: `exact_div` family with panic as a separate outcome.
- C07, C08: the literal prime table is copied and checked by kernel computation to be exactly the primes below 2^16; trial division lifted to all u32 by "a composite below 2^32 has a prime factor below 2^16". Spec: `Znumtheory.prime`.
- C09: the recursive enumeration with an arbitrary callback state machine; spec: callback folded over the explicit lexicographic list of subsets, plus completeness/no-dup of the list.
- C65: finite algebra of signs.

### Modular integers (`mod_int.rs`)
- C10, C11, C12: bodies transcribed on `Z` with the width of the widened type; spec: congruence + range; overflow-freedom as range theorem.

### Polynomials (`polynomial.rs`, `polynomial/*.rs`)
- Model: coefficient lists (little-endian, elements + divisor) generic in an operations record; spec: mathcomp `{poly R}` through `Poly`.
- C13-C18, C34: direct induction against `{poly R}`.
- C19-C23: long division loop invariants against `{poly R}`.
- C24, C25, C26: subresultant PRS; gcd via the `gcdp` theory, the resultant against mathcomp's `resultant` (Sylvester determinant).
- C27: `zcontents`/`zprimitive`-like spec.
- C28: Sturm's theorem from mathcomp-real-closed (`changes_itv_mods_cindex`, `taq_cindex`) applied to the model's sequences up to positive scalars.
- C29: Yun's algorithm: multiplicity argument in characteristic 0.
- C30, C31, C32, C33, C35: the whole factorisation pipeline, the random generator being an arbitrary stream. C32: Frobenius fixed points of F_p[x]/(f). C35: ring identities modulo p and p^2, the tree by induction. C30: product preservation through every stage, and absence of panics other than running out of primes. C31 is refuted by running the model; for multiples of monic polynomials it is proved: coefficients of integer divisors are bounded (Landau-Mignotte, `P_Mignotte.v`), lifts of coprime monic factors are unique (`P_Zassenhaus.v`), so every divisor is the product of a subset of the lifted factors and the search by increasing subset size finds irreducible ones (`P_ZassenhausB.v`, `P_ZassenhausC.v`).
- C22: the in-place failing paths return the remaining operand explicitly.
- C66: `get_variable_name` as a function to strings.

### Intervals (`interval_arithmetic.rs`)
- Model: record of two `Z` numerators and a `nat` exponent. Spec: membership of a real (stdlib `R`) or rational number between numerators / 2^k.
- C36-C42: inequalities on `Z` floor/ceil divisions.
- C43-C45: real-analysis enclosures over stdlib `R` (classical-real axioms of the standard library).
- C76-C77: error analysis of the two loops (a fixed number of units per iteration, absorbed by the guard bits) for arguments inside one binade; the exponential's assertion fails exactly on one point per precision, by a 3-adic argument on factorials.
- C80: one induction over the squaring loop for each bound; the error of a product of two approximations is the sum of their errors plus one unit, so `e` factors cost `e` units.
- C81: a step keeps the relative width of both means up to the factor 1 + 8/2^k and shrinks the distance of the means by 3/4 as long as that width is at most 3/2; the loop stops only when a step did not shrink the hull, so the hull is then no wider than four times the error of one step. Numbers below 1 are out of scope: the square root of a rounded product of small numbers loses half of the digits.
- C82: the text is rewritten as a list of lines joined by newlines; the left edge of a column is a sum of widths, the top of a row a sum of heights; cutting a line at a left edge gives the padded line of the element. The documented examples (ignored by the build) are checked in V_Table.
- C83: the writer is an arbitrary state transformer that may fail; printing is shown to be feeding it a list of lines that does not depend on it. That list is decoded: the lines of subtrees have at least four characters, the first and last line of the text of a node have three, and only leaves at the root have a line beginning with a colon.
- C84: binary64 arithmetic is Flocq's. Small integers are exact, every other operation has a relative error of at most 2^-53 plus a negligible absolute one; the errors are added up along the quadratic formula. Larger integers are rounded once themselves, and nothing overflows below 2^400. With cancellation only a bound relative to the larger root of the polynomial remains, and the general claim is refuted.
- C46: interleaving semantics of read/fill/write steps with an invariant over all schedules. The index function is a monotone parameter there; `M_CacheIndex.v` models it in binary64 over any monotone `log2`.
- C86: hashing as the sequence of tokens fed to the hasher, shown to be prefix-free; with C13 and C64 it determines, and is determined by, the value.
- C87: the reducing factor of an integer polynomial is its content with the sign of the leading coefficient; with the subresultant chain (C24) and Gauss's lemma, reducing, taking the subresultant gcd and reducing again gives the greatest common divisor without content. The trait GCD itself needs AlwaysExactDivAssign, which integers do not implement, so `p.gcd(&q)` is not claimed for them.
- C85: the binary search for the precision of a class is exact for monotone indices; the rounding errors of the index are added up and compared with the cube root of 2.

### Real algebraic numbers (`algebraic_numbers.rs`)
- Model: minimal polynomial + interval; operations executable with fuel, using the modelled factorisation with an arbitrary random stream.
- Spec: over the standard library's `R` (shown to be a mathcomp real closed field), `denotes a x` = the polynomial is irreducible, x is a root of it, lies in the interval and is the only root there.
- C47-C60: each operation preserves/realises the denoted number; termination via fuel bounds where possible; refutations by executing the model. For algebraic integers (C54-C57, `T_AlgInt.v`) the resultants have only algebraic integers as complex roots (mathcomp's `algC`), hence are multiples of monic polynomials, and the factors are irreducible by C31.
- C57: cases (None, special bases and exponents, rational bases, exponents too large) are settled for all fuel; in the general case whatever the search returns is shown to denote the power, given valid intervals. The search cannot stop at a wrong interval end here, because all rational roots of the resultant have the absolute value of the power and the intervals stay on one side of zero (`P_ExpSign.v`). It returns as soon as one refinement separates the power from the other real roots of the resultant (`P_PowEnd.v`); a quantitative bound on the intervals (`P_PowClose.v`, from C76 and C77) says when that is, and for roots of rationals every refinement does.

### Others
- C61: `Positions` iterator as a state machine driven by any sequence of next/next_back calls, compared with a double-ended queue holding the grid in order; arrays as their flat storage with a stride, compared with functions of two indices. `made` lists the arrays a caller can build (constructors, slicing, assignment, swapping); machine overflow of `x * stride` is not modelled (allocation bounds it); `Display` (array2d.rs:409-493) is C82.
- C67: the derived `PartialEq` compares stride, size and the whole data tail; proved sound and complete for owned arrays.
- C62: the LLL loop over the modelled arrays, with `BigInt` entries. Invariant: the first k vectors are reduced, the cached orthogonalisation is right on its valid part, the lattice is the given one (each change adds a multiple of one vector to another, or exchanges two). Termination: the sum of the Gram determinants of the initial segments is a non-negative integer (mathcomp determinants), kept by size reduction and lowered by each exchange. The other instances of the generic element type are not modelled.
- C63: the methods of the Python class over the modelled operations, with outcomes value, exception or panic; the dispatch of operators to methods and reflected methods (pyo3, the interpreter) is modelled from its documentation.
- C60: the coefficient list is compared with an elementary definition of minimal polynomial, shown to be unique; the computed values are an inductive closure of the operations.
- C64, C68: `quadratic_numbers.rs` function by function, read as reals by the quadratic formula. Every number built has a canonical form (reduced fraction, or primitive polynomial with non-square discriminant), and two canonical forms with the same value are equal; the order tests are reduced to comparing sums of square roots. `debug_assert!` counts as `assert!`; comparison of `num_rational` ratios is by value.
- C69, C70: the public generic tests of `util.rs:596-770`, at unbounded integers (the crate has no implementation of the traits for a concrete type). Exactness below 541^2 comes from the prime table; larger numbers reach the unfinished Miller-Rabin helper, which answers "composite" when the base passes at once and panics otherwise.
- C71, C72: the formatting code as functions to strings. `S_Display.v` says how an arithmetic expression is read; the text is shown to read as the value of the polynomial, by induction over the nesting. Injectivity is shown by cutting the text into terms at blanks outside parentheses. Decimal numbers, `Ratio`'s text and std's `debug_struct` are modelled from their documentation.
- C73: both iterators as state machines compared with the double-ended queue of C61. C74: the conversion macros, with the conversions of `BigInt` as range checks.
- C75: for two distinct irreducible factors of equal degree, a monic polynomial of degree 2d-1 whose ((p^d-1)/2)-th power is 1 modulo exactly one of them exists (otherwise the non-zero squares of the field would be closed under adding a constant), so every pass of the inner loop can succeed; locality of the draws and monotonicity in the fuel compose this to the whole factorisation.
- C78: the conversions of exponents, composed with the power of C57. C79: a modulus is a value wrapped in any number of markers; a trait is a boolean function of that structure. Built-in moduli by cases, wrappers by induction.

## 3. Trusted base
- The Coq 8.16.1 kernel, including its `vm_compute` machine.
- Axioms. `Print Assumptions` follows every theorem. The integer and modular
  theorems are closed under the global context. Theorems mentioning stdlib `R`
  (C36-C45, C64, C68, C76, C77, C80, C81, C84, C85, C86 for quadratic numbers, and the C46 theorems about ln 2 and sqrt 2) use the standard
  library's axioms `ClassicalDedekindReals.sig_forall_dec`,
  `ClassicalDedekindReals.sig_not_dec`,
  `FunctionalExtensionality.functional_extensionality_dep` and, for logarithm,
  exponential, AGM and floating point, `Classical_Prop.classic`. mathcomp, Coquelicot and Flocq add none.
  The polynomial theorems (C13-C35, C66) are closed under the global context.
  The algebraic-number theorems (C47-C60, C63, C78) read the standard library's reals as
  a mathcomp real closed field (`P_Rstruct.v`); on top of the axioms above they
  use `ClassicalEpsilon.constructive_indefinite_description` (also the standard
  library's), which mathcomp's `choiceType` needs.
- `coqchk` and `vcheck` also list the abstract fields of mathcomp's own sealed
  modules (for example `fintype.CardDef.card`, `algC.Algebraics.Implementation`).
  They are opaque definitions with a body, not axioms; `Print Assumptions` does
  not list them.
- The correspondence between `/repo` and the `M_*.v` files. It rests on reading,
  and is tested: the `V_*.v` files run the model on the literals of the crate's
  own unit tests (intervals down to the last digit of logarithms and
  exponentials, polynomial arithmetic, greatest common divisors, resultants,
  factorisations, algebraic and quadratic numbers, lattices, modular division,
  text forms) and obtain the expected values in every case. They are examples,
  not properties, and no theorem depends on them. A few slow cases, named in the
  comments, were run once and left out. Not run: tests that only loop over
  ranges covered by a theorem, and two factorisations which take too long here.
- The num-* crates behave as documented (section 1).
- f64's `log2` is a parameter: C46 assumes it to be monotone, C85 also to be right
  up to 2^-40.
- Critical sections under an `RwLock` are atomic steps.
- `log` and `exp` receive ln 2 through a parameter; the theorems quantify over
  every parameter satisfying `ln2_ok`, and C46 shows that every answer of the
  cache under every schedule does.

- Polynomials: the public `From<(Vec<Element>, Divisor)>` accepts zero and
  negative divisors; the model's divisor type for rationals is `positive`.
  Nested polynomials over modular integers can be left unnormalized by
  `mul_assign_element_by_usize` (no renormalization after a product with a zero
  divisor); the nested instance here is over the integers, where that cannot
  happen. `mathcomp.zify.ssrZ` supplies the bijection `int_of_Z` between `Z`
  and mathcomp's `int`.

- Factorisation: the random generator is an arbitrary stream of values, one per
  draw (`gen_range`), so the theorems hold for every seed. The heap of factor
  trees follows the sift-up/sift-down algorithm of `std::collections::BinaryHeap`;
  the theorems use only that popping and pushing permute the contents. Loops
  whose length depends on the stream or on the size of the target modulus take
  fuel, and say nothing when it runs out.

Not modelled: `Debug`/`Display` of error values,
operator-overload forwarding macros (by-value/by-reference variants all
delegate to one body), `pi` (unimplemented in the code).

## 4. Findings
Each is a `_refuted` theorem whose witness runs in the model.

| Property | What the code does |
|---|---|
| C01 | `gcd(a,b)*lcm(a,b) = a*b` (doc) fails exactly for operands of opposite sign (C01_documented_product) |
| C03 | rational gcd is negative exactly when one operand is zero and the other negative |
| C04 | nearest division is not nearest for `BigInt` and for signed fixed-width integers |
| C08 | `next_prime(0)` is 3: the prime 2 is skipped |
| C09 | the empty subset of an empty range is never visited |
| C10 | zero and negative moduli are accepted by the constructor; arithmetic then panics or is not canonical |
| C11 | modulo 1, the inverse of 0 is not found |
| C12 | in the machine integer types, exponent 0 modulo 1 gives the non-canonical value 1 (C12_pow: the only such case); the sign of a negative exponent is ignored there (C12_negative_exponent) |
| C42 | odd powers of intervals straddling zero miss values; odd powers of a negative point interval give lower > upper. C42_straddling and C42_negative_point say exactly when: whenever the power of the bound nearer to zero is not representable |
| C44 | `exp` panics on the point 1/2^41 (internal assertion) |
| C44 | for negative arguments `exp` divides by the wrong bound of ln 2, so the result can exclude the true value: at precision 84 the lower bound for [k, k+1]/2^84, k = -53629665495806097418709149, is above exp(k/2^84); at precision 92 an upper bound is too small. Found by aiming at arguments near -4 ln 2 whose exponential is just below a grid point |
| C76 | `log` shifts the two bounds separately but takes one series for both, so an interval containing a number 3*2^k loses up to ln 2 on both sides at every precision: log [2,3] at precision 10 is [415,1420]/1024, the exact bounds are [709,1125]/1024 |
| C77 | `exp` does the same at multiples of ln 2, up to a factor of two: exp [-1/4,1/4] at precision 10 is [657,1595]/1024, the exact bounds are [797,1315]/1024 |
| C77 | the assertion in `exp` fails at precision d exactly for the positive point x with x^2 2^(d+32+2 floor(log2(d+1))) = 2, within the first binade |
| C15 | adding or subtracting one coefficient to a rational polynomial mixes up denominators: (1/2 + X/2) + 1/3 gives 5/6 + X/6 |
| C22 | `checked_exact_div_assign` by a coefficient leaves the zero polynomial behind when it fails |
| C31 | factors returned by `factor` need not be irreducible: the tree gives the leading coefficient its own leaf, lifting lets it drift into the other factors, and the subset search misses true factors: 5x^4+16x^3+11x^2+10x+3 = (x^2+3x+1)(5x^2+x+3) comes back in one piece |
| C51 | the fractional part of a negative rational is negative: `fract(-7/3)` is `-1/3` (the code truncates rationals, floors irrationals) |
| C53 | the reciprocal of an irrational number can get an interval holding several roots: for 5+sqrt 2 isolated by [6,8] it is [0,1]; the next refinement then panics |
| C60 | the reciprocal's polynomial is not normalised: that of sqrt 2 is 1-2x^2, with a negative leading coefficient |
| C54 | a sum can be 0 by mistake: the search for the right root stops at an interval end that is a root of any factor, also of a wrong one. `(2^(1/2)).recip()` is 1/sqrt 2 with interval [0,1]; added to itself it gives 0 |
| C55 | for the same reason the square of sqrt 2/2, isolated by [-1/2,1], is -1/2; and 1/(5+sqrt 2) has an interval with two roots (C53) |
| C56 | for the same reason 1/sqrt 2 (as computed by pow and recip) compares equal to its negation |
| C59 | 1 % (5+sqrt 2) panics (C53) |
| C61 | `slice` panics on valid bounds selecting nothing past the last column: on a 2x3 array, `slice(2.., 1..)` |
| C67 | two slices with the same size and elements can compare unequal, because the derived `PartialEq` compares the rest of the underlying storage |
| C64 | a quadratic number obtained as the reciprocal of a positive fraction has a negative denominator; comparing an irrational number with it panics |
| C68 | adding two irrational quadratic numbers panics (`unimplemented!`), or reports `NonQuadraticResult` for a sum that is quadratic: sqrt 2 + (1 + sqrt 2/2); line 240 compares with the wrong operand |
| C68 | 1/(1/2) is not equal to 2 |
| C68 | the helper for sums of square roots reports `NonQuadraticResult` for sqrt 2 + sqrt 4, and whenever just the second radicand is a square (line 240: the second test never succeeds) |
| C84 | the root of x^2 + 2^28 x + 1 close to -2^-28 is converted to 0.0 |
| C84 | the rational (2^1100 + 1) / 2^1100 is converted to a NaN (infinity over infinity) |
| C69 | `is_pseudo_prime` never reports a prime from 541^2 on: 292703 is reported composite, 292717 panics |
| C70 | `is_pseudo_prime_power(27)` is 3^5; `is_pseudo_prime_power(8)` fails an assertion |
| C57 | (5+sqrt 2)^(-1) is the reciprocal of C53, which denotes no number |
