{"id": "C01", "title": "Integer gcd is the greatest common divisor", "statement": "For any two ints whose absolute values are representable, the gcd routine terminates, executes no undefined arithmetic, and returns a value that divides both inputs and is divisible by every common divisor; the value is non-negative whenever both inputs are non-zero (or the sole non-zero one is positive), and the only zero result is gcd(0,0).", "quantifier": "all pairs of int arguments", "why_tests_cant": "2^64 argument pairs, and termination of the Euclidean loop is a claim about all of them.", "anchors": ["spffl/intmath/int_gcd.cpp: int_gcd"]}
{"id": "C02", "title": "Extended gcd returns Bezout coefficients", "statement": "For all positive ints a, b the extended gcd routine returns (g, m, n) with g = gcd(a,b) and a*m + b*n = g, with no intermediate overflow; the arguments for which it instead divides by zero are exactly characterised.", "quantifier": "all pairs of int arguments", "why_tests_cant": "Bezout identities must hold for each of 2^62 pairs and the no-overflow claim concerns intermediate values that tests cannot observe.", "anchors": ["spffl/intmath/int_gcd.cpp: int_ext_gcd", "spffl/intmath/int_gcd.cpp: int_lcm"]}
{"id": "C03", "title": "Integer square root brackets its argument", "statement": "For every non-negative int n the floor square root returns the unique r with r^2 <= n < (r+1)^2, the ceiling square root returns the least r with r^2 >= n, both without signed overflow and in a bounded number of iterations; negative arguments are rejected.", "quantifier": "all int arguments", "why_tests_cant": "Off-by-one and overflow show up only at isolated perfect squares near 2^31.", "anchors": ["spffl/intmath/int_sqrt.cpp"]}
{"id": "C04", "title": "Integer power equals the mathematical power", "statement": "For every base and every non-negative exponent e such that base^e fits in an int, the power routine returns base^e without undefined behaviour (signed overflow).", "quantifier": "all int bases and exponents", "why_tests_cant": "The overflow of the discarded final squaring does not change test-visible values.", "anchors": ["spffl/intmath/int_power.cpp: int_power"]}
{"id": "C05", "title": "Integer totient counts units", "statement": "For every n >= 2 the totient routine returns the number of residues modulo n that are invertible; for n = 1 the mathematical value is 1.", "quantifier": "all positive int arguments", "why_tests_cant": "Must hold for every modulus.", "anchors": ["spffl/intmath/int_totient.cpp: int_totient"]}
{"id": "C06", "title": "Primality test is exact", "statement": "For every int n other than the most negative one, is_prime(n) is true iff |n| is a prime number, whether the trial division or the table path is used; the two paths agree on every argument; nth_prime(k) is the k-th prime.", "quantifier": "all int arguments", "why_tests_cant": "2^32 arguments; agreement depends on completeness of a 6542-entry table.", "anchors": ["spffl/intmath/is_prime.cpp", "spffl/intmath/primes_16.cpp"]}
{"id": "C07", "title": "Integer factorization is correct and complete", "statement": "For every int n with |n| < 2^31 and n not 0, factoring returns a unit (+1/-1) and strictly increasing prime factors with positive multiplicities whose product with the unit is n, for every n, including those with a prime factor above 2^16.", "quantifier": "all non-zero ints", "why_tests_cant": "Every n must be covered; primes beyond the table are reached only for large cofactors.", "anchors": ["spffl/factorization/int_factor.cpp: int_factor", "spffl/containers/tfacinfo.h"]}
{"id": "C08", "title": "Bit-position and logarithm helpers are exact", "statement": "For all 32- and 64-bit words: the most significant bit routine returns floor(log2 x) for x>0, the least significant bit routine returns the 2-adic valuation for x>0, floor/ceil log2 are exact for x>0 within the documented range, and the decimal logarithm returns floor(log10 n) for n>0.", "quantifier": "all words", "why_tests_cant": "2^64 inputs; table-driven bisections fail on single nibbles.", "anchors": ["spffl/intmath/log2.cpp", "spffl/intmath/log10.cpp"]}
{"id": "C09", "title": "Modular integer arithmetic is arithmetic in Z/m", "statement": "For every modulus 1 <= m <= 46341 and all residues, +, -, unary -, * and the int-operand variants return a canonical residue in [0,m) congruent to the mathematical result, with no signed overflow, so all commutative-ring laws hold; above the bound the exact overflow condition of multiplication is exhibited.", "quantifier": "all moduli, all residues", "why_tests_cant": "Ring laws quantify over three residues and all moduli.", "anchors": ["spffl/intmath/intmod_t.cpp: intmod_t::operator+", "spffl/intmath/intmod_t.cpp: intmod_t::operator*", "spffl/intmath/intmod_t.cpp: intmod_t::intmod_t"]}
{"id": "C10", "title": "Modular reciprocal succeeds exactly on units, whatever was called before", "statement": "For every modulus m >= 2 (m <= 46341) the reciprocal of a succeeds iff gcd(a,m)=1 and then returns the inverse; the outcome does not depend on which moduli were used in earlier calls, although the routine keeps a static one-entry cache; division a/b satisfies (a/b)*b = a when it succeeds and throws otherwise.", "quantifier": "all call histories, all moduli and residues", "why_tests_cant": "The cache makes the result a function of the whole call history.", "anchors": ["spffl/intmath/intmod_t.cpp: intmod_t::recip", "spffl/intmath/intmod_t.cpp: intmod_t::operator/"]}
{"id": "C11", "title": "Modular exponentiation is exact for every exponent", "statement": "For every canonical residue a mod m (m<=46341) and every int exponent e, exp(e) is a^e when e>0, the e-th power of the inverse when e<0 and a is a unit, one when e=0 and a is non-zero, and an exception when (a=0 and e<=0) or when the inverse does not exist or e is the most negative int.", "quantifier": "all residues, moduli and exponents", "why_tests_cant": "Correctness for all exponents is an induction over their bits.", "anchors": ["spffl/intmath/intmod_t.cpp: intmod_t::exp"]}
{"id": "C12", "title": "Modulus mismatch is always detected", "statement": "Every binary arithmetic or ordering operation on two modular integers with different moduli throws, and on equal moduli it never throws for that reason; equality on different moduli is false, and the equality relation is an equivalence relation that implies equal observable residues.", "quantifier": "all pairs of modular integers", "why_tests_cant": "Quantifies over all pairs of moduli.", "anchors": ["spffl/intmath/intmod_t.cpp: check_moduli", "spffl/intmath/intmod_t.cpp: operator=="]}
{"id": "C13", "title": "Rationals stay in lowest terms and compute exactly", "statement": "Every rational produced by construction or by +,-,*,/,exp has positive denominator coprime to its numerator and equals the mathematical rational result, for all operands for which the cross products fit in an int; zero denominators and division by zero throw.", "quantifier": "all operands", "why_tests_cant": "Normal-form invariants hold over every operation sequence.", "anchors": ["spffl/intmath/intrat_t.cpp"]}
{"id": "C14", "title": "Rational comparison agrees with the order of the rationals", "statement": "For rationals in lowest terms (with cross products in range), ==,!=,<,<=,>,>= decide exactly the order of the mathematical rationals, so they form a total order consistent with equality.", "quantifier": "all pairs", "why_tests_cant": "Transitivity/totality are claims on all triples.", "anchors": ["spffl/intmath/intrat_t.cpp: operator<"]}
{"id": "C15", "title": "The pseudo-DES hash is a permutation of 64-bit states", "statement": "Hashing a 64-bit pair is injective and onto: there is an inverse function that recovers the state from the output for every state; consequently a generator that hashes successive counter values never repeats a 64-bit output before the counter itself repeats, and the reseeded generator is a function of its state only.", "quantifier": "all 2^64 states", "why_tests_cant": "Injectivity over 2^64 states is not testable.", "anchors": ["spffl/bitrand/psdes.cpp: psdes_hash_64", "spffl/bitrand/psdes.cpp"]}
{"id": "C16", "title": "Bit vectors act as packed arrays of bits", "statement": "For every length, element read after element write returns the written bit at the same index and the old bit at other indices; out-of-range indices throw; vector +,-,* and dot product act per position exactly as GF(2) arithmetic at every position, including positions straddling word boundaries.", "quantifier": "all lengths, indices and contents", "why_tests_cant": "Packed layouts fail at word boundaries for particular lengths only.", "anchors": ["spffl/bits/bit_vector_t.cpp", "spffl/bits/bit_vector_t.h"]}
{"id": "C17", "title": "Bit vector equality means equality of all bits", "statement": "Two bit vectors of the same length compare equal iff they agree at every position; comparison with a scalar bit is true iff every position has that value.", "quantifier": "all pairs of vectors", "why_tests_cant": "Any missed word requires vectors that differ only there.", "anchors": ["spffl/bits/bit_vector_t.cpp: operator=="]}
{"id": "C18", "title": "Row reduction over GF(2) gives reduced row echelon form of the same row space", "statement": "For every bit matrix, row-echelon form terminates with a matrix in reduced row echelon form that has exactly the same row space, and the rank routine returns the dimension of that space.", "quantifier": "all matrix shapes and contents", "why_tests_cant": "2^(m*n) contents for each shape.", "anchors": ["spffl/bits/bit_matrix_t.cpp: row_echelon_form", "spffl/bits/bit_matrix_t.cpp: get_rank"]}
{"id": "C19", "title": "GF(2) kernel basis is a basis of the null space", "statement": "For every bit matrix the kernel routine returns false exactly when only the zero vector is annihilated; otherwise its rows are linearly independent, each is annihilated by the matrix, and every annihilated vector is a combination of them.", "quantifier": "all bit matrices", "why_tests_cant": "Completeness quantifies over every annihilated vector.", "anchors": ["spffl/bits/bit_matrix_t.cpp: get_kernel_basis"]}
{"id": "C20", "title": "GF(2) determinant and inverse", "statement": "For every square bit matrix the determinant routine returns the determinant; the inverse routine returns a two-sided inverse when the determinant is 1 and fails otherwise.", "quantifier": "all square bit matrices", "why_tests_cant": "All sizes and contents.", "anchors": ["spffl/bits/bit_matrix_t.cpp: det", "spffl/bits/bit_matrix_t.cpp: inverse", "spffl/bits/bit_matrix_t.cpp: paste"]}
{"id": "C21", "title": "Population count is exact", "statement": "For every byte string the one-bit counter returns the number of set bits.", "quantifier": "all byte strings", "why_tests_cant": "A 256-entry table must be right at each entry for all strings.", "anchors": ["spffl/bits/count_bits.cpp"]}
{"id": "C22", "title": "GF(2) polynomial addition and multiplication are ring operations", "statement": "For all polynomials of any degree (multi-word included) +, -, * compute the sum/difference/product of GF(2)[x], always leaving results in canonical (trimmed) form on which equality is bitwise equality, for all reachable operands; degree of a product is the sum of degrees.", "quantifier": "all polynomials", "why_tests_cant": "Carry-less multi-word shifts go wrong only at word-boundary alignments.", "anchors": ["spffl/polynomials/f2_poly_t.cpp: operator+", "spffl/polynomials/f2_poly_t.cpp: operator*"]}
{"id": "C23", "title": "GF(2) polynomial division identity", "statement": "For every dividend and every non-zero divisor, quotient and remainder satisfy a = q*b + r with r = 0 or deg r < deg b; division by zero throws; q and r are unique.", "quantifier": "all pairs of polynomials", "why_tests_cant": "Termination and identity over all degree pairs.", "anchors": ["spffl/polynomials/f2_poly_t.cpp: quot_and_rem"]}
{"id": "C24", "title": "GF(2) polynomial gcd and extended gcd", "statement": "For all polynomials (not both zero) gcd returns the greatest common divisor; extended gcd additionally returns s,t with s*a+t*b equal to it.", "quantifier": "all pairs", "why_tests_cant": "Induction over arbitrarily long Euclidean remainder sequences.", "anchors": ["spffl/polynomials/f2_poly_t.cpp: gcd", "spffl/polynomials/f2_poly_t.cpp: ext_gcd"]}
{"id": "C25", "title": "Polynomial text round trip", "statement": "Printing any GF(2) polynomial in hexadecimal and parsing the text gives the same polynomial back, for every degree.", "quantifier": "all polynomials", "why_tests_cant": "All degrees; leading-zero nibble handling differs per degree mod 64.", "anchors": ["spffl/polynomials/f2_poly_t.cpp: operator<<", "spffl/polynomials/f2_poly_t.cpp: from_string"]}
{"id": "C26", "title": "Polynomial power, derivative, square root, evaluation", "statement": "For every GF(2) polynomial, exp(e) with e>=0 is the e-th power, the derivative is the formal derivative, the square-root routine succeeds exactly on squares and returns the root, and evaluation at 0/1 agrees with evaluation of the polynomial.", "quantifier": "all polynomials and exponents", "why_tests_cant": "All degrees and exponents.", "anchors": ["spffl/polynomials/f2_poly_t.cpp: exp", "spffl/polynomials/f2_poly_t.cpp: deriv", "spffl/polynomials/f2_poly_t.cpp: square_root", "spffl/polynomials/f2_poly_t.cpp: eval"]}
{"id": "C27", "title": "GF(2)[x]/(m) is a commutative ring with exact reciprocals", "statement": "For every modulus of positive degree, residues stay reduced (degree below the modulus) under every operation and match the quotient-ring operations; the reciprocal succeeds iff the residue is coprime to the modulus and then is the inverse; division by a non-unit throws.", "quantifier": "all moduli and residues", "why_tests_cant": "Infinitely many moduli.", "anchors": ["spffl/polynomials/f2_polymod_t.cpp"]}
{"id": "C28", "title": "GF(2) polynomial factorization", "statement": "For every non-zero GF(2) polynomial factoring terminates and returns irreducible factors with positive multiplicities whose product is the input.", "quantifier": "all polynomials", "why_tests_cant": "Berlekamp splitting depends on the kernel for every input.", "anchors": ["spffl/factorization/f2_poly_factor.cpp: f2_poly_factor"]}
{"id": "C29", "title": "Irreducibility test and search", "statement": "For every GF(2) polynomial the irreducibility test answers true iff the polynomial has positive degree and no non-trivial factorization; the search for the lowest irreducible of degree d returns a polynomial of degree d that is irreducible and no smaller (in lexical order) polynomial of that degree is.", "quantifier": "all polynomials / all degrees", "why_tests_cant": "A universal statement over all potential factors.", "anchors": ["spffl/factorization/f2_poly_factor.cpp: f2_poly_is_irreducible", "spffl/factorization/f2_poly_factor.cpp: f2_poly_find_irreducible"]}
{"id": "C30", "title": "Polynomial totient counts units of the quotient ring", "statement": "For every GF(2) polynomial m of degree 1..30, the totient routine returns the number of residues modulo m that are invertible.", "quantifier": "all moduli", "why_tests_cant": "All moduli.", "anchors": ["spffl/factorization/f2_poly_factor.cpp: f2_totient"]}
{"id": "C31", "title": "Multiplicative order and primitivity", "statement": "For every unit residue modulo a GF(2) polynomial the order routine returns the least positive k with a^k = 1 and throws on non-units; the primitivity test is true iff the residue x generates the whole unit group of an irreducible modulus.", "quantifier": "all residues and moduli", "why_tests_cant": "Least-ness is a universal claim over exponents.", "anchors": ["spffl/units/f2_polymod_units.cpp: f2_polymod_order", "spffl/units/f2_polymod_units.cpp: f2_poly_is_primitive"]}
{"id": "C32", "title": "Discrete logarithms are inverse to exponentiation", "statement": "Whenever the discrete-log routine returns e for (g, a) then g^e = a, and it finds an answer whenever a is a power of g; otherwise it throws - both for integers mod p and GF(2)[x]/(m).", "quantifier": "all groups and elements", "why_tests_cant": "Baby-step/giant-step coverage is a statement about all exponents.", "anchors": ["spffl/units/fp_units.cpp: fp_log", "spffl/units/f2_polymod_units.cpp: f2_polymod_log"]}
{"id": "C33", "title": "F_p[x] ring operations", "statement": "For every prime p (p*p representable) and all polynomials over F_p, +, -, unary -, *, scalar operations compute the polynomial-ring results in canonical trimmed form without undefined behaviour.", "quantifier": "all primes and polynomials", "why_tests_cant": "All degrees; memory errors do not show as wrong values.", "anchors": ["spffl/polynomials/fp_poly_t.cpp"]}
{"id": "C34", "title": "F_p[x] division, gcd and extended gcd", "statement": "For every prime p, dividend and non-zero divisor, quotient and remainder satisfy the division identity with degree bound; gcd and extended gcd return a greatest common divisor and Bezout coefficients.", "quantifier": "all primes and polynomials", "why_tests_cant": "All degree pairs and leading coefficients.", "anchors": ["spffl/polynomials/fp_poly_t.cpp: quot_and_rem", "spffl/polynomials/fp_poly_t.cpp: gcd", "spffl/polynomials/fp_poly_t.cpp: ext_gcd"]}
{"id": "C35", "title": "F_p[x]/(m) residue ring operations", "statement": "For every modulus of positive degree, residues stay reduced and +,-,*,/, reciprocal, exponentiation, negation and scalar multiplication by a field element match the quotient ring.", "quantifier": "all moduli and residues", "why_tests_cant": "All moduli.", "anchors": ["spffl/polynomials/fp_polymod_t.cpp"]}
{"id": "C36", "title": "F_p[x] factorization", "statement": "For every non-zero polynomial over F_p factoring terminates and yields irreducible factors with positive multiplicities and a unit whose product is the input; the irreducibility test agrees with irreducibility.", "quantifier": "all primes and polynomials", "why_tests_cant": "All inputs.", "anchors": ["spffl/factorization/fp_poly_factor.cpp"]}
{"id": "C37", "title": "Order and generator in (Z/p)*", "statement": "For every modulus in range and every unit a, fp_order returns the least positive k with a^k=1; the generator search returns an element whose powers are all units whenever one exists.", "quantifier": "all moduli and units", "why_tests_cant": "Universal over exponents.", "anchors": ["spffl/units/fp_units.cpp: fp_order", "spffl/units/fp_units.cpp: fp_find_generator"]}
{"id": "C38", "title": "Matrix row reduction over any field", "statement": "For a matrix over any field, row-echelon form terminates with a reduced row echelon matrix with the same row space, and rank returns the dimension of the row space.", "quantifier": "all fields, shapes, contents", "why_tests_cant": "All matrices over infinitely many fields.", "anchors": ["spffl/containers/tmatrix.h: row_echelon_form", "spffl/containers/tmatrix.h: get_rank"]}
{"id": "C39", "title": "Matrix kernel basis over any field", "statement": "The kernel routine reports absence exactly when the null space is trivial; otherwise returned rows are a basis of the null space.", "quantifier": "all fields, matrices", "why_tests_cant": "Completeness over all vectors.", "anchors": ["spffl/containers/tmatrix.h: get_kernel_basis"]}
{"id": "C40", "title": "Matrix determinant, inverse and linear solve over any field", "statement": "For every square matrix the determinant routine equals the Leibniz determinant; the inverse exists iff it is non-zero, and then it is two-sided; solve returns the unique solution.", "quantifier": "all fields, square matrices", "why_tests_cant": "Sizes and contents.", "anchors": ["spffl/containers/tmatrix.h: det", "spffl/containers/tmatrix.h: inverse", "spffl/containers/tmatrix.h: solve_unique"]}
{"id": "C41", "title": "Factorization records are faithful multisets", "statement": "Inserting factors one at a time in any order yields a record with distinct factors, sorted when sorted insertion is used, multiplicities equal to the number of insertions, and multiplying it back out gives the product of everything inserted.", "quantifier": "all insertion histories", "why_tests_cant": "Every order of insertions.", "anchors": ["spffl/containers/tfacinfo.h"]}
{"id": "C42", "title": "Divisor enumeration is complete", "statement": "For every factorization record of distinct primes, the divisor list has one entry for each choice of exponents, exactly the divisors (up to unit) of the represented number, without repetition; maximal proper divisors are the number divided by each prime.", "quantifier": "all factorization records", "why_tests_cant": "Completeness for all multiplicity vectors.", "anchors": ["spffl/containers/tfacinfo.h: get_all_divisors", "spffl/containers/tfacinfo.h: get_maximal_proper_divisors"]}
{"id": "C43", "title": "Vector assignment copies", "statement": "After assigning one vector to another, the target equals the source and the source is unchanged, for all lengths and previous contents of the target, with no out-of-bounds write.", "quantifier": "all pairs of vectors", "why_tests_cant": "Heap overflow is invisible to value tests.", "anchors": ["spffl/containers/tvector.h: operator=", "spffl/bits/bit_vector_t.cpp: operator="]}
{"id": "C44", "title": "Stack is LIFO for every operation sequence", "statement": "Any sequence of push, pop and copy operations on the stack container behaves as on an unbounded mathematical stack; popping an empty one reports failure and changes nothing.", "quantifier": "all operation sequences", "why_tests_cant": "Histories of arbitrary length force reallocation.", "anchors": ["spffl/containers/tstack.h"]}
{"id": "C45", "title": "Tokenizer splits exactly at delimiters", "statement": "For every string and delimiter set, the tokens returned are exactly the maximal runs of non-delimiter characters in order, up to the capacity given, and counting tokens returns their number.", "quantifier": "all strings", "why_tests_cant": "All strings.", "anchors": ["spffl/base/tokenize.cpp"]}
{"id": "C46", "title": "Expression evaluator follows the documented grammar", "statement": "For every well-formed token sequence the command-line evaluator returns the value of the expression under the documented precedence and left associativity; malformed sequences are rejected without a value being printed; evaluation consumes every token and ends, returning or throwing.", "quantifier": "all expressions", "why_tests_cant": "Nested expressions of arbitrary depth.", "anchors": ["spffl/cli_parser/cmd_line_ops.h"]}
{"id": "C47", "title": "Element listings are complete and duplicate-free", "statement": "Listing all elements, the units or the non-units of Z/m or GF(2)[x]/(m), and all polynomials over GF(2) of a given degree, returns each such element exactly once, in increasing order, and nothing else.", "quantifier": "all moduli and degrees", "why_tests_cant": "All moduli.", "anchors": ["spffl/list/list_elements.cpp"]}
{"id": "C48", "title": "GF(2) rational functions stay reduced and compute exactly", "statement": "Every GF(2) rational function result is in lowest terms, represents the mathematical fraction, and equality of representations coincides with equality of fractions; zero denominators throw; powers with negative exponents are powers of the inverse. The comparison operators order rational functions.", "quantifier": "all operands", "why_tests_cant": "All operation sequences.", "anchors": ["spffl/rationals/f2_polyrat_t.cpp"]}
{"id": "C49", "title": "Companion matrix and characteristic polynomial", "statement": "Over GF(2), GF(p) and GF(2^n) the characteristic polynomial of a square matrix is det(xI - A), non-square matrices throw, and the companion matrix of a monic polynomial has that polynomial as its characteristic polynomial, and evaluating it at the matrix gives zero.", "quantifier": "all square matrices and all polynomials", "why_tests_cant": "All dimensions and degrees.", "anchors": ["spffl/linalg/f2_linear_algebra.cpp", "spffl/linalg/fp_linear_algebra.cpp", "spffl/linalg/f2_polymod_linear_algebra.cpp"]}
{"id": "C50", "title": "Minimal and characteristic polynomials of finite-field elements", "statement": "For an element of a finite field K[x]/(irreducible), K one of GF(2), GF(p), GF(2^n), the minimal polynomial routine returns the monic polynomial of least degree over K annihilating the element; the characteristic polynomial is its appropriate power, the characteristic polynomial of the multiplication by the element; the Frobenius length is the least number of applications of the |K|-th power map that fixes it, and is returned for every residue.", "quantifier": "all fields and elements", "why_tests_cant": "Minimality is a universal claim.", "anchors": ["spffl/linalg/min_char_polys.cpp"]}
{"id": "C51", "title": "Matrix arithmetic over any field", "statement": "For matrices of matching shapes over any field: sum, difference, negation, scalar multiple, transpose, product, matrix-vector product and integer powers (negative powers through the inverse) are the mathematical ones; pasting two matrices with equally many rows puts them side by side.", "quantifier": "all fields, shapes, contents and exponents", "why_tests_cant": "Shapes, contents and exponents are unbounded.", "anchors": ["spffl/containers/tmatrix.h: operator*", "spffl/containers/tmatrix.h: exp", "spffl/containers/tmatrix.h: paste"]}
{"id": "C52", "title": "Bit matrix arithmetic", "statement": "For bit matrices of matching shapes the sum, transpose, product, matrix-vector product, integer powers (negative powers through the inverse) and the outer product of two vectors are the mathematical ones over the field with two elements.", "quantifier": "all shapes, contents and exponents", "why_tests_cant": "Shapes, contents and exponents are unbounded.", "anchors": ["spffl/bits/bit_matrix_t.cpp: operator*", "spffl/bits/bit_matrix_t.cpp: exp", "spffl/bits/bit_matrix_t.cpp: outer"]}
{"id": "C53", "title": "Bits form the field with two elements", "statement": "Every bit built from an int has residue equal to the int modulo two, and stays 0 or 1 under every operation and assignment; sum, difference, negation, product, quotient and powers are those of the field with two elements, and division by zero throws.", "quantifier": "all ints, all pairs of bits, all exponents", "why_tests_cant": "Residues are stored in a byte, so a stray value shows only for particular ints.", "anchors": ["spffl/bits/bit_t.h"]}
{"id": "C54", "title": "GF(2) polynomial order and increment", "statement": "The comparison operators order GF(2) polynomials like the integers whose binary digits are the coefficients (decided at the highest coefficient where they differ), and increment moves to the next polynomial in that order, growing the representation when the top word overflows; so counting up from zero visits every polynomial exactly once.", "quantifier": "all polynomials", "why_tests_cant": "Carries across words occur at one polynomial in 2^64.", "anchors": ["spffl/polynomials/f2_poly_t.cpp: operator<", "spffl/polynomials/f2_poly_t.cpp: increment"]}
{"id": "C55", "title": "GF(2) polynomial coefficient access", "statement": "For every polynomial and every non-negative position, reading a coefficient gives the coefficient, setting a bit makes it one, setting a coefficient to a bit stores that bit, and no other coefficient changes; the result is in canonical form.", "quantifier": "all polynomials and positions", "why_tests_cant": "Positions are unbounded and the word arithmetic depends on the position within the word.", "anchors": ["spffl/polynomials/f2_poly_t.cpp: bit_at", "spffl/polynomials/f2_poly_t.cpp: set_bit", "spffl/polynomials/f2_poly_t.cpp: set_coeff"]}
{"id": "C56", "title": "Generator search in GF(2)[x]/(m)", "statement": "For every modulus of positive degree the generator search returns a unit whose powers are all units, the lowest such residue, whenever one exists, and reports failure otherwise.", "quantifier": "all moduli", "why_tests_cant": "Existence and minimality range over all residues and exponents.", "anchors": ["spffl/units/f2_polymod_units.cpp: f2_polymod_find_generator"]}
{"id": "C57", "title": "Period and search for primitive GF(2) polynomials", "statement": "The period of a polynomial m is the least k > 0 with x^k = 1 modulo m, or 0 when x is not invertible; the search returns the lowest primitive (and, when asked, irreducible) polynomial of the requested degree and throws for degrees below 1.", "quantifier": "all polynomials; all degrees", "why_tests_cant": "Minimality and existence range over all polynomials of a degree.", "anchors": ["spffl/units/f2_polymod_units.cpp: f2_poly_period", "spffl/units/f2_polymod_units.cpp: f2_poly_find_prim"]}
{"id": "C58", "title": "F_p[x] order, enumeration and integer encoding", "statement": "Comparing two polynomials over F_p compares their base-p values (coefficients as digits), equality being equality of polynomials; increment passes from any polynomial to the one with the next value, so repeated increments enumerate all polynomials in order; the conversion from a non-negative int gives the polynomial with that value.", "quantifier": "all primes p and polynomials; all non-negative ints", "why_tests_cant": "Order and enumeration concern all pairs and all carry chains.", "anchors": ["spffl/polynomials/fp_poly_t.cpp: cmp", "spffl/polynomials/fp_poly_t.cpp: increment", "spffl/polynomials/fp_poly_t.cpp: from_base_rep"]}
{"id": "C59", "title": "F_p[x] derivative, evaluation, coefficient access, p-th roots", "statement": "The derivative, the value at a point, coefficient reads and writes (any degree, result in canonical form), multiplication by x and the p-th root (returned exactly when one exists) agree with the polynomial ring over F_p.", "quantifier": "all primes p, polynomials, points and positions", "why_tests_cant": "All degrees and positions; canonical form after every write.", "anchors": ["spffl/polynomials/fp_poly_t.cpp: deriv", "spffl/polynomials/fp_poly_t.cpp: eval", "spffl/polynomials/fp_poly_t.cpp: set_coeff", "spffl/polynomials/fp_poly_t.cpp: pth_root", "spffl/polynomials/fp_poly_t.cpp: promote"]}
{"id": "C60", "title": "Search for irreducible polynomials over F_p", "statement": "For every prime p and positive degree d the search returns the lowest polynomial of degree d (in the order of the comparison operators) that is irreducible over F_p; it is monic. Degrees below 1 are rejected with an exception.", "quantifier": "all primes p and degrees", "why_tests_cant": "Existence and minimality range over all polynomials of a degree.", "anchors": ["spffl/factorization/fp_poly_factor.cpp: fp_poly_find_irr"]}
{"id": "C61", "title": "Totient of polynomials over F_p", "statement": "For every non-zero polynomial f over F_p whose totient fits in an int, the totient function returns the number of invertible residue classes modulo f.", "quantifier": "all primes p and polynomials f", "why_tests_cant": "Counts a set that grows exponentially with the degree.", "anchors": ["spffl/factorization/fp_poly_totient.cpp: fp_poly_totient"]}
{"id": "C62", "title": "GF(2^n)[x] is a ring in canonical form", "statement": "For every irreducible GF(2) modulus defining GF(2^n): sums, differences, products, negation and powers of polynomials over GF(2^n), and the constructors from field elements and ints, give the polynomial of that ring, in the one representation without leading zeros, so equal polynomials compare equal; mixing different fields throws; a negative power of a non-constant throws.", "quantifier": "all fields GF(2^n), polynomials and exponents", "why_tests_cant": "All field sizes and degrees; canonical form after cancellation.", "anchors": ["spffl/polynomials/f2n_poly_t.cpp: operator+", "spffl/polynomials/f2n_poly_t.cpp: operator*", "spffl/polynomials/f2n_poly_t.cpp: exp", "spffl/polynomials/f2n_poly_t.cpp: operator-"]}
{"id": "C63", "title": "GF(2^n)[x] division and gcd", "statement": "Quotient and remainder satisfy a = q b + r with deg r < deg b, division by zero throws, gcd is a greatest common divisor and the extended form returns Bezout coefficients for it.", "quantifier": "all fields GF(2^n), all pairs of polynomials", "why_tests_cant": "Termination and Bezout identities over all degrees and field sizes.", "anchors": ["spffl/polynomials/f2n_poly_t.cpp: quot_and_rem", "spffl/polynomials/f2n_poly_t.cpp: gcd", "spffl/polynomials/f2n_poly_t.cpp: ext_gcd"]}
{"id": "C64", "title": "GF(2^n)[x] order and enumeration", "statement": "The comparison operators order polynomials over GF(2^n) by the integer with the coefficients as base-2^n digits, a bijection with the naturals; increment goes to the next one.", "quantifier": "all fields GF(2^n), all polynomials", "why_tests_cant": "Carry chains of every length.", "anchors": ["spffl/polynomials/f2n_poly_t.cpp: cmp", "spffl/polynomials/f2n_poly_t.cpp: increment"]}
{"id": "C65", "title": "GF(2^n)[x] derivative, evaluation, coefficient access", "statement": "Derivative, value at a point, coefficient reads and writes at any position and multiplication by x are those of the polynomial ring, with the result in canonical form; a negative position throws.", "quantifier": "all fields GF(2^n), polynomials, points and positions", "why_tests_cant": "All degrees and positions; canonical form after every write.", "anchors": ["spffl/polynomials/f2n_poly_t.cpp: deriv", "spffl/polynomials/f2n_poly_t.cpp: eval", "spffl/polynomials/f2n_poly_t.cpp: set_coeff", "spffl/polynomials/f2n_poly_t.cpp: promote"]}
{"id": "C66", "title": "Square roots in GF(2^n)[x]", "statement": "The square root is returned exactly when the polynomial is a square, and its square is the polynomial.", "quantifier": "all fields GF(2^n), all polynomials", "why_tests_cant": "Every coefficient needs its own root in the field; all field sizes.", "anchors": ["spffl/polynomials/f2n_poly_t.cpp: square_root"]}
{"id": "C67", "title": "Residue classes of GF(2^n)[x]", "statement": "For every non-zero modulus m: construction reduces, +, -, *, /, %, unary minus, reciprocals (exactly for the residues coprime to m), integer multiples, powers with positive and negative exponents, equality and comparisons agree with GF(2^n)[x]/(m); mixing moduli throws; division by and negative powers of non-units throw.", "quantifier": "all fields GF(2^n), moduli, residues and exponents", "why_tests_cant": "All fields, moduli and exponents; unit structure.", "anchors": ["spffl/polynomials/f2n_polymod_t.cpp: operator*", "spffl/polynomials/f2n_polymod_t.cpp: recip", "spffl/polynomials/f2n_polymod_t.cpp: exp"]}
{"id": "C68", "title": "Factorization and roots over GF(2^n)", "statement": "Factoring a non-zero polynomial over GF(2^n) gives distinct monic irreducible factors with positive multiplicities and a leading coefficient whose product is the polynomial; the irreducibility test decides irreducibility; the root finder returns exactly the roots in GF(2^n).", "quantifier": "all fields GF(2^n), all non-zero polynomials", "why_tests_cant": "Irreducibility and termination over all polynomials and fields.", "anchors": ["spffl/factorization/f2n_poly_factor.cpp: f2n_poly_factor", "spffl/factorization/f2n_poly_factor.cpp: f2n_poly_is_irreducible", "spffl/factorization/f2n_poly_factor.cpp: f2n_poly_roots"]}
{"id": "C69", "title": "Search for irreducible polynomials over GF(2^n)", "statement": "For every field GF(2^n) and positive degree d the search returns the lowest irreducible polynomial of degree d; it is monic. Degrees below 1 throw.", "quantifier": "all fields GF(2^n) and degrees", "why_tests_cant": "Existence and minimality range over all polynomials of a degree.", "anchors": ["spffl/factorization/f2n_poly_factor.cpp: f2n_poly_find_irr"]}
{"id": "C70", "title": "Totient of polynomials over GF(2^n)", "statement": "For every non-zero polynomial f over GF(2^n) whose totient fits in an int, the totient function returns the number of invertible residue classes modulo f.", "quantifier": "all fields GF(2^n), all polynomials f", "why_tests_cant": "Counts a set that grows exponentially with n and the degree.", "anchors": ["spffl/factorization/f2n_poly_totient.cpp: f2n_poly_totient"]}
{"id": "C71", "title": "Orders and generators in GF(2^n)[x]/(m)", "statement": "The order of a unit is the least positive exponent giving 1, a non-unit throws; for an irreducible modulus the generator search returns the lowest residue whose powers are all the units; if no generator exists it reports failure.", "quantifier": "all fields GF(2^n), moduli and residues", "why_tests_cant": "Minimality over all exponents and residues.", "anchors": ["spffl/units/f2n_polymod_units.cpp: f2n_polymod_order", "spffl/units/f2n_polymod_units.cpp: f2n_polymod_find_generator"]}
{"id": "C72", "title": "Discrete logarithms in GF(2^n)[x]/(m)", "statement": "For a unit g the logarithm returns an e with g^e = a whenever one exists and throws otherwise; a non-unit base throws.", "quantifier": "all fields GF(2^n), moduli and pairs of residues", "why_tests_cant": "The search must cover the whole group, whose size grows exponentially.", "anchors": ["spffl/units/f2n_polymod_units.cpp: f2n_polymod_log"]}
{"id": "C73", "title": "Division-free determinants of polynomial matrices", "statement": "The determinant computed without division in the coefficient ring (polynomial entries over GF(2), GF(p), GF(2^n)) is the determinant; a non-square matrix throws.", "quantifier": "all square matrices of polynomials", "why_tests_cant": "The exact divisions must come out for every matrix; all dimensions and degrees.", "anchors": ["spffl/containers/tmatrix.h: ed_det", "spffl/containers/tmatrix.h: ed_row_reduce"]}
{"id": "C74", "title": "Minimal and characteristic polynomials as products of conjugates", "statement": "For an element a of GF(2^n) the two product routines return, with coefficients in GF(2^n), the minimal polynomial of a over GF(2) and its power of degree n.", "quantifier": "all fields GF(2^n) and elements", "why_tests_cant": "Minimality is a universal claim; all fields.", "anchors": ["spffl/linalg/f2_linear_algebra.cpp: f2_polymod_char_poly", "spffl/linalg/f2_linear_algebra.cpp: f2_polymod_min_poly"]}
{"id": "C75", "title": "Vectors and matrices from integers", "statement": "A vector or matrix built from an integer holds its base-p digits, the most significant first; empty ones throw.", "quantifier": "all integers, lengths and moduli", "why_tests_cant": "All values, including negative ones for GF(2).", "anchors": ["spffl/linalg/f2_linear_algebra.cpp: f2_vector_from_base_rep", "spffl/linalg/fp_linear_algebra.cpp: fp_vector_from_base_rep"]}
{"id": "C76", "title": "Rational functions over GF(p) and GF(2^n)", "statement": "Results of +, -, *, /, powers and unary minus are in lowest terms in a form that depends on the rational function only, represent the exact fraction, and == coincides with equality of fractions; zero denominators and division by zero throw; comparison compares the cross products and orders rational functions.", "quantifier": "all primes p, all fields GF(2^n), all operands and exponents", "why_tests_cant": "The constant factor left by the Euclidean algorithm must be the same for every way of computing a fraction; all operation sequences.", "anchors": ["spffl/rationals/fp_polyrat_t.cpp", "spffl/rationals/f2n_polyrat_t.cpp"]}
{"id": "C77", "title": "Listings over GF(p) and GF(2^n)", "statement": "Listing the polynomials of a given degree over GF(p) or GF(2^n) returns each exactly once in increasing order; listing all residues, the units or the non-units modulo m returns exactly the residues, those with an inverse modulo m, those without.", "quantifier": "all primes p, fields GF(2^n), degrees and moduli for which the number of elements is an int", "why_tests_cant": "Completeness is a claim about every residue; the number of residues grows exponentially.", "anchors": ["spffl/list/list_elements.cpp: fp_poly_list", "spffl/list/list_elements.cpp: f2n_poly_list", "spffl/list/list_elements.cpp: fp_polymod_list", "spffl/list/list_elements.cpp: f2n_polymod_list"]}
{"id": "C78", "title": "Listings of multiples and of residues prime to a residue", "statement": "Modulo m, the listing for a residue g returns exactly the residues that are multiples of g modulo m, respectively exactly those that have no common divisor with g and m, each once in increasing order; other listing types throw.", "quantifier": "all moduli (integers, polynomials over GF(2)) and residues", "why_tests_cant": "All moduli and residues, in particular zero divisors.", "anchors": ["spffl/list/list_elements.cpp: f2_polymod_glist", "spffl/list/list_elements.cpp: intmod_glist"]}
{"id": "C79", "title": "Listings of tuples and of projective points", "statement": "The affine listing returns all n-tuples of residues, each exactly once; for irreducible m the projective listing returns vectors of length n+1 whose last non-zero coordinate is 1, each once, such that every non-zero vector is a non-zero multiple of exactly one of them, in one way.", "quantifier": "all moduli over GF(2) and GF(p), all dimensions for which the counts fit", "why_tests_cant": "Every vector of every dimension.", "anchors": ["spffl/list/list_elements.cpp: f2_polymod_An_list", "spffl/list/list_elements.cpp: f2_polymod_Pn_list", "spffl/list/list_elements.cpp: fp_polymod_An_list", "spffl/list/list_elements.cpp: fp_polymod_Pn_list"]}
{"id": "C80", "title": "Polynomials over the rationals", "statement": "Unless an int operation overflows, sums, differences, products, quotients and remainders, greatest common divisors with Bezout coefficients, powers, derivatives, values, coefficient access and comparison of polynomials with rational coefficients are exact and in lowest terms; division by zero and negative powers throw.", "quantifier": "all rational polynomials, exponents and positions", "why_tests_cant": "Exact arithmetic over all degrees and coefficients; an overflow must never show up as a wrong coefficient.", "anchors": ["spffl/polynomials/q_poly_t.cpp: operator+", "spffl/polynomials/q_poly_t.cpp: operator*", "spffl/polynomials/q_poly_t.cpp: quot_and_rem", "spffl/polynomials/q_poly_t.cpp: gcd", "spffl/polynomials/q_poly_t.cpp: ext_gcd", "spffl/polynomials/q_poly_t.cpp: exp", "spffl/polynomials/q_poly_t.cpp: deriv", "spffl/polynomials/q_poly_t.cpp: eval"]}
{"id": "C81", "title": "Cyclotomic polynomials", "statement": "Unless an int operation overflows, the n-th cyclotomic polynomial returned is the one determined by: the product over the divisors d of n is x^n - 1; whatever calls were made before; n < 1 throws and the internal-error exception is never thrown.", "quantifier": "all n and all histories of calls (states of the table of remembered results)", "why_tests_cant": "The table is hidden state: every order of calls; every n.", "anchors": ["spffl/q_cyclotomic/cyclo_poly.cpp: get_cyclo_qpoly"]}
{"id": "C82", "title": "Reduction of rational polynomials to finite fields", "statement": "Reducing a rational number or polynomial to GF(2), GF(p) or GF(2^n) maps each coefficient a/b to a * b^-1 and throws exactly when the characteristic divides a denominator; the cyclotomic polynomials over these fields are the images of the integral ones.", "quantifier": "all primes p, fields GF(2^n), rational polynomials, n", "why_tests_cant": "All coefficients and degrees; degrees from 32 up behave differently from those below.", "anchors": ["spffl/q_cyclotomic/qff.cpp: bit_from_rat", "spffl/q_cyclotomic/qff.cpp: intmod_from_rat", "spffl/q_cyclotomic/qff.cpp: f2_poly_from_q_poly", "spffl/q_cyclotomic/qff.cpp: fp_poly_from_qpoly", "spffl/q_cyclotomic/qff.cpp: f2n_poly_from_qpoly", "spffl/q_cyclotomic/cyclo_poly.cpp: get_cyclo_f2_poly"]}
{"id": "C83", "title": "Change of modulus between presentations of finite fields", "statement": "Given a generator g1 of the field GF(2)[x]/(m1) and an irreducible m2, the preparation succeeds exactly when deg m1 divides deg m2 and returns the smallest root g2 of the minimal polynomial of g1; converting elements, polynomials and matrices from (m1, g1) to (m2, g2) is then a homomorphism of fields with g1 going to g2, and converting back between fields of equal size is the identity. Elements that are not powers of g1 or have another modulus are refused.", "quantifier": "all pairs of irreducible moduli, generators, elements, polynomials and matrices", "why_tests_cant": "A homomorphism law quantifies over all pairs of elements of all fields.", "anchors": ["spffl/linalg/f2_polymod_convert.cpp: f2_polymod_convert_prep", "spffl/linalg/f2_polymod_convert.cpp: f2_polymod_convert_scalar", "spffl/linalg/f2_polymod_convert.cpp: f2_polymod_convert_poly", "spffl/linalg/f2_polymod_convert.cpp: f2_polymod_convert_matrix"]}
{"id": "C84", "title": "Random elements and random searches", "statement": "A random polynomial of degree d has exactly degree d, and its lower coefficients are one draw each: over GF(2) every polynomial of degree d, and every residue class of a modulus, comes from exactly one pattern of drawn bits; over GF(p) and GF(2^n) the leading coefficient is replaced by 1 if the draw is zero. The random searches return the first candidate that passes, so that the result has the requested degree, is irreducible (monic over GF(p) and GF(2^n)) or has x as a generator of the units, and every irreducible polynomial over GF(2) except x can be returned; they never throw for degrees from 1 on. Degrees that are too small throw.", "quantifier": "all sources of random words and their states, all degrees, all primes p and fields GF(2^n), any number of attempts", "why_tests_cant": "Tests see one stream of random numbers; the claims are about all of them.", "anchors": ["spffl/random/f2_poly_random.cpp: f2_poly_random", "spffl/random/f2_polymod_random.cpp: f2_polymod_random", "spffl/random/intmod_random.cpp: intmod_random", "spffl/random/fp_poly_random.cpp: fp_poly_random", "spffl/random/f2n_poly_random.cpp: f2n_poly_random", "spffl/factorization/f2_poly_factor.cpp: f2_poly_random_irreducible", "spffl/factorization/fp_poly_factor.cpp: fp_poly_random_irr", "spffl/factorization/f2n_poly_factor.cpp: f2n_poly_random_irr", "spffl/units/f2_polymod_units.cpp: f2_poly_random_prim"]}
{"id": "C85", "title": "Polynomials over GF(p^n)", "statement": "For p prime and an irreducible modulus over GF(p), sums, differences, products, unary minus, quotients and remainders, greatest common divisors with Bezout coefficients, powers, values, coefficient access and comparison of polynomials over GF(p^n) are exact and canonical; division by zero, negative powers and negative positions throw.", "quantifier": "all primes p, all extension fields GF(p^n), all polynomials", "why_tests_cant": "Every field and every degree; the coefficients are themselves polynomials modulo a polynomial.", "anchors": ["spffl/polynomials/fpn_poly_t.cpp: operator+", "spffl/polynomials/fpn_poly_t.cpp: operator-", "spffl/polynomials/fpn_poly_t.cpp: operator*", "spffl/polynomials/fpn_poly_t.cpp: quot_and_rem", "spffl/polynomials/fpn_poly_t.cpp: gcd", "spffl/polynomials/fpn_poly_t.cpp: ext_gcd", "spffl/polynomials/fpn_poly_t.cpp: exp", "spffl/polynomials/fpn_poly_t.cpp: eval"]}
{"id": "C86", "title": "Derivatives, integer multiples and p-th roots over GF(p^n)", "statement": "The derivative of a polynomial over GF(p^n), its product with an element of the prime field and the p-th root of a p-th power are the mathematical ones; a polynomial that is not a p-th power has no root.", "quantifier": "all primes p, all extension fields GF(p^n), all polynomials and scalars", "why_tests_cant": "Every degree and every scalar; the defect needs a degree of at least two or a scalar other than one to show.", "anchors": ["spffl/polynomials/fpn_poly_t.cpp: deriv", "spffl/polynomials/fpn_poly_t.cpp: operator*", "spffl/polynomials/fpn_poly_t.cpp: pth_root"]}
{"id": "C87", "title": "Residue classes of polynomials over GF(p^n)", "statement": "For every non-zero modulus m over GF(p^n), the objects for two polynomials are the same exactly if m divides their difference; +, -, *, unary minus, integer multiples and non-negative powers are those of the quotient ring; a reciprocal exists exactly for polynomials prime to m, and then quotients and negative powers are right, otherwise they throw; operations on different moduli and a zero modulus throw.", "quantifier": "all primes p, extension fields GF(p^n), moduli, residues and exponents", "why_tests_cant": "All moduli, reducible and non-monic included, and all exponents.", "anchors": ["spffl/polynomials/fpn_polymod_t.cpp: operator+", "spffl/polynomials/fpn_polymod_t.cpp: operator-", "spffl/polynomials/fpn_polymod_t.cpp: operator*", "spffl/polynomials/fpn_polymod_t.cpp: operator/", "spffl/polynomials/fpn_polymod_t.cpp: operator%", "spffl/polynomials/fpn_polymod_t.cpp: recip", "spffl/polynomials/fpn_polymod_t.cpp: exp", "spffl/polynomials/fpn_polymod_t.cpp: prime_subfield_element"]}
{"id": "C88", "title": "Diagonalizability of matrices over GF(2^n)", "statement": "The diagonalizability test answers true exactly if the square matrix is similar to a diagonal matrix over some field that contains GF(2^n), equivalently if its minimal polynomial has no repeated roots. The field it reports is one in which the characteristic polynomial splits into linear factors, its degree divides that of every other such extension, and the eigenvalues it reports are all the eigenvalues, each once. A matrix plus or minus a scalar changes the diagonal only. Non-square matrices are rejected.", "quantifier": "all fields GF(2^n), all square matrices, all splitting degrees within the limit of the search for generators", "why_tests_cant": "The claim is about all matrices and about all extension fields; the method compares nullities with multiplicities over an extension built on the way.", "anchors": ["spffl/linalg/f2_polymod_linear_algebra.cpp: f2_polymod_matrix_is_diagonalizable", "spffl/containers/tmatrix.h: operator+", "spffl/containers/tmatrix.h: operator-"]}
{"id": "C89", "title": "Bracketed commands on the command line", "statement": "A command line with { ... } groups is accepted exactly if the brackets balance; an unbalanced one is rejected before anything is run. Each outermost group is replaced, from left to right, by the words that its command writes, and everything else is kept in order; nested groups are handed to the inner command unchanged. The words of the output are its pieces between blanks, tabs and newlines. Without brackets nothing changes.", "quantifier": "all argument lists, all programs behind the shell and their outputs", "why_tests_cant": "All nestings, all outputs of arbitrary programs, and the sizes of the buffers.", "anchors": ["spffl/cli_parser/cmd_interp.cpp: cmd_interpolate", "spffl/cli_parser/cmd_interp.cpp: cmd_interpolate_once", "spffl/cli_parser/cmd_interp.cpp: replace", "spffl/cli_parser/cmd_interp.cpp: flatten", "spffl/cli_parser/cmd_interp.cpp: check_balance", "spffl/cli_parser/cmd_interp.cpp: find_matching_right_bracket"]}
{"id": "C90", "title": "Vector and matrix expressions on the command line", "statement": "The vector and the matrix evaluator accept exactly the expressions of their grammars, with the usual precedence, operators of one level grouping to the left. A vector expression gives, component by component, the value of the expression in the integers modulo m; operands of different lengths are never accepted. A matrix expression modulo a prime gives the matrix, scalar or integer that the expression denotes (sums, products, powers, inverse, determinant, rank, transpose, echelon forms, kernel basis, comparisons), or is rejected when it denotes nothing; it never ends otherwise. Operands are read from texts of numbers in brackets; ragged rows are rejected.", "quantifier": "all argument lists, all moduli up to 46341, all vectors and matrices of every size", "why_tests_cant": "All expressions of a grammar, all sizes, and the sizes of the buffers behind the stack.", "anchors": ["spffl/cli_parser/cmd_line_vector_ops.h: cmd_line_vec_parse", "spffl/cli_parser/cmd_line_matrix_ops.h: cmd_line_mat_parse", "spffl/containers/tvector.h: bracket_in", "spffl/containers/tmatrix.h: bracket_in", "spffl/containers/tstack.h: push"]}
{"id": "C91", "title": "Vectors and matrices as text", "statement": "A vector or matrix that is printed and read back is the same object, also when several matrices follow each other in one text with an empty line between them. Reading a matrix skips leading blank lines and comments, takes one row per line with any spaces around the numbers, stops at the next blank line and leaves the text after it. Rows of different lengths, lines that are not numbers, overlong lines and empty texts put the stream into a failed state. A file name as operand of a matrix expression stands for the matrix in the file. No file makes the program misbehave.", "quantifier": "all element types whose texts can be read back, all matrices that fit the line buffers, all texts", "why_tests_cant": "All texts and sizes; the accumulated indentation only matters after 65534 lines, and the lost last line is silent.", "anchors": ["spffl/containers/tmatrix.h: operator>>", "spffl/containers/tmatrix.h: operator<<", "spffl/containers/tmatrix.h: load_from_file", "spffl/containers/tvector.h: operator>>", "spffl/containers/tvector.h: operator<<", "spffl/bits/bit_vector_t.cpp: operator>>", "spffl/bits/bit_matrix_t.cpp: operator>>", "spffl/base/line_scan.cpp: is_whitespace_line"]}
{"id": "C92", "title": "Polynomials and residue classes as text", "statement": "Polynomials over GF(p), GF(2^n), GF(p^n) and residue classes of them are printed as their coefficients from the highest degree down, and what is printed is read back as the same object, by from_string and from a stream, which is left right behind it. Any list of coefficients with the separators of the format is read as the polynomial with these coefficients; a text with something else in place of a coefficient is refused. The same holds for polynomials with rational coefficients. No text makes the program misbehave.", "quantifier": "all primes p up to 46341, all fields GF(2^n) and GF(p^n), all polynomials, moduli and texts", "why_tests_cant": "All texts and all degrees; the released coefficients and the failed stream at the end of a text do not show in ordinary use.", "anchors": ["spffl/polynomials/fp_poly_t.cpp: from_string, operator<<, operator>>", "spffl/polynomials/f2n_poly_t.cpp: from_string, operator<<, operator>>", "spffl/polynomials/fpn_poly_t.cpp: from_string, operator<<, operator>>", "spffl/polynomials/q_poly_t.cpp: from_string, operator<<, operator>>", "spffl/polynomials/fp_polymod_t.cpp: from_string, operator<<, operator>>", "spffl/polynomials/f2n_polymod_t.cpp: from_string, operator<<, operator>>", "spffl/polynomials/fpn_polymod_t.cpp: from_string, operator<<, operator>>", "spffl/base/tokenize.cpp: tokenize"]}
{"id": "C93", "title": "Rational numbers and rational functions as text", "statement": "A rational number or a rational function over GF(2), GF(p), GF(2^n) is printed as numerator, slash, denominator (no slash if the denominator is one) and is read back as the same object. Any numerator and denominator in this form, with blanks before each, are read as the quotient in lowest terms; a zero denominator throws. A text that does not start with a number is refused.", "quantifier": "all fractions of ints, all rational functions over GF(2), GF(p), GF(2^n), all texts", "why_tests_cant": "All texts and all degrees.", "anchors": ["spffl/intmath/intrat_t.cpp: operator<<, operator>>, from_string", "spffl/rationals/fp_polyrat_t.cpp: operator<<, operator>>, from_string", "spffl/rationals/f2_polyrat_t.cpp: operator<<, operator>>, from_string", "spffl/rationals/f2n_polyrat_t.cpp: operator<<, operator>>, from_string"]}
{"id": "C94", "title": "The integer commands of spiff", "statement": "spiff z_gcd prints the greatest common divisor of its arguments and, with -e, Bezout's identity; z_lcm the least common multiple; z_totient, z_test_prime, z_factor, z_divisors (all divisors, or the maximal proper ones) and the command for primes by number print, one line for each argument and in order, the totient, whether it is prime, the prime powers in increasing order, the divisors in increasing order, the primes with the given numbers; z_list prints an arithmetic progression. The exit status is 0. Arguments that are no numbers lead to the usage message and status 1.", "quantifier": "all argument lists whose values are in the ranges stated, any number of arguments", "why_tests_cant": "All arguments and any number of them; overflow in the last step of a loop or in a check does not show in ordinary use.", "anchors": ["cli/spiff/z_handlers.cpp: z_gcd_main, z_lcm_main, z_totient_main, z_test_prime_main, nth_prime_main, z_list_main, z_factor_main, z_divisors_main", "spffl/containers/tfacinfo.h: operator<<"]}
{"id": "C95", "title": "The commands of spiff on residues", "statement": "spiff fp_list prints the residues modulo m, its units, the others, the multiples of an element, or those prime to it, in increasing order; fp_tbl the tables of sums, differences, products, quotients, logarithms and powers; fp_ord orders; fp_max_ord the largest order; fp_orbit the multiples of an element by the powers of a unit, and refuses other elements; fp_find_gen the least generator of the units or that there is none; fp_log logarithms; fp_random residues of successive random words.", "quantifier": "all moduli up to 46341 (2^31-1 for lists and random elements), all elements, any number of arguments, all sources of random words", "why_tests_cant": "All moduli; the wrong gcd only shows for arguments that are not coprime and not both even.", "anchors": ["cli/spiff/fp_handlers.cpp: fp_list_main, fp_tbl_main, fp_ord_main, fp_max_ord_main, fp_orbit_main, fp_find_gen_main, fp_log_main, fp_random_main"]}
{"id": "C96", "title": "Choice of the command and exit status of spiff", "statement": "spiff with a listed command name runs its handler on the remaining arguments, prints what the handler prints, and its exit status is 0 exactly on success; -l lists all names, each once; without a command the status is 1; an unknown command is an error.", "quantifier": "all argument lists, all handlers", "why_tests_cant": "All names that are not listed, all handlers.", "anchors": ["cli/spiff/spiff_main.cpp: main, try_main"]}
{"id": "C97", "title": "The commands of spiff on polynomials over GF(2)", "statement": "spiff f2_p_deg, f2_p_gcd, f2_p_lcm, f2_p_totient, f2_p_test, f2_p_period, f2_p_factor, f2_p_divisors, f2_p_eval, f2_p_comp_mx, f2_p_list, f2_p_find and f2_p_random print the degrees, a gcd (with -e a Bezout identity), a least common multiple, the numbers of units, whether the arguments are irreducible or primitive, the periods of x, the factorisations into irreducibles, all divisors or the maximal proper ones in ascending order, the values at bits, the companion matrix, all polynomials of given degrees in ascending order, the lowest (or a random) irreducible or primitive polynomial of each degree, and random polynomials of a degree; printed polynomials read back as arguments mean the same; bad arguments give exit status 1 and an operation without result is an error.", "quantifier": "all arguments (degree up to 15 for periods, 30 where units are counted or divisors listed, otherwise up to 2^31-65), any number of them, all sources of random bits", "why_tests_cant": "All polynomials; the reader, the arithmetic and the printer are composed, and the self-checks of the commands only run on the arguments tried.", "anchors": ["cli/spiff/f2_poly_handlers.cpp: f2_p_deg_main, f2_p_gcd_main, f2_p_lcm_main, f2_p_totient_main, f2_p_test_main, f2_p_find_main, f2_p_period_main, f2_p_factor_main, f2_p_divisors_main, f2_p_eval_main, f2_p_comp_mx_main, f2_p_list_main, f2_p_random_main"]}
{"id": "C98", "title": "The commands of spiff on polynomials over GF(p)", "statement": "spiff fp_p_deg, fp_p_gcd, fp_p_lcm, fp_p_totient, fp_p_test, fp_p_factor, fp_p_divisors, fp_p_eval, fp_p_comp_mx, fp_p_list, fp_p_find and fp_p_random, given a prime p and texts of polynomials, print the degrees, a greatest common divisor (with -e a Bezout identity), a least common multiple, the numbers of units, whether the arguments are irreducible, the leading coefficient and the monic irreducible factors with their exponents in ascending order, all monic divisors or the maximal proper ones in ascending order, the values at residues, the companion matrix, all polynomials of given degrees in ascending order, the lowest (or a random) monic irreducible polynomial of each degree, and random polynomials; printed polynomials read back as arguments mean the same; a refused text leads to exit status 1 after the lines of the arguments before it.", "quantifier": "all primes up to 46341, all polynomials (degree up to 30 where divisors are listed, p^(2 deg) within int where units are counted or polynomials listed), any number of arguments, all sources of random words", "why_tests_cant": "All primes and polynomials; the reader, the arithmetic and the printer are composed.", "anchors": ["cli/spiff/fp_poly_handlers.cpp: fp_p_deg_main, fp_p_gcd_main, fp_p_lcm_main, fp_p_totient_main, fp_p_test_main, fp_p_find_main, fp_p_factor_main, fp_p_divisors_main, fp_p_eval_main, fp_p_comp_mx_main, fp_p_list_main, fp_p_random_main"]}
{"id": "C99", "title": "The commands of spiff on polynomials over GF(2^n)", "statement": "spiff f2n_p_deg, f2n_p_gcd, f2n_p_lcm, f2n_p_totient, f2n_p_test, f2n_p_factor, f2n_p_divisors, f2n_p_eval, f2n_p_comp_mx, f2n_p_list, f2n_p_find and f2n_p_random, given an irreducible polynomial m over GF(2) in hexadecimal and polynomials over GF(2)[x]/(m) as hexadecimal numbers with colons between, print the degrees, a greatest common divisor (with -e a Bezout identity), a least common multiple, the numbers of units, whether the arguments are irreducible, the leading coefficient and the monic irreducible factors with their exponents in ascending order, all monic divisors or the maximal proper ones, the values at field elements, the companion matrix, all polynomials of given degrees in ascending order, the lowest (or a random) monic irreducible polynomial of each degree, and random polynomials; printed polynomials and elements read back as arguments mean the same; a refused text leads to exit status 1 after the lines of the arguments before it.", "quantifier": "all irreducible m (of degree up to 30 where factors are needed), all polynomials, any number of arguments, all sources of random words", "why_tests_cant": "All moduli and polynomials; the reader, the arithmetic and the printer are composed.", "anchors": ["cli/spiff/f2n_poly_handlers.cpp: f2n_p_deg_main, f2n_p_gcd_main, f2n_p_lcm_main, f2n_p_totient_main, f2n_p_test_main, f2n_p_find_main, f2n_p_factor_main, f2n_p_divisors_main, f2n_p_eval_main, f2n_p_comp_mx_main, f2n_p_list_main, f2n_p_random_main"]}
{"id": "C100", "title": "The commands of spiff on residue classes of polynomials over GF(2)", "statement": "For a polynomial m over GF(2): a residue modulo m is printed as the hexadecimal number of its bits with as many digits as the residues modulo m need, two residues have the same text exactly if they are congruent, and reading the text back gives the residue. f2_pm_list prints each residue (all, invertible, not invertible, multiples of one, prime to one) exactly once in increasing order; f2_pm_tbl prints for all pairs of residues the sum, difference, product, for all pairs of units the product and the quotient, or for all units the logarithm, or the powers of a generator; f2_pm_ord prints the least positive exponent giving 1; f2_pm_find_gen the lowest generator of the units; f2_pm_log an exponent; f2_pm_ch_pol and f2_pm_min_pol the characteristic and the minimal polynomial; f2_pm_convert the images under one field homomorphism, the same for all arguments; f2_pm_random residues, each equally often over the patterns of random bits. Arguments may be any representatives of the classes. The exit status is 0 exactly if the results asked for were printed.", "quantifier": "for all moduli, texts of them and of polynomials, all numbers of arguments, all correct sorting functions and all sources of random words, while the degrees are in the stated range; what happens outside is stated too", "why_tests_cant": "Tests run a few commands; the property is about all moduli, all representatives of a class and about the exit status in the error cases.", "anchors": ["cli/spiff/f2_polymod_handlers.cpp: f2_pm_list_main, f2_pm_tbl_main, f2_pm_ord_main, f2_pm_find_gen_main, f2_pm_log_main, f2_pm_ch_pol_main, f2_pm_min_pol_main, f2_pm_convert_main, f2_pm_random_main", "spffl/polynomials/f2_polymod_t.cpp: operator<<, from_string", "cli/spiff/spiff_main.cpp: main"]}
{"id": "C101", "title": "The commands of spiff on residue classes of polynomials over GF(p)", "statement": "For a prime p and a polynomial m over GF(p) that is not 0: a residue modulo m is printed as its coefficients below the degree of m, the highest first, with zeros in front; two residues have the same text exactly if they are congruent, and reading the text back gives the residue. fp_pm_list prints each residue (all, invertible, not invertible) exactly once in increasing order; fp_pm_tbl prints for all pairs of residues the sum, difference and product, for all pairs of units the product and the quotient, and offers no other table; fp_pm_ord prints the least positive exponent giving 1 if there is one, and 0 otherwise; fp_pm_ch_pol and fp_pm_min_pol the characteristic and the minimal polynomial of each argument; fp_pm_random residues made of successive random words. Wrong numbers of arguments and unreadable texts end with exit status 1.", "quantifier": "for all primes up to 46341, all moduli, all texts of them and of polynomials, all numbers of arguments and all sources of random words, while sizes are in the stated range; what happens outside is stated too", "why_tests_cant": "Tests run a few commands; the property is about all primes, moduli and representatives of a class and about the exit status in the error cases.", "anchors": ["cli/spiff/fp_polymod_handlers.cpp: fp_pm_list_main, fp_pm_tbl_main, fp_pm_ord_main, fp_pm_ch_pol_main, fp_pm_min_pol_main, fp_pm_random_main", "spffl/polynomials/fp_polymod_t.cpp: operator<<, from_string", "cli/spiff/spiff_main.cpp: main"]}
{"id": "C102", "title": "The commands of spiff on residue classes of polynomials over GF(2^n)", "statement": "For a field GF(2^n) given by an irreducible polynomial b over GF(2), and a polynomial m over it that is not 0: a residue modulo m is printed as its coefficients below the degree of m in hexadecimal, the highest first, with zeros in front; two residues have the same text exactly if they are congruent, and reading the text back gives the residue. f2n_pm_list prints each residue (all, invertible, not invertible) exactly once in increasing order; f2n_pm_tbl the sums, differences, products and quotients of all pairs, and the tables of logarithms and powers to a given base or to the least generator; f2n_pm_ord prints the least positive exponent giving 1; f2n_pm_log an exponent giving the argument; f2n_pm_find_gen the least generator of the units; f2n_pm_ch_pol and f2n_pm_min_pol the characteristic and the minimal polynomial of each argument; f2n_pm_random residues made of successive random words. Wrong numbers of arguments and unreadable texts end with exit status 1.", "quantifier": "for all irreducible b, all moduli m, all texts of them and of polynomials, all numbers of arguments, all sorting routines that sort and all sources of random words, while sizes are in the stated range; what happens outside is stated too", "why_tests_cant": "Tests run a few commands over one field; the property is about all fields, moduli and representatives of a class and about the exit status in the error cases.", "anchors": ["cli/spiff/f2n_polymod_handlers.cpp: f2n_pm_list_main, f2n_pm_tbl_main, f2n_pm_ord_main, f2n_pm_find_gen_main, f2n_pm_log_main, f2n_pm_ch_pol_main, f2n_pm_min_pol_main, f2n_pm_random_main", "spffl/polynomials/f2n_polymod_t.cpp: operator<<, from_string", "cli/spiff/spiff_main.cpp: main"]}
{"id": "C103", "title": "The commands of spiff that reduce polynomials with integer coefficients", "statement": "f2_p_qp, fp_p_qp and f2n_p_qp read polynomials with integer coefficients, the leading coefficient first, with commas between or one digit each, and print for each, on a line, its reduction to GF(2), modulo the prime p, or to GF(2^n), as these commands print polynomials; every coefficient is reduced, negative ones too. The first text that is refused ends the command with exit status 1, after the lines of the ones before; so do missing arguments and an unreadable modulus.", "quantifier": "for all integer polynomials with int coefficients, all texts of them, all primes up to 46341, all fields GF(2^n) and all numbers of arguments", "why_tests_cant": "Tests reduce a few polynomials; the property is about all texts and coefficients, and about leading coefficients that vanish, which a test would have to aim at.", "anchors": ["cli/spiff/f2_poly_handlers.cpp: f2_p_qp_main", "cli/spiff/fp_poly_handlers.cpp: fp_p_qp_main", "cli/spiff/f2n_poly_handlers.cpp: f2n_p_qp_main", "spffl/q_cyclotomic/qff.cpp: f2_poly_from_q_poly, fp_poly_from_qpoly, f2n_poly_from_qpoly", "spffl/polynomials/q_poly_t.cpp: from_string"]}
{"id": "C104", "title": "Cyclotomic polynomials, random bits and GF(p^n) on the command line; the program gcd", "statement": "spiff q_cyclotomic prints, for each number n from 1 on, the coefficients of the n-th cyclotomic polynomial, the leading one first, with commas between, on a line, whatever numbers came before. f2_random prints the lowest bit of each of the next random words, one on a line, as many as asked for (one by default). For a field GF(p^n) given by p and an irreducible polynomial, fpn_p_gcd prints a greatest common divisor of two polynomials, with -e also a linear combination of them equal to it, and fpn_p_qp the reduction of each polynomial with integer coefficients; the texts printed mean, as arguments, the polynomials printed. The program gcd prints the greatest common divisor of its two arguments. Wrong numbers of arguments and unreadable texts end with exit status 1, after the lines of the arguments before.", "quantifier": "for all numbers and texts of them, all primes up to 46341, all irreducible polynomials over GF(p), all polynomials over GF(p^n), all integer polynomials, all numbers of arguments and all sources of random words", "why_tests_cant": "Tests run a few commands; the property is about all fields, all texts of a polynomial and all sequences of arguments, which share a table of remembered results.", "anchors": ["cli/spiff/q_handlers.cpp: q_cyclo_main", "cli/spiff/f2_handlers.cpp: f2_random_main", "cli/spiff/fpn_poly_handlers.cpp: fpn_p_gcd_main, fpn_p_qp_main", "spffl/q_cyclotomic/qff.cpp: fpn_poly_from_qpoly", "spffl/q_cyclotomic/cyclo_poly.cpp: get_cyclo_qpoly", "cli/gcd/cli_gcd.cpp: main"]}
{"id": "C105", "title": "The order of a matrix on the command line", "statement": "spiff fp_mat_ord reads a square matrix modulo the prime p from standard input (blank and comment lines, rows of numerals, then a blank line or the end) and prints the order of the matrix, the least positive k such that its k-th power is the identity, and 0 if it is not invertible; the text that spiff prints for a matrix is read as that matrix. The command always finishes. A matrix that is not square, a missing matrix, a bad modulus and a wrong number of arguments end with a non-zero exit status and nothing is printed.", "quantifier": "for all primes up to 46341, all texts of matrices of all sizes, all texts of the modulus and all numbers of arguments", "why_tests_cant": "Tests compute the orders of a few matrices; that the search ends at the least exponent, and for every invertible matrix, is about all matrices.", "anchors": ["cli/spiff/fp_handlers.cpp: fp_mat_ord_main", "spffl/containers/tmatrix.h: operator==, operator*=, make_I, det, operator>>", "spffl/containers/tvector.h: operator==", "cli/spiff/spiff_main.cpp: main"]}
{"id": "C106", "title": "Characteristic polynomials and random matrices on the command line", "statement": "spiff fp_mat_ch_pol reads a matrix modulo the prime p from a file, or from standard input for - and @, and prints its characteristic polynomial; a file that cannot be opened, has no rows or rows of different lengths ends with exit status 1 and nothing printed. fp_mat_random prints a matrix of the given dimensions, a line for each row, whose entries are the residues modulo the given number of the next random words in turn. A wrong number of arguments and unreadable numbers end with exit status 1; impossible moduli, dimensions and a matrix that is not square with a non-zero exit status.", "quantifier": "for all primes up to 46341, all matrices of all sizes and all texts of them, all files, all moduli and dimensions of a random matrix and all sources of random words", "why_tests_cant": "Tests run a few commands; the property is about all matrices and all texts that stand for them, and about the exit status in the error cases.", "anchors": ["cli/spiff/fp_handlers.cpp: fp_mat_ch_pol_main, fp_mat_random_main", "spffl/containers/tmatrix.h: load_from_file, operator<<, operator>>", "spffl/linalg/fp_linear_algebra.cpp: fp_char_poly", "spffl/random/intmod_random.cpp: intmod_random", "cli/spiff/spiff_main.cpp: main"]}
{"id": "C107", "title": "Bit matrices on the command line", "statement": "spiff f2_mat_ord reads a square matrix of bits from standard input (blank and comment lines, rows of numbers that stand for their last bits, then a blank line or the end) and prints its order, the least positive k such that its k-th power is the identity, and 0 if it is not invertible. f2_mat_ch_pol reads such a matrix from a file, or from standard input for - and @, and prints its characteristic polynomial over GF(2) in hexadecimal; a file that cannot be opened, has no rows or rows of different lengths ends with exit status 1. f2_mat_random prints a matrix of the given dimensions, a line for each row, whose entries are the lowest bits of the next random words in turn. The text printed for a matrix is read as that matrix. A wrong number of arguments, unreadable numbers, a missing matrix, a matrix that is not square and dimensions below 1 end with a non-zero exit status and nothing is printed.", "quantifier": "for all bit matrices of all sizes and all texts of them, all files, all dimensions of a random matrix, all sources of random words and all numbers of arguments", "why_tests_cant": "Tests run a few commands; the property is about all matrices and all texts that stand for them, and about the exit status in the error cases.", "anchors": ["cli/spiff/f2_handlers.cpp: f2_mat_ord_main, f2_mat_ch_pol_main, f2_mat_random_main", "spffl/bits/bit_t.cpp: operator<<, operator>>", "spffl/containers/tmatrix.h: load_from_file, operator<<, operator>>, operator==, det", "spffl/linalg/f2_linear_algebra.cpp: f2_char_poly", "cli/spiff/spiff_main.cpp: main"]}
