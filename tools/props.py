# Generates /verif/properties.jsonl. Run: python3 tools/props.py
import json, os
P = []
def p(id, title, statement, quantifier, why, anchors):
    P.append(dict(id=id, title=title, statement=statement, quantifier=quantifier, why_tests_cant=why, anchors=anchors))

I="spffl/intmath/"; B="spffl/bits/"; Y="spffl/polynomials/"; F="spffl/factorization/"; U="spffl/units/"; C="spffl/containers/"; L="spffl/linalg/"

p("C01","Integer gcd is the greatest common divisor",
  "For any two ints whose absolute values are representable, the gcd routine terminates, executes no undefined arithmetic, and returns a value that divides both inputs and is divisible by every common divisor; the value is non-negative whenever both inputs are non-zero (or the sole non-zero one is positive), and the only zero result is gcd(0,0).",
  "all pairs of int arguments", "2^64 argument pairs, and termination of the Euclidean loop is a claim about all of them.",
  [I+"int_gcd.cpp: int_gcd"])
p("C02","Extended gcd returns Bezout coefficients",
  "For all positive ints a, b the extended gcd routine returns (g, m, n) with g = gcd(a,b) and a*m + b*n = g, with no intermediate overflow; the arguments for which it instead divides by zero are exactly characterised.",
  "all pairs of int arguments","Bezout identities must hold for each of 2^62 pairs and the no-overflow claim concerns intermediate values that tests cannot observe.",
  [I+"int_gcd.cpp: int_ext_gcd", I+"int_gcd.cpp: int_lcm"])
p("C03","Integer square root brackets its argument",
  "For every non-negative int n the floor square root returns the unique r with r^2 <= n < (r+1)^2, the ceiling square root returns the least r with r^2 >= n, both without signed overflow and in a bounded number of iterations; negative arguments are rejected.",
  "all int arguments","Off-by-one and overflow show up only at isolated perfect squares near 2^31.",
  [I+"int_sqrt.cpp"])
p("C04","Integer power equals the mathematical power",
  "For every base and every non-negative exponent e such that base^e fits in an int, the power routine returns base^e without undefined behaviour (signed overflow).",
  "all int bases and exponents","The overflow of the discarded final squaring does not change test-visible values.",
  [I+"int_power.cpp: int_power"])
p("C05","Integer totient counts units",
  "For every n >= 2 the totient routine returns the number of residues modulo n that are invertible; for n = 1 the mathematical value is 1.",
  "all positive int arguments","Must hold for every modulus.",
  [I+"int_totient.cpp: int_totient"])
p("C06","Primality test is exact",
  "For every int n other than the most negative one, is_prime(n) is true iff |n| is a prime number, whether the trial division or the table path is used; the two paths agree on every argument; nth_prime(k) is the k-th prime.",
  "all int arguments","2^32 arguments; agreement depends on completeness of a 6542-entry table.",
  [I+"is_prime.cpp", I+"primes_16.cpp"])
p("C07","Integer factorization is correct and complete",
  "For every int n with |n| < 2^31 and n not 0, factoring returns a unit (+1/-1) and strictly increasing prime factors with positive multiplicities whose product with the unit is n, for every n, including those with a prime factor above 2^16.",
  "all non-zero ints","Every n must be covered; primes beyond the table are reached only for large cofactors.",
  [F+"int_factor.cpp: int_factor", C+"tfacinfo.h"])
p("C08","Bit-position and logarithm helpers are exact",
  "For all 32- and 64-bit words: the most significant bit routine returns floor(log2 x) for x>0, the least significant bit routine returns the 2-adic valuation for x>0, floor/ceil log2 are exact for x>0 within the documented range, and the decimal logarithm returns floor(log10 n) for n>0.",
  "all words","2^64 inputs; table-driven bisections fail on single nibbles.",
  [I+"log2.cpp", I+"log10.cpp"])
p("C09","Modular integer arithmetic is arithmetic in Z/m",
  "For every modulus 1 <= m <= 46341 and all residues, +, -, unary -, * and the int-operand variants return a canonical residue in [0,m) congruent to the mathematical result, with no signed overflow, so all commutative-ring laws hold; above the bound the exact overflow condition of multiplication is exhibited.",
  "all moduli, all residues","Ring laws quantify over three residues and all moduli.",
  [I+"intmod_t.cpp: intmod_t::operator+", I+"intmod_t.cpp: intmod_t::operator*", I+"intmod_t.cpp: intmod_t::intmod_t"])
p("C10","Modular reciprocal succeeds exactly on units, whatever was called before",
  "For every modulus m >= 2 (m <= 46341) the reciprocal of a succeeds iff gcd(a,m)=1 and then returns the inverse; the outcome does not depend on which moduli were used in earlier calls, although the routine keeps a static one-entry cache; division a/b satisfies (a/b)*b = a when it succeeds and throws otherwise.",
  "all call histories, all moduli and residues","The cache makes the result a function of the whole call history.",
  [I+"intmod_t.cpp: intmod_t::recip", I+"intmod_t.cpp: intmod_t::operator/"])
p("C11","Modular exponentiation is exact for every exponent",
  "For every canonical residue a mod m (m<=46341) and every int exponent e, exp(e) is a^e when e>0, the e-th power of the inverse when e<0 and a is a unit, one when e=0 and a is non-zero, and an exception when (a=0 and e<=0) or when the inverse does not exist or e is the most negative int.",
  "all residues, moduli and exponents","Correctness for all exponents is an induction over their bits.",
  [I+"intmod_t.cpp: intmod_t::exp"])
p("C12","Modulus mismatch is always detected",
  "Every binary arithmetic or ordering operation on two modular integers with different moduli throws, and on equal moduli it never throws for that reason; equality on different moduli is false, and the equality relation is an equivalence relation that implies equal observable residues.",
  "all pairs of modular integers","Quantifies over all pairs of moduli.",
  [I+"intmod_t.cpp: check_moduli", I+"intmod_t.cpp: operator=="])
p("C13","Rationals stay in lowest terms and compute exactly",
  "Every rational produced by construction or by +,-,*,/,exp has positive denominator coprime to its numerator and equals the mathematical rational result, for all operands for which the cross products fit in an int; zero denominators and division by zero throw.",
  "all operands","Normal-form invariants hold over every operation sequence.",
  [I+"intrat_t.cpp"])
p("C14","Rational comparison agrees with the order of the rationals",
  "For rationals in lowest terms (with cross products in range), ==,!=,<,<=,>,>= decide exactly the order of the mathematical rationals, so they form a total order consistent with equality.",
  "all pairs","Transitivity/totality are claims on all triples.",
  [I+"intrat_t.cpp: operator<"])
p("C15","The pseudo-DES hash is a permutation of 64-bit states",
  "Hashing a 64-bit pair is injective and onto: there is an inverse function that recovers the state from the output for every state; consequently a generator that hashes successive counter values never repeats a 64-bit output before the counter itself repeats, and the reseeded generator is a function of its state only.",
  "all 2^64 states","Injectivity over 2^64 states is not testable.",
  ["spffl/bitrand/psdes.cpp: psdes_hash_64", "spffl/bitrand/psdes.cpp"])
p("C16","Bit vectors act as packed arrays of bits",
  "For every length, element read after element write returns the written bit at the same index and the old bit at other indices; out-of-range indices throw; vector +,-,* and dot product act per position exactly as GF(2) arithmetic at every position, including positions straddling word boundaries.",
  "all lengths, indices and contents","Packed layouts fail at word boundaries for particular lengths only.",
  [B+"bit_vector_t.cpp", B+"bit_vector_t.h"])
p("C17","Bit vector equality means equality of all bits",
  "Two bit vectors of the same length compare equal iff they agree at every position; comparison with a scalar bit is true iff every position has that value.",
  "all pairs of vectors","Any missed word requires vectors that differ only there.",
  [B+"bit_vector_t.cpp: operator=="])
p("C18","Row reduction over GF(2) gives reduced row echelon form of the same row space",
  "For every bit matrix, row-echelon form terminates with a matrix in reduced row echelon form that has exactly the same row space, and the rank routine returns the dimension of that space.",
  "all matrix shapes and contents","2^(m*n) contents for each shape.",
  [B+"bit_matrix_t.cpp: row_echelon_form", B+"bit_matrix_t.cpp: get_rank"])
p("C19","GF(2) kernel basis is a basis of the null space",
  "For every bit matrix the kernel routine returns false exactly when only the zero vector is annihilated; otherwise its rows are linearly independent, each is annihilated by the matrix, and every annihilated vector is a combination of them.",
  "all bit matrices","Completeness quantifies over every annihilated vector.",
  [B+"bit_matrix_t.cpp: get_kernel_basis"])
p("C20","GF(2) determinant and inverse",
  "For every square bit matrix the determinant routine returns the determinant; the inverse routine returns a two-sided inverse when the determinant is 1 and fails otherwise.",
  "all square bit matrices","All sizes and contents.",
  [B+"bit_matrix_t.cpp: det", B+"bit_matrix_t.cpp: inverse", B+"bit_matrix_t.cpp: paste"])
p("C21","Population count is exact",
  "For every byte string the one-bit counter returns the number of set bits.",
  "all byte strings","A 256-entry table must be right at each entry for all strings.",
  [B+"count_bits.cpp"])
p("C22","GF(2) polynomial addition and multiplication are ring operations",
  "For all polynomials of any degree (multi-word included) +, -, * compute the sum/difference/product of GF(2)[x], always leaving results in canonical (trimmed) form on which equality is bitwise equality, for all reachable operands; degree of a product is the sum of degrees.",
  "all polynomials","Carry-less multi-word shifts go wrong only at word-boundary alignments.",
  [Y+"f2_poly_t.cpp: operator+", Y+"f2_poly_t.cpp: operator*"])
p("C23","GF(2) polynomial division identity",
  "For every dividend and every non-zero divisor, quotient and remainder satisfy a = q*b + r with r = 0 or deg r < deg b; division by zero throws; q and r are unique.",
  "all pairs of polynomials","Termination and identity over all degree pairs.",
  [Y+"f2_poly_t.cpp: quot_and_rem"])
p("C24","GF(2) polynomial gcd and extended gcd",
  "For all polynomials (not both zero) gcd returns the greatest common divisor; extended gcd additionally returns s,t with s*a+t*b equal to it.",
  "all pairs","Induction over arbitrarily long Euclidean remainder sequences.",
  [Y+"f2_poly_t.cpp: gcd", Y+"f2_poly_t.cpp: ext_gcd"])
p("C25","Polynomial text round trip",
  "Printing any GF(2) polynomial in hexadecimal and parsing the text gives the same polynomial back, for every degree.",
  "all polynomials","All degrees; leading-zero nibble handling differs per degree mod 64.",
  [Y+"f2_poly_t.cpp: operator<<", Y+"f2_poly_t.cpp: from_string"])
p("C26","Polynomial power, derivative, square root, evaluation",
  "For every GF(2) polynomial, exp(e) with e>=0 is the e-th power, the derivative is the formal derivative, the square-root routine succeeds exactly on squares and returns the root, and evaluation at 0/1 agrees with evaluation of the polynomial.",
  "all polynomials and exponents","All degrees and exponents.",
  [Y+"f2_poly_t.cpp: exp", Y+"f2_poly_t.cpp: deriv", Y+"f2_poly_t.cpp: square_root", Y+"f2_poly_t.cpp: eval"])
p("C27","GF(2)[x]/(m) is a commutative ring with exact reciprocals",
  "For every modulus of positive degree, residues stay reduced (degree below the modulus) under every operation and match the quotient-ring operations; the reciprocal succeeds iff the residue is coprime to the modulus and then is the inverse; division by a non-unit throws.",
  "all moduli and residues","Infinitely many moduli.",
  [Y+"f2_polymod_t.cpp"])
p("C28","GF(2) polynomial factorization",
  "For every non-zero GF(2) polynomial factoring terminates and returns irreducible factors with positive multiplicities whose product is the input.",
  "all polynomials","Berlekamp splitting depends on the kernel for every input.",
  [F+"f2_poly_factor.cpp: f2_poly_factor"])
p("C29","Irreducibility test and search",
  "For every GF(2) polynomial the irreducibility test answers true iff the polynomial has positive degree and no non-trivial factorization; the search for the lowest irreducible of degree d returns a polynomial of degree d that is irreducible and no smaller (in lexical order) polynomial of that degree is.",
  "all polynomials / all degrees","A universal statement over all potential factors.",
  [F+"f2_poly_factor.cpp: f2_poly_is_irreducible", F+"f2_poly_factor.cpp: f2_poly_find_irreducible"])
p("C30","Polynomial totient counts units of the quotient ring",
  "For every GF(2) polynomial m of degree 1..30, the totient routine returns the number of residues modulo m that are invertible.",
  "all moduli","All moduli.",
  [F+"f2_poly_factor.cpp: f2_totient"])
p("C31","Multiplicative order and primitivity",
  "For every unit residue modulo a GF(2) polynomial the order routine returns the least positive k with a^k = 1 and throws on non-units; the primitivity test is true iff the residue x generates the whole unit group of an irreducible modulus.",
  "all residues and moduli","Least-ness is a universal claim over exponents.",
  [U+"f2_polymod_units.cpp: f2_polymod_order", U+"f2_polymod_units.cpp: f2_poly_is_primitive"])
p("C32","Discrete logarithms are inverse to exponentiation",
  "Whenever the discrete-log routine returns e for (g, a) then g^e = a, and it finds an answer whenever a is a power of g; otherwise it throws - both for integers mod p and GF(2)[x]/(m).",
  "all groups and elements","Baby-step/giant-step coverage is a statement about all exponents.",
  [U+"fp_units.cpp: fp_log", U+"f2_polymod_units.cpp: f2_polymod_log"])
p("C33","F_p[x] ring operations",
  "For every prime p (p*p representable) and all polynomials over F_p, +, -, unary -, *, scalar operations compute the polynomial-ring results in canonical trimmed form without undefined behaviour.",
  "all primes and polynomials","All degrees; memory errors do not show as wrong values.",
  [Y+"fp_poly_t.cpp"])
p("C34","F_p[x] division, gcd and extended gcd",
  "For every prime p, dividend and non-zero divisor, quotient and remainder satisfy the division identity with degree bound; gcd and extended gcd return a greatest common divisor and Bezout coefficients.",
  "all primes and polynomials","All degree pairs and leading coefficients.",
  [Y+"fp_poly_t.cpp: quot_and_rem", Y+"fp_poly_t.cpp: gcd", Y+"fp_poly_t.cpp: ext_gcd"])
p("C35","F_p[x]/(m) residue ring operations",
  "For every modulus of positive degree, residues stay reduced and +,-,*,/, reciprocal, exponentiation, negation and scalar multiplication by a field element match the quotient ring.",
  "all moduli and residues","All moduli.",
  [Y+"fp_polymod_t.cpp"])
p("C36","F_p[x] factorization",
  "For every non-zero polynomial over F_p factoring terminates and yields irreducible factors with positive multiplicities and a unit whose product is the input; the irreducibility test agrees with irreducibility.",
  "all primes and polynomials","All inputs.",
  [F+"fp_poly_factor.cpp"])
p("C37","Order and generator in (Z/p)*",
  "For every modulus in range and every unit a, fp_order returns the least positive k with a^k=1; the generator search returns an element whose powers are all units whenever one exists.",
  "all moduli and units","Universal over exponents.",
  [U+"fp_units.cpp: fp_order", U+"fp_units.cpp: fp_find_generator"])
p("C38","Matrix row reduction over any field",
  "For a matrix over any field, row-echelon form terminates with a reduced row echelon matrix with the same row space, and rank returns the dimension of the row space.",
  "all fields, shapes, contents","All matrices over infinitely many fields.",
  [C+"tmatrix.h: row_echelon_form", C+"tmatrix.h: get_rank"])
p("C39","Matrix kernel basis over any field",
  "The kernel routine reports absence exactly when the null space is trivial; otherwise returned rows are a basis of the null space.",
  "all fields, matrices","Completeness over all vectors.",
  [C+"tmatrix.h: get_kernel_basis"])
p("C40","Matrix determinant, inverse and linear solve over any field",
  "For every square matrix the determinant routine equals the Leibniz determinant; the inverse exists iff it is non-zero, and then it is two-sided; solve returns the unique solution.",
  "all fields, square matrices","Sizes and contents.",
  [C+"tmatrix.h: det", C+"tmatrix.h: inverse", C+"tmatrix.h: solve_unique"])
p("C41","Factorization records are faithful multisets",
  "Inserting factors one at a time in any order yields a record with distinct factors, sorted when sorted insertion is used, multiplicities equal to the number of insertions, and multiplying it back out gives the product of everything inserted.",
  "all insertion histories","Every order of insertions.",
  [C+"tfacinfo.h"])
p("C42","Divisor enumeration is complete",
  "For every factorization record of distinct primes, the divisor list has one entry for each choice of exponents, exactly the divisors (up to unit) of the represented number, without repetition; maximal proper divisors are the number divided by each prime.",
  "all factorization records","Completeness for all multiplicity vectors.",
  [C+"tfacinfo.h: get_all_divisors", C+"tfacinfo.h: get_maximal_proper_divisors"])
p("C43","Vector assignment copies",
  "After assigning one vector to another, the target equals the source and the source is unchanged, for all lengths and previous contents of the target, with no out-of-bounds write.",
  "all pairs of vectors","Heap overflow is invisible to value tests.",
  [C+"tvector.h: operator=", B+"bit_vector_t.cpp: operator="])
p("C44","Stack is LIFO for every operation sequence",
  "Any sequence of push, pop and copy operations on the stack container behaves as on an unbounded mathematical stack; popping an empty one reports failure and changes nothing.",
  "all operation sequences","Histories of arbitrary length force reallocation.",
  [C+"tstack.h"])
p("C45","Tokenizer splits exactly at delimiters",
  "For every string and delimiter set, the tokens returned are exactly the maximal runs of non-delimiter characters in order, up to the capacity given, and counting tokens returns their number.",
  "all strings","All strings.",
  ["spffl/base/tokenize.cpp"])
p("C46","Expression evaluator follows the documented grammar",
  "For every well-formed token sequence the command-line evaluator returns the value of the expression under the documented precedence and left associativity; malformed sequences are rejected without a value being printed; evaluation consumes every token and ends, returning or throwing.",
  "all expressions","Nested expressions of arbitrary depth.",
  ["spffl/cli_parser/cmd_line_ops.h"])
p("C47","Element listings are complete and duplicate-free",
  "Listing all elements, the units or the non-units of Z/m or GF(2)[x]/(m), and all polynomials over GF(2) of a given degree, returns each such element exactly once, in increasing order, and nothing else.",
  "all moduli and degrees","All moduli.",
  ["spffl/list/list_elements.cpp"])
p("C48","GF(2) rational functions stay reduced and compute exactly",
  "Every GF(2) rational function result is in lowest terms, represents the mathematical fraction, and equality of representations coincides with equality of fractions; zero denominators throw; powers with negative exponents are powers of the inverse. The comparison operators order rational functions.",
  "all operands","All operation sequences.",
  ["spffl/rationals/f2_polyrat_t.cpp"])
p("C49","Companion matrix and characteristic polynomial",
  "Over GF(2), GF(p) and GF(2^n) the characteristic polynomial of a square matrix is det(xI - A), non-square matrices throw, and the companion matrix of a monic polynomial has that polynomial as its characteristic polynomial, and evaluating it at the matrix gives zero.",
  "all square matrices and all polynomials","All dimensions and degrees.",
  [L+"f2_linear_algebra.cpp", L+"fp_linear_algebra.cpp", L+"f2_polymod_linear_algebra.cpp"])
p("C50","Minimal and characteristic polynomials of finite-field elements",
  "For an element of a finite field K[x]/(irreducible), K one of GF(2), GF(p), GF(2^n), the minimal polynomial routine returns the monic polynomial of least degree over K annihilating the element; the characteristic polynomial is its appropriate power, the characteristic polynomial of the multiplication by the element; the Frobenius length is the least number of applications of the |K|-th power map that fixes it, and is returned for every residue.",
  "all fields and elements","Minimality is a universal claim.",
  [L+"min_char_polys.cpp"])

# Appended as the model grows:
exec(open(os.path.join(os.path.dirname(__file__),"props_more.py")).read()) if os.path.exists(os.path.join(os.path.dirname(__file__),"props_more.py")) else None
with open(os.path.join(os.path.dirname(__file__),"..","properties.jsonl"),"w") as f:
    for x in P: f.write(json.dumps(x)+"\n")
