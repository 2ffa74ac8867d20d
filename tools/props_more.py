p("C51","Matrix arithmetic over any field",
  "For matrices of matching shapes over any field: sum, difference, negation, scalar multiple, transpose, product, matrix-vector product and integer powers (negative powers through the inverse) are the mathematical ones; pasting two matrices with equally many rows puts them side by side.",
  "all fields, shapes, contents and exponents","Shapes, contents and exponents are unbounded.",
  [C+"tmatrix.h: operator*", C+"tmatrix.h: exp", C+"tmatrix.h: paste"])
p("C52","Bit matrix arithmetic",
  "For bit matrices of matching shapes the sum, transpose, product, matrix-vector product, integer powers (negative powers through the inverse) and the outer product of two vectors are the mathematical ones over the field with two elements.",
  "all shapes, contents and exponents","Shapes, contents and exponents are unbounded.",
  ["spffl/bits/bit_matrix_t.cpp: operator*", "spffl/bits/bit_matrix_t.cpp: exp", "spffl/bits/bit_matrix_t.cpp: outer"])
p("C53","Bits form the field with two elements",
  "Every bit built from an int has residue equal to the int modulo two, and stays 0 or 1 under every operation and assignment; sum, difference, negation, product, quotient and powers are those of the field with two elements, and division by zero throws.",
  "all ints, all pairs of bits, all exponents","Residues are stored in a byte, so a stray value shows only for particular ints.",
  ["spffl/bits/bit_t.h"])
p("C54","GF(2) polynomial order and increment",
  "The comparison operators order GF(2) polynomials like the integers whose binary digits are the coefficients (decided at the highest coefficient where they differ), and increment moves to the next polynomial in that order, growing the representation when the top word overflows; so counting up from zero visits every polynomial exactly once.",
  "all polynomials","Carries across words occur at one polynomial in 2^64.",
  ["spffl/polynomials/f2_poly_t.cpp: operator<", "spffl/polynomials/f2_poly_t.cpp: increment"])
p("C55","GF(2) polynomial coefficient access",
  "For every polynomial and every non-negative position, reading a coefficient gives the coefficient, setting a bit makes it one, setting a coefficient to a bit stores that bit, and no other coefficient changes; the result is in canonical form.",
  "all polynomials and positions","Positions are unbounded and the word arithmetic depends on the position within the word.",
  ["spffl/polynomials/f2_poly_t.cpp: bit_at", "spffl/polynomials/f2_poly_t.cpp: set_bit", "spffl/polynomials/f2_poly_t.cpp: set_coeff"])
p("C56","Generator search in GF(2)[x]/(m)",
  "For every modulus of positive degree the generator search returns a unit whose powers are all units, the lowest such residue, whenever one exists, and reports failure otherwise.",
  "all moduli","Existence and minimality range over all residues and exponents.",
  [U+"f2_polymod_units.cpp: f2_polymod_find_generator"])
p("C57","Period and search for primitive GF(2) polynomials",
  "The period of a polynomial m is the least k > 0 with x^k = 1 modulo m, or 0 when x is not invertible; the search returns the lowest primitive (and, when asked, irreducible) polynomial of the requested degree and throws for degrees below 1.",
  "all polynomials; all degrees","Minimality and existence range over all polynomials of a degree.",
  [U+"f2_polymod_units.cpp: f2_poly_period", U+"f2_polymod_units.cpp: f2_poly_find_prim"])
p("C58","F_p[x] order, enumeration and integer encoding",
  "Comparing two polynomials over F_p compares their base-p values (coefficients as digits), equality being equality of polynomials; increment passes from any polynomial to the one with the next value, so repeated increments enumerate all polynomials in order; the conversion from a non-negative int gives the polynomial with that value.",
  "all primes p and polynomials; all non-negative ints","Order and enumeration concern all pairs and all carry chains.",
  ["spffl/polynomials/fp_poly_t.cpp: cmp", "spffl/polynomials/fp_poly_t.cpp: increment", "spffl/polynomials/fp_poly_t.cpp: from_base_rep"])
p("C59","F_p[x] derivative, evaluation, coefficient access, p-th roots",
  "The derivative, the value at a point, coefficient reads and writes (any degree, result in canonical form), multiplication by x and the p-th root (returned exactly when one exists) agree with the polynomial ring over F_p.",
  "all primes p, polynomials, points and positions","All degrees and positions; canonical form after every write.",
  ["spffl/polynomials/fp_poly_t.cpp: deriv", "spffl/polynomials/fp_poly_t.cpp: eval", "spffl/polynomials/fp_poly_t.cpp: set_coeff", "spffl/polynomials/fp_poly_t.cpp: pth_root", "spffl/polynomials/fp_poly_t.cpp: promote"])
p("C60","Search for irreducible polynomials over F_p",
  "For every prime p and positive degree d the search returns the lowest polynomial of degree d (in the order of the comparison operators) that is irreducible over F_p; it is monic. Degrees below 1 are rejected with an exception.",
  "all primes p and degrees","Existence and minimality range over all polynomials of a degree.",
  ["spffl/factorization/fp_poly_factor.cpp: fp_poly_find_irr"])
p("C61","Totient of polynomials over F_p",
  "For every non-zero polynomial f over F_p whose totient fits in an int, the totient function returns the number of invertible residue classes modulo f.",
  "all primes p and polynomials f","Counts a set that grows exponentially with the degree.",
  ["spffl/factorization/fp_poly_totient.cpp: fp_poly_totient"])
P2="spffl/polynomials/"; F2N="spffl/factorization/"
p("C62","GF(2^n)[x] is a ring in canonical form",
  "For every irreducible GF(2) modulus defining GF(2^n): sums, differences, products, negation and powers of polynomials over GF(2^n), and the constructors from field elements and ints, give the polynomial of that ring, in the one representation without leading zeros, so equal polynomials compare equal; mixing different fields throws; a negative power of a non-constant throws.",
  "all fields GF(2^n), polynomials and exponents","All field sizes and degrees; canonical form after cancellation.",
  [P2+"f2n_poly_t.cpp: operator+", P2+"f2n_poly_t.cpp: operator*", P2+"f2n_poly_t.cpp: exp", P2+"f2n_poly_t.cpp: operator-"])
p("C63","GF(2^n)[x] division and gcd",
  "Quotient and remainder satisfy a = q b + r with deg r < deg b, division by zero throws, gcd is a greatest common divisor and the extended form returns Bezout coefficients for it.",
  "all fields GF(2^n), all pairs of polynomials","Termination and Bezout identities over all degrees and field sizes.",
  [P2+"f2n_poly_t.cpp: quot_and_rem", P2+"f2n_poly_t.cpp: gcd", P2+"f2n_poly_t.cpp: ext_gcd"])
p("C64","GF(2^n)[x] order and enumeration",
  "The comparison operators order polynomials over GF(2^n) by the integer with the coefficients as base-2^n digits, a bijection with the naturals; increment goes to the next one.",
  "all fields GF(2^n), all polynomials","Carry chains of every length.",
  [P2+"f2n_poly_t.cpp: cmp", P2+"f2n_poly_t.cpp: increment"])
p("C65","GF(2^n)[x] derivative, evaluation, coefficient access",
  "Derivative, value at a point, coefficient reads and writes at any position and multiplication by x are those of the polynomial ring, with the result in canonical form; a negative position throws.",
  "all fields GF(2^n), polynomials, points and positions","All degrees and positions; canonical form after every write.",
  [P2+"f2n_poly_t.cpp: deriv", P2+"f2n_poly_t.cpp: eval", P2+"f2n_poly_t.cpp: set_coeff", P2+"f2n_poly_t.cpp: promote"])
p("C66","Square roots in GF(2^n)[x]",
  "The square root is returned exactly when the polynomial is a square, and its square is the polynomial.",
  "all fields GF(2^n), all polynomials","Every coefficient needs its own root in the field; all field sizes.",
  [P2+"f2n_poly_t.cpp: square_root"])
p("C67","Residue classes of GF(2^n)[x]",
  "For every non-zero modulus m: construction reduces, +, -, *, /, %, unary minus, reciprocals (exactly for the residues coprime to m), integer multiples, powers with positive and negative exponents, equality and comparisons agree with GF(2^n)[x]/(m); mixing moduli throws; division by and negative powers of non-units throw.",
  "all fields GF(2^n), moduli, residues and exponents","All fields, moduli and exponents; unit structure.",
  [P2+"f2n_polymod_t.cpp: operator*", P2+"f2n_polymod_t.cpp: recip", P2+"f2n_polymod_t.cpp: exp"])
p("C68","Factorization and roots over GF(2^n)",
  "Factoring a non-zero polynomial over GF(2^n) gives distinct monic irreducible factors with positive multiplicities and a leading coefficient whose product is the polynomial; the irreducibility test decides irreducibility; the root finder returns exactly the roots in GF(2^n).",
  "all fields GF(2^n), all non-zero polynomials","Irreducibility and termination over all polynomials and fields.",
  [F2N+"f2n_poly_factor.cpp: f2n_poly_factor", F2N+"f2n_poly_factor.cpp: f2n_poly_is_irreducible", F2N+"f2n_poly_factor.cpp: f2n_poly_roots"])
p("C69","Search for irreducible polynomials over GF(2^n)",
  "For every field GF(2^n) and positive degree d the search returns the lowest irreducible polynomial of degree d; it is monic. Degrees below 1 throw.",
  "all fields GF(2^n) and degrees","Existence and minimality range over all polynomials of a degree.",
  [F2N+"f2n_poly_factor.cpp: f2n_poly_find_irr"])
p("C70","Totient of polynomials over GF(2^n)",
  "For every non-zero polynomial f over GF(2^n) whose totient fits in an int, the totient function returns the number of invertible residue classes modulo f.",
  "all fields GF(2^n), all polynomials f","Counts a set that grows exponentially with n and the degree.",
  [F2N+"f2n_poly_totient.cpp: f2n_poly_totient"])
p("C71","Orders and generators in GF(2^n)[x]/(m)",
  "The order of a unit is the least positive exponent giving 1, a non-unit throws; for an irreducible modulus the generator search returns the lowest residue whose powers are all the units; if no generator exists it reports failure.",
  "all fields GF(2^n), moduli and residues","Minimality over all exponents and residues.",
  [U+"f2n_polymod_units.cpp: f2n_polymod_order", U+"f2n_polymod_units.cpp: f2n_polymod_find_generator"])
p("C72","Discrete logarithms in GF(2^n)[x]/(m)",
  "For a unit g the logarithm returns an e with g^e = a whenever one exists and throws otherwise; a non-unit base throws.",
  "all fields GF(2^n), moduli and pairs of residues","The search must cover the whole group, whose size grows exponentially.",
  [U+"f2n_polymod_units.cpp: f2n_polymod_log"])

p("C73","Division-free determinants of polynomial matrices",
  "The determinant computed without division in the coefficient ring (polynomial entries over GF(2), GF(p), GF(2^n)) is the determinant; a non-square matrix throws.",
  "all square matrices of polynomials","The exact divisions must come out for every matrix; all dimensions and degrees.",
  [C+"tmatrix.h: ed_det", C+"tmatrix.h: ed_row_reduce"])
p("C74","Minimal and characteristic polynomials as products of conjugates",
  "For an element a of GF(2^n) the two product routines return, with coefficients in GF(2^n), the minimal polynomial of a over GF(2) and its power of degree n.",
  "all fields GF(2^n) and elements","Minimality is a universal claim; all fields.",
  [L+"f2_linear_algebra.cpp: f2_polymod_char_poly", L+"f2_linear_algebra.cpp: f2_polymod_min_poly"])
p("C75","Vectors and matrices from integers",
  "A vector or matrix built from an integer holds its base-p digits, the most significant first; empty ones throw.",
  "all integers, lengths and moduli","All values, including negative ones for GF(2).",
  [L+"f2_linear_algebra.cpp: f2_vector_from_base_rep", L+"fp_linear_algebra.cpp: fp_vector_from_base_rep"])
p("C76","Rational functions over GF(p) and GF(2^n)",
  "Results of +, -, *, /, powers and unary minus are in lowest terms in a form that depends on the rational function only, represent the exact fraction, and == coincides with equality of fractions; zero denominators and division by zero throw; comparison compares the cross products and orders rational functions.",
  "all primes p, all fields GF(2^n), all operands and exponents","The constant factor left by the Euclidean algorithm must be the same for every way of computing a fraction; all operation sequences.",
  ["spffl/rationals/fp_polyrat_t.cpp", "spffl/rationals/f2n_polyrat_t.cpp"])

LE="spffl/list/list_elements.cpp: "
p("C77","Listings over GF(p) and GF(2^n)",
  "Listing the polynomials of a given degree over GF(p) or GF(2^n) returns each exactly once in increasing order; listing all residues, the units or the non-units modulo m returns exactly the residues, those with an inverse modulo m, those without.",
  "all primes p, fields GF(2^n), degrees and moduli for which the number of elements is an int","Completeness is a claim about every residue; the number of residues grows exponentially.",
  [LE+"fp_poly_list", LE+"f2n_poly_list", LE+"fp_polymod_list", LE+"f2n_polymod_list"])
p("C78","Listings of multiples and of residues prime to a residue",
  "Modulo m, the listing for a residue g returns exactly the residues that are multiples of g modulo m, respectively exactly those that have no common divisor with g and m, each once in increasing order; other listing types throw.",
  "all moduli (integers, polynomials over GF(2)) and residues","All moduli and residues, in particular zero divisors.",
  [LE+"f2_polymod_glist", LE+"intmod_glist"])
p("C79","Listings of tuples and of projective points",
  "The affine listing returns all n-tuples of residues, each exactly once; for irreducible m the projective listing returns vectors of length n+1 whose last non-zero coordinate is 1, each once, such that every non-zero vector is a non-zero multiple of exactly one of them, in one way.",
  "all moduli over GF(2) and GF(p), all dimensions for which the counts fit","Every vector of every dimension.",
  [LE+"f2_polymod_An_list", LE+"f2_polymod_Pn_list", LE+"fp_polymod_An_list", LE+"fp_polymod_Pn_list"])
QP="spffl/polynomials/q_poly_t.cpp: "
CY="spffl/q_cyclotomic/"
p("C80","Polynomials over the rationals",
  "Unless an int operation overflows, sums, differences, products, quotients and remainders, greatest common divisors with Bezout coefficients, powers, derivatives, values, coefficient access and comparison of polynomials with rational coefficients are exact and in lowest terms; division by zero and negative powers throw.",
  "all rational polynomials, exponents and positions","Exact arithmetic over all degrees and coefficients; an overflow must never show up as a wrong coefficient.",
  [QP+"operator+", QP+"operator*", QP+"quot_and_rem", QP+"gcd", QP+"ext_gcd", QP+"exp", QP+"deriv", QP+"eval"])
p("C81","Cyclotomic polynomials",
  "Unless an int operation overflows, the n-th cyclotomic polynomial returned is the one determined by: the product over the divisors d of n is x^n - 1; whatever calls were made before; n < 1 throws and the internal-error exception is never thrown.",
  "all n and all histories of calls (states of the table of remembered results)","The table is hidden state: every order of calls; every n.",
  [CY+"cyclo_poly.cpp: get_cyclo_qpoly"])
p("C82","Reduction of rational polynomials to finite fields",
  "Reducing a rational number or polynomial to GF(2), GF(p) or GF(2^n) maps each coefficient a/b to a * b^-1 and throws exactly when the characteristic divides a denominator; the cyclotomic polynomials over these fields are the images of the integral ones.",
  "all primes p, fields GF(2^n), rational polynomials, n","All coefficients and degrees; degrees from 32 up behave differently from those below.",
  [CY+"qff.cpp: bit_from_rat", CY+"qff.cpp: intmod_from_rat", CY+"qff.cpp: f2_poly_from_q_poly", CY+"qff.cpp: fp_poly_from_qpoly", CY+"qff.cpp: f2n_poly_from_qpoly", CY+"cyclo_poly.cpp: get_cyclo_f2_poly"])
p("C83","Change of modulus between presentations of finite fields",
  "Given a generator g1 of the field GF(2)[x]/(m1) and an irreducible m2, the preparation succeeds exactly when deg m1 divides deg m2 and returns the smallest root g2 of the minimal polynomial of g1; converting elements, polynomials and matrices from (m1, g1) to (m2, g2) is then a homomorphism of fields with g1 going to g2, and converting back between fields of equal size is the identity. Elements that are not powers of g1 or have another modulus are refused.",
  "all pairs of irreducible moduli, generators, elements, polynomials and matrices","A homomorphism law quantifies over all pairs of elements of all fields.",
  [L+"f2_polymod_convert.cpp: f2_polymod_convert_prep", L+"f2_polymod_convert.cpp: f2_polymod_convert_scalar", L+"f2_polymod_convert.cpp: f2_polymod_convert_poly", L+"f2_polymod_convert.cpp: f2_polymod_convert_matrix"])
RN="spffl/random/"
p("C84","Random elements and random searches",
  "A random polynomial of degree d has exactly degree d, and its lower coefficients are one draw each: over GF(2) every polynomial of degree d, and every residue class of a modulus, comes from exactly one pattern of drawn bits; over GF(p) and GF(2^n) the leading coefficient is replaced by 1 if the draw is zero. The random searches return the first candidate that passes, so that the result has the requested degree, is irreducible (monic over GF(p) and GF(2^n)) or has x as a generator of the units, and every irreducible polynomial over GF(2) except x can be returned; they never throw for degrees from 1 on. Degrees that are too small throw.",
  "all sources of random words and their states, all degrees, all primes p and fields GF(2^n), any number of attempts","Tests see one stream of random numbers; the claims are about all of them.",
  [RN+"f2_poly_random.cpp: f2_poly_random", RN+"f2_polymod_random.cpp: f2_polymod_random", RN+"intmod_random.cpp: intmod_random", RN+"fp_poly_random.cpp: fp_poly_random", RN+"f2n_poly_random.cpp: f2n_poly_random", "spffl/factorization/f2_poly_factor.cpp: f2_poly_random_irreducible", "spffl/factorization/fp_poly_factor.cpp: fp_poly_random_irr", "spffl/factorization/f2n_poly_factor.cpp: f2n_poly_random_irr", U+"f2_polymod_units.cpp: f2_poly_random_prim"])
FP="spffl/polynomials/fpn_poly_t.cpp: "
FM="spffl/polynomials/fpn_polymod_t.cpp: "
p("C85","Polynomials over GF(p^n)",
  "For p prime and an irreducible modulus over GF(p), sums, differences, products, unary minus, quotients and remainders, greatest common divisors with Bezout coefficients, powers, values, coefficient access and comparison of polynomials over GF(p^n) are exact and canonical; division by zero, negative powers and negative positions throw.",
  "all primes p, all extension fields GF(p^n), all polynomials","Every field and every degree; the coefficients are themselves polynomials modulo a polynomial.",
  [FP+"operator+", FP+"operator-", FP+"operator*", FP+"quot_and_rem", FP+"gcd", FP+"ext_gcd", FP+"exp", FP+"eval"])
p("C86","Derivatives, integer multiples and p-th roots over GF(p^n)",
  "The derivative of a polynomial over GF(p^n), its product with an element of the prime field and the p-th root of a p-th power are the mathematical ones; a polynomial that is not a p-th power has no root.",
  "all primes p, all extension fields GF(p^n), all polynomials and scalars","Every degree and every scalar; the defect needs a degree of at least two or a scalar other than one to show.",
  [FP+"deriv", FP+"operator*", FP+"pth_root"])
p("C87","Residue classes of polynomials over GF(p^n)",
  "For every non-zero modulus m over GF(p^n), the objects for two polynomials are the same exactly if m divides their difference; +, -, *, unary minus, integer multiples and non-negative powers are those of the quotient ring; a reciprocal exists exactly for polynomials prime to m, and then quotients and negative powers are right, otherwise they throw; operations on different moduli and a zero modulus throw.",
  "all primes p, extension fields GF(p^n), moduli, residues and exponents","All moduli, reducible and non-monic included, and all exponents.",
  [FM+"operator+", FM+"operator-", FM+"operator*", FM+"operator/", FM+"operator%", FM+"recip", FM+"exp", FM+"prime_subfield_element"])
p("C88","Diagonalizability of matrices over GF(2^n)",
  "The diagonalizability test answers true exactly if the square matrix is similar to a diagonal matrix over some field that contains GF(2^n), equivalently if its minimal polynomial has no repeated roots. The field it reports is one in which the characteristic polynomial splits into linear factors, its degree divides that of every other such extension, and the eigenvalues it reports are all the eigenvalues, each once. A matrix plus or minus a scalar changes the diagonal only. Non-square matrices are rejected.",
  "all fields GF(2^n), all square matrices, all splitting degrees within the limit of the search for generators","The claim is about all matrices and about all extension fields; the method compares nullities with multiplicities over an extension built on the way.",
  [L+"f2_polymod_linear_algebra.cpp: f2_polymod_matrix_is_diagonalizable", C+"tmatrix.h: operator+", C+"tmatrix.h: operator-"])
p("C89","Bracketed commands on the command line",
  "A command line with { ... } groups is accepted exactly if the brackets balance; an unbalanced one is rejected before anything is run. Each outermost group is replaced, from left to right, by the words that its command writes, and everything else is kept in order; nested groups are handed to the inner command unchanged. The words of the output are its pieces between blanks, tabs and newlines. Without brackets nothing changes.",
  "all argument lists, all programs behind the shell and their outputs","All nestings, all outputs of arbitrary programs, and the sizes of the buffers.",
  ["spffl/cli_parser/cmd_interp.cpp: cmd_interpolate", "spffl/cli_parser/cmd_interp.cpp: cmd_interpolate_once", "spffl/cli_parser/cmd_interp.cpp: replace", "spffl/cli_parser/cmd_interp.cpp: flatten", "spffl/cli_parser/cmd_interp.cpp: check_balance", "spffl/cli_parser/cmd_interp.cpp: find_matching_right_bracket"])
p("C90","Vector and matrix expressions on the command line",
  "The vector and the matrix evaluator accept exactly the expressions of their grammars, with the usual precedence, operators of one level grouping to the left. A vector expression gives, component by component, the value of the expression in the integers modulo m; operands of different lengths are never accepted. A matrix expression modulo a prime gives the matrix, scalar or integer that the expression denotes (sums, products, powers, inverse, determinant, rank, transpose, echelon forms, kernel basis, comparisons), or is rejected when it denotes nothing; it never ends otherwise. Operands are read from texts of numbers in brackets; ragged rows are rejected.",
  "all argument lists, all moduli up to 46341, all vectors and matrices of every size","All expressions of a grammar, all sizes, and the sizes of the buffers behind the stack.",
  ["spffl/cli_parser/cmd_line_vector_ops.h: cmd_line_vec_parse", "spffl/cli_parser/cmd_line_matrix_ops.h: cmd_line_mat_parse", C+"tvector.h: bracket_in", C+"tmatrix.h: bracket_in", C+"tstack.h: push"])
p("C91","Vectors and matrices as text",
  "A vector or matrix that is printed and read back is the same object, also when several matrices follow each other in one text with an empty line between them. Reading a matrix skips leading blank lines and comments, takes one row per line with any spaces around the numbers, stops at the next blank line and leaves the text after it. Rows of different lengths, lines that are not numbers, overlong lines and empty texts put the stream into a failed state. A file name as operand of a matrix expression stands for the matrix in the file. No file makes the program misbehave.",
  "all element types whose texts can be read back, all matrices that fit the line buffers, all texts","All texts and sizes; the accumulated indentation only matters after 65534 lines, and the lost last line is silent.",
  [C+"tmatrix.h: operator>>", C+"tmatrix.h: operator<<", C+"tmatrix.h: load_from_file", C+"tvector.h: operator>>", C+"tvector.h: operator<<", "spffl/bits/bit_vector_t.cpp: operator>>", "spffl/bits/bit_matrix_t.cpp: operator>>", "spffl/base/line_scan.cpp: is_whitespace_line"])
p("C92","Polynomials and residue classes as text",
  "Polynomials over GF(p), GF(2^n), GF(p^n) and residue classes of them are printed as their coefficients from the highest degree down, and what is printed is read back as the same object, by from_string and from a stream, which is left right behind it. Any list of coefficients with the separators of the format is read as the polynomial with these coefficients; a text with something else in place of a coefficient is refused. The same holds for polynomials with rational coefficients. No text makes the program misbehave.",
  "all primes p up to 46341, all fields GF(2^n) and GF(p^n), all polynomials, moduli and texts","All texts and all degrees; the released coefficients and the failed stream at the end of a text do not show in ordinary use.",
  ["spffl/polynomials/fp_poly_t.cpp: from_string, operator<<, operator>>", "spffl/polynomials/f2n_poly_t.cpp: from_string, operator<<, operator>>", "spffl/polynomials/fpn_poly_t.cpp: from_string, operator<<, operator>>", "spffl/polynomials/q_poly_t.cpp: from_string, operator<<, operator>>", "spffl/polynomials/fp_polymod_t.cpp: from_string, operator<<, operator>>", "spffl/polynomials/f2n_polymod_t.cpp: from_string, operator<<, operator>>", "spffl/polynomials/fpn_polymod_t.cpp: from_string, operator<<, operator>>", "spffl/base/tokenize.cpp: tokenize"])
p("C93","Rational numbers and rational functions as text",
  "A rational number or a rational function over GF(2), GF(p), GF(2^n) is printed as numerator, slash, denominator (no slash if the denominator is one) and is read back as the same object. Any numerator and denominator in this form, with blanks before each, are read as the quotient in lowest terms; a zero denominator throws. A text that does not start with a number is refused.",
  "all fractions of ints, all rational functions over GF(2), GF(p), GF(2^n), all texts","All texts and all degrees.",
  ["spffl/intmath/intrat_t.cpp: operator<<, operator>>, from_string", "spffl/rationals/fp_polyrat_t.cpp: operator<<, operator>>, from_string", "spffl/rationals/f2_polyrat_t.cpp: operator<<, operator>>, from_string", "spffl/rationals/f2n_polyrat_t.cpp: operator<<, operator>>, from_string"])
SP="cli/spiff/"
p("C94","The integer commands of spiff",
  "spiff z_gcd prints the greatest common divisor of its arguments and, with -e, Bezout's identity; z_lcm the least common multiple; z_totient, z_test_prime, z_factor, z_divisors (all divisors, or the maximal proper ones) and the command for primes by number print, one line for each argument and in order, the totient, whether it is prime, the prime powers in increasing order, the divisors in increasing order, the primes with the given numbers; z_list prints an arithmetic progression. The exit status is 0. Arguments that are no numbers lead to the usage message and status 1.",
  "all argument lists whose values are in the ranges stated, any number of arguments","All arguments and any number of them; overflow in the last step of a loop or in a check does not show in ordinary use.",
  [SP+"z_handlers.cpp: z_gcd_main, z_lcm_main, z_totient_main, z_test_prime_main, nth_prime_main, z_list_main, z_factor_main, z_divisors_main", "spffl/containers/tfacinfo.h: operator<<"])
p("C95","The commands of spiff on residues",
  "spiff fp_list prints the residues modulo m, its units, the others, the multiples of an element, or those prime to it, in increasing order; fp_tbl the tables of sums, differences, products, quotients, logarithms and powers; fp_ord orders; fp_max_ord the largest order; fp_orbit the multiples of an element by the powers of a unit, and refuses other elements; fp_find_gen the least generator of the units or that there is none; fp_log logarithms; fp_random residues of successive random words.",
  "all moduli up to 46341 (2^31-1 for lists and random elements), all elements, any number of arguments, all sources of random words","All moduli; the wrong gcd only shows for arguments that are not coprime and not both even.",
  [SP+"fp_handlers.cpp: fp_list_main, fp_tbl_main, fp_ord_main, fp_max_ord_main, fp_orbit_main, fp_find_gen_main, fp_log_main, fp_random_main"])
p("C96","Choice of the command and exit status of spiff",
  "spiff with a listed command name runs its handler on the remaining arguments, prints what the handler prints, and its exit status is 0 exactly on success; -l lists all names, each once; without a command the status is 1; an unknown command is an error.",
  "all argument lists, all handlers","All names that are not listed, all handlers.",
  [SP+"spiff_main.cpp: main, try_main"])
p("C97","The commands of spiff on polynomials over GF(2)",
  "spiff f2_p_deg, f2_p_gcd, f2_p_lcm, f2_p_totient, f2_p_test, f2_p_period, f2_p_factor, f2_p_divisors, f2_p_eval, f2_p_comp_mx, f2_p_list, f2_p_find and f2_p_random print the degrees, a gcd (with -e a Bezout identity), a least common multiple, the numbers of units, whether the arguments are irreducible or primitive, the periods of x, the factorisations into irreducibles, all divisors or the maximal proper ones in ascending order, the values at bits, the companion matrix, all polynomials of given degrees in ascending order, the lowest (or a random) irreducible or primitive polynomial of each degree, and random polynomials of a degree; printed polynomials read back as arguments mean the same; bad arguments give exit status 1 and an operation without result is an error.",
  "all arguments (degree up to 15 for periods, 30 where units are counted or divisors listed, otherwise up to 2^31-65), any number of them, all sources of random bits","All polynomials; the reader, the arithmetic and the printer are composed, and the self-checks of the commands only run on the arguments tried.",
  [SP+"f2_poly_handlers.cpp: f2_p_deg_main, f2_p_gcd_main, f2_p_lcm_main, f2_p_totient_main, f2_p_test_main, f2_p_find_main, f2_p_period_main, f2_p_factor_main, f2_p_divisors_main, f2_p_eval_main, f2_p_comp_mx_main, f2_p_list_main, f2_p_random_main"])
p("C98","The commands of spiff on polynomials over GF(p)",
  "spiff fp_p_deg, fp_p_gcd, fp_p_lcm, fp_p_totient, fp_p_test, fp_p_factor, fp_p_divisors, fp_p_eval, fp_p_comp_mx, fp_p_list, fp_p_find and fp_p_random, given a prime p and texts of polynomials, print the degrees, a greatest common divisor (with -e a Bezout identity), a least common multiple, the numbers of units, whether the arguments are irreducible, the leading coefficient and the monic irreducible factors with their exponents in ascending order, all monic divisors or the maximal proper ones in ascending order, the values at residues, the companion matrix, all polynomials of given degrees in ascending order, the lowest (or a random) monic irreducible polynomial of each degree, and random polynomials; printed polynomials read back as arguments mean the same; a refused text leads to exit status 1 after the lines of the arguments before it.",
  "all primes up to 46341, all polynomials (degree up to 30 where divisors are listed, p^(2 deg) within int where units are counted or polynomials listed), any number of arguments, all sources of random words","All primes and polynomials; the reader, the arithmetic and the printer are composed.",
  [SP+"fp_poly_handlers.cpp: fp_p_deg_main, fp_p_gcd_main, fp_p_lcm_main, fp_p_totient_main, fp_p_test_main, fp_p_find_main, fp_p_factor_main, fp_p_divisors_main, fp_p_eval_main, fp_p_comp_mx_main, fp_p_list_main, fp_p_random_main"])
p("C99","The commands of spiff on polynomials over GF(2^n)",
  "spiff f2n_p_deg, f2n_p_gcd, f2n_p_lcm, f2n_p_totient, f2n_p_test, f2n_p_factor, f2n_p_divisors, f2n_p_eval, f2n_p_comp_mx, f2n_p_list, f2n_p_find and f2n_p_random, given an irreducible polynomial m over GF(2) in hexadecimal and polynomials over GF(2)[x]/(m) as hexadecimal numbers with colons between, print the degrees, a greatest common divisor (with -e a Bezout identity), a least common multiple, the numbers of units, whether the arguments are irreducible, the leading coefficient and the monic irreducible factors with their exponents in ascending order, all monic divisors or the maximal proper ones, the values at field elements, the companion matrix, all polynomials of given degrees in ascending order, the lowest (or a random) monic irreducible polynomial of each degree, and random polynomials; printed polynomials and elements read back as arguments mean the same; a refused text leads to exit status 1 after the lines of the arguments before it.",
  "all irreducible m (of degree up to 30 where factors are needed), all polynomials, any number of arguments, all sources of random words","All moduli and polynomials; the reader, the arithmetic and the printer are composed.",
  [SP+"f2n_poly_handlers.cpp: f2n_p_deg_main, f2n_p_gcd_main, f2n_p_lcm_main, f2n_p_totient_main, f2n_p_test_main, f2n_p_find_main, f2n_p_factor_main, f2n_p_divisors_main, f2n_p_eval_main, f2n_p_comp_mx_main, f2n_p_list_main, f2n_p_random_main"])

p("C100","The commands of spiff on residue classes of polynomials over GF(2)",
"For a polynomial m over GF(2): a residue modulo m is printed as the hexadecimal number of its bits with as many digits as the residues modulo m need, two residues have the same text exactly if they are congruent, and reading the text back gives the residue. f2_pm_list prints each residue (all, invertible, not invertible, multiples of one, prime to one) exactly once in increasing order; f2_pm_tbl prints for all pairs of residues the sum, difference, product, for all pairs of units the product and the quotient, or for all units the logarithm, or the powers of a generator; f2_pm_ord prints the least positive exponent giving 1; f2_pm_find_gen the lowest generator of the units; f2_pm_log an exponent; f2_pm_ch_pol and f2_pm_min_pol the characteristic and the minimal polynomial; f2_pm_convert the images under one field homomorphism, the same for all arguments; f2_pm_random residues, each equally often over the patterns of random bits. Arguments may be any representatives of the classes. The exit status is 0 exactly if the results asked for were printed.",
"for all moduli, texts of them and of polynomials, all numbers of arguments, all correct sorting functions and all sources of random words, while the degrees are in the stated range; what happens outside is stated too",
"Tests run a few commands; the property is about all moduli, all representatives of a class and about the exit status in the error cases.",
[SP+"f2_polymod_handlers.cpp: f2_pm_list_main, f2_pm_tbl_main, f2_pm_ord_main, f2_pm_find_gen_main, f2_pm_log_main, f2_pm_ch_pol_main, f2_pm_min_pol_main, f2_pm_convert_main, f2_pm_random_main","spffl/polynomials/f2_polymod_t.cpp: operator<<, from_string",SP+"spiff_main.cpp: main"])

p("C101","The commands of spiff on residue classes of polynomials over GF(p)",
"For a prime p and a polynomial m over GF(p) that is not 0: a residue modulo m is printed as its coefficients below the degree of m, the highest first, with zeros in front; two residues have the same text exactly if they are congruent, and reading the text back gives the residue. fp_pm_list prints each residue (all, invertible, not invertible) exactly once in increasing order; fp_pm_tbl prints for all pairs of residues the sum, difference and product, for all pairs of units the product and the quotient, and offers no other table; fp_pm_ord prints the least positive exponent giving 1 if there is one, and 0 otherwise; fp_pm_ch_pol and fp_pm_min_pol the characteristic and the minimal polynomial of each argument; fp_pm_random residues made of successive random words. Wrong numbers of arguments and unreadable texts end with exit status 1.",
"for all primes up to 46341, all moduli, all texts of them and of polynomials, all numbers of arguments and all sources of random words, while sizes are in the stated range; what happens outside is stated too",
"Tests run a few commands; the property is about all primes, moduli and representatives of a class and about the exit status in the error cases.",
[SP+"fp_polymod_handlers.cpp: fp_pm_list_main, fp_pm_tbl_main, fp_pm_ord_main, fp_pm_ch_pol_main, fp_pm_min_pol_main, fp_pm_random_main","spffl/polynomials/fp_polymod_t.cpp: operator<<, from_string",SP+"spiff_main.cpp: main"])

p("C102","The commands of spiff on residue classes of polynomials over GF(2^n)",
"For a field GF(2^n) given by an irreducible polynomial b over GF(2), and a polynomial m over it that is not 0: a residue modulo m is printed as its coefficients below the degree of m in hexadecimal, the highest first, with zeros in front; two residues have the same text exactly if they are congruent, and reading the text back gives the residue. f2n_pm_list prints each residue (all, invertible, not invertible) exactly once in increasing order; f2n_pm_tbl the sums, differences, products and quotients of all pairs, and the tables of logarithms and powers to a given base or to the least generator; f2n_pm_ord prints the least positive exponent giving 1; f2n_pm_log an exponent giving the argument; f2n_pm_find_gen the least generator of the units; f2n_pm_ch_pol and f2n_pm_min_pol the characteristic and the minimal polynomial of each argument; f2n_pm_random residues made of successive random words. Wrong numbers of arguments and unreadable texts end with exit status 1.",
"for all irreducible b, all moduli m, all texts of them and of polynomials, all numbers of arguments, all sorting routines that sort and all sources of random words, while sizes are in the stated range; what happens outside is stated too",
"Tests run a few commands over one field; the property is about all fields, moduli and representatives of a class and about the exit status in the error cases.",
[SP+"f2n_polymod_handlers.cpp: f2n_pm_list_main, f2n_pm_tbl_main, f2n_pm_ord_main, f2n_pm_find_gen_main, f2n_pm_log_main, f2n_pm_ch_pol_main, f2n_pm_min_pol_main, f2n_pm_random_main","spffl/polynomials/f2n_polymod_t.cpp: operator<<, from_string",SP+"spiff_main.cpp: main"])

p("C103","The commands of spiff that reduce polynomials with integer coefficients",
"f2_p_qp, fp_p_qp and f2n_p_qp read polynomials with integer coefficients, the leading coefficient first, with commas between or one digit each, and print for each, on a line, its reduction to GF(2), modulo the prime p, or to GF(2^n), as these commands print polynomials; every coefficient is reduced, negative ones too. The first text that is refused ends the command with exit status 1, after the lines of the ones before; so do missing arguments and an unreadable modulus.",
"for all integer polynomials with int coefficients, all texts of them, all primes up to 46341, all fields GF(2^n) and all numbers of arguments",
"Tests reduce a few polynomials; the property is about all texts and coefficients, and about leading coefficients that vanish, which a test would have to aim at.",
[SP+"f2_poly_handlers.cpp: f2_p_qp_main",SP+"fp_poly_handlers.cpp: fp_p_qp_main",SP+"f2n_poly_handlers.cpp: f2n_p_qp_main","spffl/q_cyclotomic/qff.cpp: f2_poly_from_q_poly, fp_poly_from_qpoly, f2n_poly_from_qpoly","spffl/polynomials/q_poly_t.cpp: from_string"])

p("C104","Cyclotomic polynomials, random bits and GF(p^n) on the command line; the program gcd",
"spiff q_cyclotomic prints, for each number n from 1 on, the coefficients of the n-th cyclotomic polynomial, the leading one first, with commas between, on a line, whatever numbers came before. f2_random prints the lowest bit of each of the next random words, one on a line, as many as asked for (one by default). For a field GF(p^n) given by p and an irreducible polynomial, fpn_p_gcd prints a greatest common divisor of two polynomials, with -e also a linear combination of them equal to it, and fpn_p_qp the reduction of each polynomial with integer coefficients; the texts printed mean, as arguments, the polynomials printed. The program gcd prints the greatest common divisor of its two arguments. Wrong numbers of arguments and unreadable texts end with exit status 1, after the lines of the arguments before.",
"for all numbers and texts of them, all primes up to 46341, all irreducible polynomials over GF(p), all polynomials over GF(p^n), all integer polynomials, all numbers of arguments and all sources of random words",
"Tests run a few commands; the property is about all fields, all texts of a polynomial and all sequences of arguments, which share a table of remembered results.",
[SP+"q_handlers.cpp: q_cyclo_main",SP+"f2_handlers.cpp: f2_random_main",SP+"fpn_poly_handlers.cpp: fpn_p_gcd_main, fpn_p_qp_main","spffl/q_cyclotomic/qff.cpp: fpn_poly_from_qpoly","spffl/q_cyclotomic/cyclo_poly.cpp: get_cyclo_qpoly","cli/gcd/cli_gcd.cpp: main"])

p("C105","The order of a matrix on the command line",
"spiff fp_mat_ord reads a square matrix modulo the prime p from standard input (blank and comment lines, rows of numerals, then a blank line or the end) and prints the order of the matrix, the least positive k such that its k-th power is the identity, and 0 if it is not invertible; the text that spiff prints for a matrix is read as that matrix. The command always finishes. A matrix that is not square, a missing matrix, a bad modulus and a wrong number of arguments end with a non-zero exit status and nothing is printed.",
"for all primes up to 46341, all texts of matrices of all sizes, all texts of the modulus and all numbers of arguments",
"Tests compute the orders of a few matrices; that the search ends at the least exponent, and for every invertible matrix, is about all matrices.",
[SP+"fp_handlers.cpp: fp_mat_ord_main","spffl/containers/tmatrix.h: operator==, operator*=, make_I, det, operator>>","spffl/containers/tvector.h: operator==",SP+"spiff_main.cpp: main"])

p("C106","Characteristic polynomials and random matrices on the command line",
"spiff fp_mat_ch_pol reads a matrix modulo the prime p from a file, or from standard input for - and @, and prints its characteristic polynomial; a file that cannot be opened, has no rows or rows of different lengths ends with exit status 1 and nothing printed. fp_mat_random prints a matrix of the given dimensions, a line for each row, whose entries are the residues modulo the given number of the next random words in turn. A wrong number of arguments and unreadable numbers end with exit status 1; impossible moduli, dimensions and a matrix that is not square with a non-zero exit status.",
"for all primes up to 46341, all matrices of all sizes and all texts of them, all files, all moduli and dimensions of a random matrix and all sources of random words",
"Tests run a few commands; the property is about all matrices and all texts that stand for them, and about the exit status in the error cases.",
[SP+"fp_handlers.cpp: fp_mat_ch_pol_main, fp_mat_random_main","spffl/containers/tmatrix.h: load_from_file, operator<<, operator>>","spffl/linalg/fp_linear_algebra.cpp: fp_char_poly","spffl/random/intmod_random.cpp: intmod_random",SP+"spiff_main.cpp: main"])

p("C107","Bit matrices on the command line",
"spiff f2_mat_ord reads a square matrix of bits from standard input (blank and comment lines, rows of numbers that stand for their last bits, then a blank line or the end) and prints its order, the least positive k such that its k-th power is the identity, and 0 if it is not invertible. f2_mat_ch_pol reads such a matrix from a file, or from standard input for - and @, and prints its characteristic polynomial over GF(2) in hexadecimal; a file that cannot be opened, has no rows or rows of different lengths ends with exit status 1. f2_mat_random prints a matrix of the given dimensions, a line for each row, whose entries are the lowest bits of the next random words in turn. The text printed for a matrix is read as that matrix. A wrong number of arguments, unreadable numbers, a missing matrix, a matrix that is not square and dimensions below 1 end with a non-zero exit status and nothing is printed.",
"for all bit matrices of all sizes and all texts of them, all files, all dimensions of a random matrix, all sources of random words and all numbers of arguments",
"Tests run a few commands; the property is about all matrices and all texts that stand for them, and about the exit status in the error cases.",
[SP+"f2_handlers.cpp: f2_mat_ord_main, f2_mat_ch_pol_main, f2_mat_random_main","spffl/bits/bit_t.cpp: operator<<, operator>>","spffl/containers/tmatrix.h: load_from_file, operator<<, operator>>, operator==, det","spffl/linalg/f2_linear_algebra.cpp: f2_char_poly",SP+"spiff_main.cpp: main"])
