{
 "C04": [
  "partial",
  "REFUTED as stated by C04_power_refuted (2^16: the squaring after the last multiplication overflows); C04_power_exact gives the exact set of arguments for which the power is returned."
 ],
 "C05": [
  "partial",
  "Holds for every n >= 2 (C05_totient); n = 1 REFUTED by C05_totient_one_refuted."
 ],
 "C09": [
  "partial",
  "All arithmetic and construction proved, with exact overflow conditions; stream input of a negative number leaves a non-canonical residue, REFUTED by C09_stream_in_refuted."
 ],
 "C11": [
  "partial",
  "Proved for every exponent except INT_MIN, where negation overflows (C11_int_min_refuted)."
 ],
 "C13": [
  "partial",
  "Construction, +,-,*,/,% proved in full; exp proved whenever the final (discarded) squaring also fits; without that REFUTED by C13_exp_refuted ((2/3)^16)."
 ],
 "C42": [
  "partial",
  "Generic theorems for any element type (C42_divisors, C42_maximal) and, for ints, every n with n*n <= INT_MAX; beyond that the extra squaring in the power routine overflows, REFUTED by C42_int_divisors_refuted (n = 65536)."
 ],
 "C43": [
  "partial",
  "Proved when the target has no buffer or one at least as large as the source; in every other case the assignment writes out of bounds (C43_assign_refuted)."
 ],
 "C51": [
  "partial",
  "All arithmetic and powers proved for every field and shape (exponents other than INT_MIN). paste proved when the left matrix is square (C51_paste_square); for other shapes REFUTED by C51_paste_refuted (second block written at the wrong column offset)."
 ],
 "C16": [
  "partial",
  "Element access, toggle, +, -, *, +=, *=, dot, copy and leader search proved for every length. Filling with a constant is proved for lengths divisible by 64 (and with zeros under any reading of the shifts in trim); for other lengths it is undefined behaviour (C16_fill_refuted). Assignment is proved when the source has at most as many words as the target; otherwise it overruns the buffer (C16_assign_refuted)."
 ],
 "C17": [
  "partial",
  "REFUTED: the last word is never compared, so for every length there are unequal vectors comparing equal (C17_eq_refuted); C17_eq_partial and C17_eq_bit_partial say exactly what the comparisons decide."
 ],
 "C19": [
  "partial",
  "Proved when the number of columns is a multiple of 64, and for all widths when the out-of-range shifts in trim are read as yielding an arbitrary mask; under the C++ standard those shifts are undefined and so is the call whenever the kernel is non-trivial (C19_kernel_refuted)."
 ],
 "C20": [
  "partial",
  "Determinant proved; the inverse routine throws for every square matrix (C20_inverse_refuted)."
 ],
 "C52": [
  "partial",
  "Sum and transpose proved; product, matrix-vector product and powers with exponent >= 1 proved with the same reading of trim as C19 (strictly UB: C52_mul_refuted); exponents <= 0 always throw (C52_exp_refuted), as does the outer product (C52_outer_refuted)."
 ],
 "C53": [
  "partial",
  "Arithmetic and construction proved (C53_field); assignment from an int keeps 8 bits (C53_assign_refuted) and 0^0 is 0 (C53_exp_refuted)."
 ],
 "C22": [
  "partial",
  "Sum, difference, comparison, degree proved in full; products are always the right polynomial and canonical when non-zero. Canonical form of a zero product REFUTED by C22_mul_refuted (x^128 times 0 keeps three words, and using it as a left factor accesses memory out of bounds)."
 ],
 "C26": [
  "proved",
  "Evaluation: for polynomials whose bit count fits in int (C26_eval hypothesis)."
 ],
 "C27": [
  "partial",
  "Powers too, for every exponent except INT_MIN, where the negation overflows (C27_exp_min_refuted)."
 ],
 "C55": [
  "partial",
  "bit_at and set_bit proved for all positions; set_coeff proved for positions below 31 within their word (C55_set_coeff_partial); REFUTED elsewhere by C55_set_coeff_refuted (undefined shift at 32, stray coefficients at 31)."
 ],
 "C28": [
  "partial",
  "Proved for every non-zero polynomial of degree up to INT_MAX under the reading in which bit_vector_t::trim's mask has some value (Some m). Under the strict C++ reading the shift in trim is undefined and every squarefree reducible polynomial whose degree is not a multiple of 64 reaches it (C28_factor_refuted)."
 ],
 "C29": [
  "partial",
  "is_irreducible and the search proved (degree 2 up to INT_MAX) under the same proviso as C28; strictly read they reach undefined behaviour for squarefree reducible inputs (C29_is_irreducible_refuted). For degree 1 the search returns x+1 although x is lower (C29_find_irreducible_degree1_refuted)."
 ],
 "C30": [
  "partial",
  "Proved for every non-zero polynomial of degree 0..30 under the same proviso as C28 (C30_totient_refuted: strictly read undefined for squarefree reducible moduli). C30_totient_range: for irreducible moduli of degree 31 and up the int arithmetic overflows."
 ],
 "C31": [
  "partial",
  "order: proved for moduli of degree at most 15 (the divisor list of the totient must not overflow; with degree 17 it does, C31_order_refuted) and for a defined mask in the bit-vector trim (a strict reading of the code makes it undefined, see C28). Primitivity: degree at most 30; the test ignores irreducibility, C31_primitive_refuted."
 ],
 "C32": [
  "partial",
  "qsort is assumed to return a sorted permutation (hypothesis sorts; satisfiable, C32_sorting_exists). GF(2) logarithms for moduli of degree at most 30; for degree 31 the routine always throws, above that 1 << degree is undefined, C32_f2_log_refuted."
 ],
 "C56": [
  "partial",
  "irreducible moduli of degree at most 15; for reducible moduli the search throws at the first non-unit, C56_generator_refuted."
 ],
 "C57": [
  "partial",
  "period: degree at most 15; search: degree at most 30 (beyond that the totient overflows); for a defined mask in the bit-vector trim."
 ],
 "C33": [
  "partial",
  "unary minus writes past its one-element array for every polynomial of positive degree (C33_neg_refuted); the other operations are proved in full"
 ],
 "C34": [
  "partial",
  "extended gcd with zero as second argument throws instead of returning the first (C34_ext_gcd_refuted); division and gcd are proved in full; the gcd is not made monic"
 ],
 "C58": [
  "partial",
  "for a prime modulus proved in full; from_base_rep loops forever for modulus 1 and divides by zero for modulus 0"
 ],
 "C59": [
  "partial",
  "multiplication by x of the zero polynomial leaves a zero leading coefficient (C59_promote_refuted); the rest is proved in full"
 ],
 "C35": [
  "partial",
  "+, -, *, /, %, reciprocals, powers, equality, comparisons and integer images agree with F_p[x]/(m) for every non-zero m and all residues (p prime, p <= 46341). Refuted in the model: unary minus writes outside its array for residues of positive degree; multiplication by a field element scales the modulus instead of the residue; multiplication by a negative int returns the operand unchanged; exp(INT_MIN) overflows. Formatted input/output not modelled."
 ],
 "C36": [
  "partial",
  "proved for primes p with p*p representable (p <= 46341, beyond which the coefficient arithmetic itself overflows) and polynomials of int-sized length; the loops are shown to terminate"
 ],
 "C60": [
  "partial",
  "degree 1 returns x+1 although x is lower (C60_find_irr_degree1_refuted); proved for degrees >= 2 and p <= 46341"
 ],
 "C61": [
  "partial",
  "int_power squares once too often, so for example no irreducible quadratic over F_257 has its totient computed (C61_totient_refuted); proved whenever p^(2 deg f) is representable, and exactly characterised for irreducible f"
 ],
 "C62": [
  "partial",
  "unary minus of a polynomial of positive degree writes outside its array (C62_neg_refuted), correct for constants; everything else holds for every finite field GF(2^n) given by an irreducible modulus"
 ],
 "C63": [
  "partial",
  "ext_gcd throws when an argument is zero (C63_ext_gcd_refuted); division, remainder and gcd hold without restriction"
 ],
 "C65": [
  "partial",
  "promoting the zero polynomial leaves a non-canonical representation of degree 1 (C65_promote_refuted); the rest holds"
 ],
 "C66": [
  "partial",
  "proved for n <= 31; for n >= 33 the exponent 1 << (n-1) is undefined behaviour (C66_square_root_refuted)"
 ],
 "C67": [
  "partial",
  "unary minus writes outside its array for residues of positive degree (C67_neg_refuted); exp(INT_MIN) overflows (C67_exp_min_refuted); the rest holds for all fields GF(2^n) and non-zero moduli. Formatted input/output not modelled"
 ],
 "C68": [
  "partial",
  "proved for n <= 30 (the field size is held in an int) and int-sized degrees"
 ],
 "C69": [
  "partial",
  "degree 1 returns x+1 although x is lower (C69_find_irr_degree1_refuted); proved for degrees >= 2 and n <= 30"
 ],
 "C70": [
  "partial",
  "int_power squares once too often, so the totient of any irreducible quadratic over GF(2^8) is undefined behaviour (C70_totient_refuted), and 1 << n is for n >= 32 (C70_totient_field_refuted); proved whenever 2 n deg f <= 30 and exactly characterised for irreducible f"
 ],
 "C71": [
  "partial",
  "proved for n deg m <= 15, where the group order squared is representable (int_power squares once too often); the generator search throws at the first non-unit instead of reporting failure (C71_find_generator_refuted)"
 ],
 "C72": [
  "partial",
  "the search assumes the group has 2^(deg m) elements instead of 2^(n deg m), so whenever (n-1) deg m >= 2 some logarithm modulo every irreducible m is missed (C72_log_refuted); a returned value is always right and every logarithm below 2^(deg m) is found (C72_log_partial); deg m = 31 throws and above is undefined (C72_log_large_refuted)"
 ],
 "C50": [
  "partial",
  "over GF(2^n) for n <= 30 (the size of the field is an int); a nilpotent non-zero residue modulo a reducible polynomial makes the Frobenius length loop forever (C50_f2_nilpotent_refuted, C50_fp_nilpotent_refuted)"
 ],
 "C73": [
  "partial",
  "proved for every non-zero matrix; for the zero matrix the row reduction leaves the denominator unset and the determinant throws (C73_*_zero_refuted)"
 ],
 "C48": [
  "partial",
  "proved for construction, +, -, *, /, %, ==, powers and for comparison as comparison of cross products; refuted: < is not transitive (C48_order_refuted), exp(INT_MIN) is undefined (C48_exp_min_refuted)"
 ],
 "C76": [
  "partial",
  "proved for construction, +, -, *, /, %, ==, powers and for comparison as comparison of cross products; refuted: unary minus is undefined for numerators of positive degree and otherwise not re-simplified, so -(a) == 0-a fails over GF(7) (C76_fp_neg_refuted); < has cycles (C76_fp_order_refuted); exp(INT_MIN) is undefined"
 ],
 "C47": [
  "partial",
  "proved for all degrees up to 30 and all moduli that can be handled; refuted for modulus 1 (C47_int_one_refuted): the unit listing throws and the listing of non-units returns an uninitialised element"
 ],
 "C77": [
  "partial",
  "proved exactly where int_power does not overflow (pow_fits); refuted: the header promises monic polynomials only (C77_fp_monics_refuted), and sizes that fit in an int are undefined because of the extra squaring"
 ],
 "C46": [
  "partial",
  "proved for all token lists and all element types (grammar, precedence, rejection, termination) and for Z/m with m <= 46341; refuted in three points: text after an expression is noticed only when its value has been printed, negative numbers modulo m are not reduced when read (-3 == 4 is false modulo 7), the exponent INT_MIN is undefined. Reading a number from a string is a parameter"
 ],
 "C80": [
  "partial",
  "proved up to int overflow (the result is the exact one or the call is undefined); refuted: unary minus of a non-constant polynomial writes outside its array (C80_negate_refuted)"
 ],
 "C81": [
  "proved",
  "for every n and every history of calls; up to int overflow in the coefficients; existence and uniqueness of the cyclotomic polynomials are proved too"
 ],
 "C82": [
  "partial",
  "proved for GF(p), GF(2^n) and for degrees up to 30 over GF(2); refuted: leading coefficients that vanish are not dropped (C82_mod_p_refuted), degrees from 32 up over GF(2) are undefined (C82_gf2_refuted, C82_cyclotomic_2_refuted)"
 ],
 "C83": [
  "partial",
  "proved for first and second field of degree at most 30 (the sort of the C library is assumed to sort, C83_sorting_exists); from degree 31 on the conversion of nonzero elements throws (31) or is undefined (C83_degree_refuted)"
 ],
 "C84": [
  "partial",
  "random elements: proved for every source and state. Searches: proved relative to the irreducibility and primitivity tests, hence under their limits (the unspecified shifts of bit_vector_t::trim give some value; p <= 46341; fields GF(2^n) with n <= 30; primitive search for degree <= 30). That a search ends depends on the source: after any number of attempts it has returned the first candidate that passes, or none has passed (C84_*_irr); C84_f2_irr_reach shows that every irreducible polynomial with constant term 1 is reached."
 ],
 "C85": [
  "partial",
  "p <= 46341. Proved: +, *, quotients, gcd, powers, values, coefficients, comparison. Differences are right exactly if the coefficients of the subtrahend beyond the degree of the minuend lie in the prime field, and undefined otherwise (C85_sub_partial, C85_sub_refuted); unary minus is defined for prime field constants only (C85_neg_refuted); the extended gcd is right or undefined (C85_ext_gcd_partial, C85_ext_gcd_refuted)"
 ],
 "C86": [
  "partial",
  "the derivative is right for degrees up to 1 and never right from degree 2 on (C86_deriv_refuted); multiplication by a prime field element other than 1 gives an object that is no polynomial over the field (C86_mul_intmod_refuted); p-th roots always throw (C86_pth_root_refuted)"
 ],
 "C87": [
  "partial",
  "p <= 46341. Proved: construction, +, *, ==, comparison, non-negative powers, integers. Differences, unary minus as in C85; reciprocals, quotients, remainders and negative powers are right or undefined (C87_recip_partial, C87_recip_refuted); negative integer multiples give 0 (C87_mul_int_refuted)"
 ],
 "C88": [
  "partial",
  "Proved when the degree of the splitting field over GF(2) is at most 30 (the searches for generators and square roots shift an int). With the strict reading of bit_vector_t::trim (tm = None) the search for the extension's modulus is undefined as in C29. The printing is not modelled."
 ],
 "C89": [
  "partial",
  "Acceptance, order and nesting are proved. The words of the output are right for outputs without NUL bytes whose lines have at most 4095 bytes and whose length is below INT_MAX/3; longer words are cut (C89_long_word_refuted) and a line starting with a NUL byte is undefined (C89_nul_refuted). Output that contains brackets is expanded again, which need not end (C89_loop). The shell is a parameter: it sees the words joined by blanks, without quoting."
 ],
 "C90": [
  "partial",
  "Proved for the grammar, for values of vector expressions without comparisons or with one, and for matrix expressions (any field; instance modulo a prime p <= 46341) whose bracketed texts have no minus sign and whose exponents are not INT_MIN. Refuted: a comparison whose left side is a compound of shorter vectors overruns a buffer (C90_overrun_refuted), a second comparison of vectors never succeeds (C90_vector_comparisons), entries with a minus sign compare wrongly (C90_negative_entry_refuted), the exponent INT_MIN is undefined (C90_min_exponent_refuted). For kerbas, rr and rrnz the printed value is one of those the operator may have. Reading a matrix from a file is a parameter; printing is not modelled."
 ],
 "C91": [
  "partial",
  "Round trips, reading of any well-formed text, failures and use in expressions are proved; for integers modulo m <= 46341 every file shorter than 65536 characters without minus signs is either read into a matrix of the right shape or refused, for bit matrices every text. Refuted: the last line of a text without final newline is dropped without error (C91_last_line_refuted), indentation accumulates and overruns the line buffer (C91_indent_refuted, C91_indented_refuted), bit matrices refuse lines with trailing blanks (C91_bits_trailing_refuted) and cannot be read into a variable that has rows (C91_bits_reuse_refuted)."
 ],
 "C92": [
  "partial",
  "Reading, refusals, round trips and streams are proved over GF(p), GF(2^n) and GF(p^n) for polynomials and residue classes. Refuted: a text of nothing but separators leaves a pointer to released memory (undefined for the residue classes), the empty text is undefined for p < 10, the istream overload over GF(2^n) reports failure if the text ends with the polynomial; over Q denominators are dropped, constants of ten and more are misread, negative and fractional constants are refused, and streams stop at the first sign or slash (C92_*_refuted). Over GF(p^n) a text is shown to be refused only if a coefficient starts with neither digit nor comma."
 ],
 "C93": [
  "partial",
  "Reading and round trips are proved for rational numbers and for rational functions over GF(2), GF(p), GF(2^n). Refuted: what is no number or polynomial is read as 0 (or leaves the old numerator), what is too large as 2^31-1, all with success; the istream overloads accept the empty text for numbers, and fail over GF(2^n) if the text ends with the denominator (C93_*_refuted)."
 ],
 "C94": [
  "partial",
  "Proved for all arguments within the ranges stated in each theorem. Refuted: z_gcd prints a negative number for a single negative argument or 0 and a negative one; z_gcd -e is undefined for 0 as second argument and overflows in its check; z_lcm overflows though the result fits, and is undefined for 0 0; z_list is undefined if the value after the last one does not fit; z_factor of -2^31 and z_divisors beyond 46340 can overflow; z_test_prime and z_factor accept no arguments; nth_prime is known by another name only and fails with status 0; output precedes the usage message (C94_*_refuted)."
 ],
 "C95": [
  "partial",
  "Proved for all moduli in the ranges stated. Refuted: fp_orbit accepts elements that are not coprime to the modulus unless both are even, and is undefined modulo 0; fp_list without option is refused; fp_list modulo 1, fp_ord of a non-unit, fp_log of an element without logarithm and fp_random modulo less than 2 print nothing and have status 0 (C95_*_refuted)."
 ],
 "C96": [
  "partial",
  "Dispatch, listing and the names are proved. Refuted: an unknown command, an exception and a non-zero return value of the handler all give exit status 0 (C96_unknown_refuted, C96_dispatch)."
 ],
 "C97": [
  "partial",
  "The theorems named _partial assume that the mask which bit_vector_t::trim shifts has some value (it is never initialised: C97_mask_refuted shows undefined behaviour otherwise) and bound the degree as stated. Refuted: f2_p_lcm 0 0, f2_p_random of a negative degree and f2_p_list 31 print nothing and have status 0, f2_p_list beyond is undefined, f2_p_divisors 0 prints only 1, f2_p_find -1 -i 1 prints x+1 though x is lower. f2_p_qp is modelled without theorems."
 ],
 "C98": [
  "partial",
  "p up to 46341 (larger moduli overflow). Bezout identities only if the second polynomial is not 0 (otherwise nothing is printed: refuted); units and listings only while p^(2 deg) fits in an int (listings beyond are undefined: refuted); divisors up to degree 30 and not of 0 (refuted); the lowest irreducible from degree 2 (degree 1 refuted); texts without entries are undefined (refuted); negative random degrees print nothing (refuted). fp_p_qp and the expression commands are not stated."
 ],
 "C99": [
  "partial",
  "m irreducible. Bezout identities only if the second polynomial is not 0 (otherwise nothing is printed: refuted); from C99_totient_partial on deg m is at most 30; units and listings only while 2 n deg <= 30 (listings are undefined once (2^n)^(2^k) overflows: refuted); divisors up to degree 30 and not of 0 (refuted); the lowest irreducible from degree 2 (degree 1 refuted); texts without entries are undefined (refuted); negative random degrees print nothing (refuted). f2n_p_qp and the expression commands are not stated."
 ],
 "C100": [
  "partial",
  "Listings and tables for degree of m up to 30 (degree 31: nothing printed with the status of success; beyond: undefined, C100_list_refuted). Orders, generators and tables to the generator found: degree up to 15 (overflow from 17 on, C100_order_refuted); generators only for irreducible m (x^2 has one that is not found, C100_find_gen_refuted). Characteristic and minimal polynomials and conversions: irreducible moduli. Whenever there is no result (no inverse, no logarithm, modulus 0) nothing is printed but the exit status is 0 (refuted). The option of f2_pm_list, in brackets in its usage, cannot be left out (refuted)."
 ],
 "C101": [
  "partial",
  "Listings of all residues and the tables of all residues: exactly while the smallest power p^(2^k) computed fits an int (otherwise undefined, C101_list_all); of units: p^(2 deg m) within int. Orders: all of them up to 2^31-1, beyond undefined (C101_order). Minimal and characteristic polynomials for irreducible m only (for others the loop need not end: C50). Defects: modulus 0, and random residues modulo a constant, print nothing with exit status 0 (C101_zero_modulus_refuted, C101_random_small_refuted)."
 ],
 "C102": [
  "partial",
  "Listings and tables while the number of residues (its square for units) fits an int; orders and generators while n * deg m <= 15; minimal and characteristic polynomials for irreducible m. Logarithms only if one exists within the range the code searches, which is computed from deg m and not from n (C72): otherwise an existing logarithm is not found (C102_log_refuted), and for deg m > 31 the behaviour is undefined (C102_log_large_refuted). Other defects: order or logarithm of an element without an inverse, no generator found, and modulus 0 print nothing with exit status 0 (C102_order_nonunit_refuted, C102_log_nonunit_refuted, C102_find_gen_refuted, C102_zero_modulus_refuted)."
 ],
 "C103": [
  "partial",
  "GF(2): degrees up to 30; from 32 on mostly undefined (C103_mod_2_refuted). GF(p), GF(2^n): the text of the reduced polynomial if the leading coefficient does not vanish (C103_mod_p_proper, C103_gf2n_proper); otherwise its zeros are printed too (C103_mod_p_refuted, C103_gf2n_refuted), the exact output is C103_mod_p, C103_gf2n. A text of commas only is undefined behaviour (C103_separators_refuted)."
 ],
 "C104": [
  "partial",
  "q_cyclotomic, and get_cyclo_fpn_poly (C104_cyclotomic_field_partial): or undefined from some argument on, since the computation may overflow an int (C104_cyclotomic_partial); a number below 1 ends the command silently with exit status 0 (C104_cyclotomic_refuted). fpn_p_gcd -e: second polynomial not 0, and it may be undefined (C104_ext_gcd_partial, C104_ext_gcd_refuted). gcd: INT_MIN excluded, where it is undefined (C104_gcd_program_int_min). The rest is proved in full."
 ],
 "C105": [
  "partial",
  "An order above 2147483647 overflows the counter and is undefined (C105_order_partial). A matrix that is not square, rows of different lengths, an unreadable line after the first row and a modulus below 1 end with nothing printed but exit status 0 (C105_rectangular_refuted, C105_ragged_refuted, C105_bad_line_refuted, C105_bad_modulus_refuted). An input without rows goes unnoticed and is undefined (C105_empty_refuted)."
 ],
 "C106": [
  "partial",
  "A modulus below 1 (below 2 for fp_mat_random), dimensions below 1 and a matrix that is not square end with nothing printed but exit status 0 (C106_bad_modulus_refuted, C106_random_refuted, C106_rectangular_refuted)."
 ],
 "C107": [
  "partial",
  "An order above 2147483647 overflows the counter and is undefined (C107_order_partial). For f2_mat_ord and f2_mat_ch_pol a matrix that is not square, for f2_mat_ord also rows of different lengths and an unreadable line after the first row, and for f2_mat_random dimensions below 1 end with nothing printed but exit status 0 (C107_rectangular_refuted, C107_ch_rectangular_refuted, C107_ragged_refuted, C107_bad_line_refuted, C107_random_refuted). f2_mat_ord of an input without rows goes unnoticed and is undefined (C107_empty_refuted)."
 ]
}