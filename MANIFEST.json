{
 "claims": [
  {
   "property": "C01",
   "status": "proved",
   "theorems": [
    "C01_gcd",
    "C01_gcd_int_min"
   ],
   "note": ""
  },
  {
   "property": "C02",
   "status": "proved",
   "theorems": [
    "C02_ext_gcd",
    "C02_ext_gcd_pos",
    "C02_ext_gcd_zero",
    "C02_lcm"
   ],
   "note": ""
  },
  {
   "property": "C03",
   "status": "proved",
   "theorems": [
    "C03_sqrt_floor",
    "C03_sqrt_ceil",
    "C03_sqrt_neg"
   ],
   "note": ""
  },
  {
   "property": "C04",
   "status": "partial",
   "theorems": [
    "C04_power_refuted",
    "C04_power_exact",
    "C04_power_zero"
   ],
   "note": "REFUTED as stated by C04_power_refuted (2^16: the squaring after the last multiplication overflows); C04_power_exact gives the exact set of arguments for which the power is returned."
  },
  {
   "property": "C05",
   "status": "partial",
   "theorems": [
    "C05_totient",
    "C05_totient_one_refuted"
   ],
   "note": "Holds for every n >= 2 (C05_totient); n = 1 REFUTED by C05_totient_one_refuted."
  },
  {
   "property": "C06",
   "status": "proved",
   "theorems": [
    "C06_is_prime",
    "C06_trial",
    "C06_agree",
    "C06_nth_prime",
    "C06_nth_prime_reject"
   ],
   "note": ""
  },
  {
   "property": "C07",
   "status": "proved",
   "theorems": [
    "C07_factor",
    "C07_factor_int_min",
    "C07_factor_zero"
   ],
   "note": ""
  },
  {
   "property": "C08",
   "status": "proved",
   "theorems": [
    "C08_msb32",
    "C08_msb64",
    "C08_lsb32",
    "C08_lsb64",
    "C08_log2_ceil",
    "C08_log2_ll_ceil",
    "C08_log10"
   ],
   "note": ""
  },
  {
   "property": "C09",
   "status": "partial",
   "theorems": [
    "C09_make",
    "C09_make_reject",
    "C09_ring",
    "C09_int_operand",
    "C09_mul_overflow",
    "C09_add_overflow",
    "C09_stream_in_refuted"
   ],
   "note": "All arithmetic and construction proved, with exact overflow conditions; stream input of a negative number leaves a non-canonical residue, REFUTED by C09_stream_in_refuted."
  },
  {
   "property": "C10",
   "status": "proved",
   "theorems": [
    "C10_recip",
    "C10_history_independent",
    "C10_div",
    "C10_mod_one"
   ],
   "note": ""
  },
  {
   "property": "C11",
   "status": "partial",
   "theorems": [
    "C11_exp_pos",
    "C11_exp_zero",
    "C11_exp_neg",
    "C11_zero_neg",
    "C11_int_min_refuted"
   ],
   "note": "Proved for every exponent except INT_MIN, where negation overflows (C11_int_min_refuted)."
  },
  {
   "property": "C12",
   "status": "proved",
   "theorems": [
    "C12_mismatch",
    "C12_eq",
    "C12_order"
   ],
   "note": ""
  },
  {
   "property": "C13",
   "status": "partial",
   "theorems": [
    "C13_make",
    "C13_make_zero",
    "C13_add",
    "C13_sub",
    "C13_neg",
    "C13_mul",
    "C13_div",
    "C13_mod",
    "C13_exp",
    "C13_exp_zero",
    "C13_exp_zero_neg",
    "C13_exp_refuted"
   ],
   "note": "Construction, +,-,*,/,% proved in full; exp proved whenever the final (discarded) squaring also fits; without that REFUTED by C13_exp_refuted ((2/3)^16)."
  },
  {
   "property": "C14",
   "status": "proved",
   "theorems": [
    "C14_order",
    "C14_eq",
    "C14_eq_int"
   ],
   "note": ""
  },
  {
   "property": "C15",
   "status": "proved",
   "theorems": [
    "C15_inverse",
    "C15_no_repeat",
    "C15_seq",
    "C15_counter",
    "C15_period"
   ],
   "note": ""
  },
  {
   "property": "C16",
   "status": "partial",
   "theorems": [
    "C16_new",
    "C16_get",
    "C16_set",
    "C16_toggle",
    "C16_out_of_range",
    "C16_arith",
    "C16_dot",
    "C16_length_mismatch",
    "C16_copy",
    "C16_fill_refuted",
    "C16_fill",
    "C16_assign_refuted",
    "C16_assign"
   ],
   "note": "Element access, toggle, +, -, *, +=, *=, dot, copy and leader search proved for every length. Filling with a constant is proved for lengths divisible by 64 (and with zeros under any reading of the shifts in trim); for other lengths it is undefined behaviour (C16_fill_refuted). Assignment is proved when the source has at most as many words as the target; otherwise it overruns the buffer (C16_assign_refuted)."
  },
  {
   "property": "C17",
   "status": "partial",
   "theorems": [
    "C17_eq_partial",
    "C17_eq_bit_partial",
    "C17_eq_refuted"
   ],
   "note": "REFUTED: the last word is never compared, so for every length there are unequal vectors comparing equal (C17_eq_refuted); C17_eq_partial and C17_eq_bit_partial say exactly what the comparisons decide."
  },
  {
   "property": "C18",
   "status": "proved",
   "theorems": [
    "C18_row_echelon",
    "C18_rank"
   ],
   "note": ""
  },
  {
   "property": "C19",
   "status": "partial",
   "theorems": [
    "C19_kernel",
    "C19_kernel_refuted"
   ],
   "note": "Proved when the number of columns is a multiple of 64, and for all widths when the out-of-range shifts in trim are read as yielding an arbitrary mask; under the C++ standard those shifts are undefined and so is the call whenever the kernel is non-trivial (C19_kernel_refuted)."
  },
  {
   "property": "C20",
   "status": "partial",
   "theorems": [
    "C20_det",
    "C20_inverse_refuted"
   ],
   "note": "Determinant proved; the inverse routine throws for every square matrix (C20_inverse_refuted)."
  },
  {
   "property": "C21",
   "status": "proved",
   "theorems": [
    "C21_count",
    "C21_count_nonpos"
   ],
   "note": ""
  },
  {
   "property": "C22",
   "status": "partial",
   "theorems": [
    "C22_int",
    "C22_ints",
    "C22_base_rep",
    "C22_mul_int",
    "C22_unique",
    "C22_eq",
    "C22_eq_int",
    "C22_degree",
    "C22_add",
    "C22_mul",
    "C22_mul_degree",
    "C22_mul_refuted"
   ],
   "note": "Sum, difference, comparison, degree proved in full; products are always the right polynomial and canonical when non-zero. Canonical form of a zero product REFUTED by C22_mul_refuted (x^128 times 0 keeps three words, and using it as a left factor accesses memory out of bounds)."
  },
  {
   "property": "C23",
   "status": "proved",
   "theorems": [
    "C23_quot_rem",
    "C23_unique",
    "C23_div_mod",
    "C23_zero_divisor"
   ],
   "note": ""
  },
  {
   "property": "C24",
   "status": "proved",
   "theorems": [
    "C24_gcd",
    "C24_gcd_zero",
    "C24_ext_gcd"
   ],
   "note": ""
  },
  {
   "property": "C25",
   "status": "proved",
   "theorems": [
    "C25_print",
    "C25_round_trip",
    "C25_from_string",
    "C25_read",
    "C25_read_fail"
   ],
   "note": ""
  },
  {
   "property": "C26",
   "status": "proved",
   "theorems": [
    "C26_exp",
    "C26_exp_zero",
    "C26_exp_negative",
    "C26_deriv",
    "C26_sqrt",
    "C26_eval",
    "C26_eval_bit"
   ],
   "note": "Evaluation: for polynomials whose bit count fits in int (C26_eval hypothesis)."
  },
  {
   "property": "C27",
   "status": "partial",
   "theorems": [
    "C27_make",
    "C27_make_zero",
    "C27_unique",
    "C27_ring",
    "C27_mul_int",
    "C27_recip",
    "C27_recip_none",
    "C27_div",
    "C27_mixed_moduli",
    "C27_exp",
    "C27_exp_0_0",
    "C27_exp_negative",
    "C27_exp_min_refuted",
    "C27_round_trip"
   ],
   "note": "Powers too, for every exponent except INT_MIN, where the negation overflows (C27_exp_min_refuted)."
  },
  {
   "property": "C28",
   "status": "partial",
   "theorems": [
    "C28_factor_partial",
    "C28_factor_refuted"
   ],
   "note": "Proved for every non-zero polynomial of degree up to INT_MAX under the reading in which bit_vector_t::trim's mask has some value (Some m). Under the strict C++ reading the shift in trim is undefined and every squarefree reducible polynomial whose degree is not a multiple of 64 reaches it (C28_factor_refuted)."
  },
  {
   "property": "C29",
   "status": "partial",
   "theorems": [
    "C29_is_irreducible_partial",
    "C29_is_irreducible_refuted",
    "C29_find_irreducible_partial",
    "C29_find_irreducible_nonpositive",
    "C29_find_irreducible_degree1_refuted"
   ],
   "note": "is_irreducible and the search proved (degree 2 up to INT_MAX) under the same proviso as C28; strictly read they reach undefined behaviour for squarefree reducible inputs (C29_is_irreducible_refuted). For degree 1 the search returns x+1 although x is lower (C29_find_irreducible_degree1_refuted)."
  },
  {
   "property": "C30",
   "status": "partial",
   "theorems": [
    "C30_totient_partial",
    "C30_totient_range",
    "C30_totient_refuted"
   ],
   "note": "Proved for every non-zero polynomial of degree 0..30 under the same proviso as C28 (C30_totient_refuted: strictly read undefined for squarefree reducible moduli). C30_totient_range: for irreducible moduli of degree 31 and up the int arithmetic overflows."
  },
  {
   "property": "C31",
   "status": "partial",
   "theorems": [
    "C31_order_partial",
    "C31_order_nonunit",
    "C31_order_refuted",
    "C31_primitive_partial",
    "C31_primitive_refuted"
   ],
   "note": "order: proved for moduli of degree at most 15 (the divisor list of the totient must not overflow; with degree 17 it does, C31_order_refuted) and for a defined mask in the bit-vector trim (a strict reading of the code makes it undefined, see C28). Primitivity: degree at most 30; the test ignores irreducibility, C31_primitive_refuted."
  },
  {
   "property": "C32",
   "status": "partial",
   "theorems": [
    "C32_fp_log",
    "C32_fp_log_nonunit",
    "C32_fp_log_mixed",
    "C32_f2_log_partial",
    "C32_f2_log_nonunit",
    "C32_f2_log_mixed",
    "C32_f2_log_refuted",
    "C32_sorting_exists"
   ],
   "note": "qsort is assumed to return a sorted permutation (hypothesis sorts; satisfiable, C32_sorting_exists). GF(2) logarithms for moduli of degree at most 30; for degree 31 the routine always throws, above that 1 << degree is undefined, C32_f2_log_refuted."
  },
  {
   "property": "C33",
   "status": "partial",
   "theorems": [
    "C33_ring",
    "C33_canonical",
    "C33_make_int",
    "C33_make",
    "C33_int",
    "C33_neg_partial",
    "C33_neg_refuted",
    "C33_exp",
    "C33_exp_negative",
    "C33_exp_const",
    "C33_exp_zero",
    "C33_mixed"
   ],
   "note": "unary minus writes past its one-element array for every polynomial of positive degree (C33_neg_refuted); the other operations are proved in full"
  },
  {
   "property": "C34",
   "status": "partial",
   "theorems": [
    "C34_quot_rem",
    "C34_quot_rem_zero",
    "C34_gcd",
    "C34_ext_gcd_partial",
    "C34_ext_gcd_refuted"
   ],
   "note": "extended gcd with zero as second argument throws instead of returning the first (C34_ext_gcd_refuted); division and gcd are proved in full; the gcd is not made monic"
  },
  {
   "property": "C35",
   "status": "partial",
   "theorems": [
    "C35_make",
    "C35_make_zero",
    "C35_canonical",
    "C35_ring",
    "C35_int",
    "C35_recip",
    "C35_unit_iff",
    "C35_div",
    "C35_rem",
    "C35_exp",
    "C35_exp_zero",
    "C35_exp_negative",
    "C35_exp_min_refuted",
    "C35_mixed",
    "C35_compare",
    "C35_eq_int",
    "C35_neg_partial",
    "C35_neg_refuted",
    "C35_mul_int_partial",
    "C35_mul_int_negative_refuted",
    "C35_mul_coef_refuted"
   ],
   "note": "+, -, *, /, %, reciprocals, powers, equality, comparisons and integer images agree with F_p[x]/(m) for every non-zero m and all residues (p prime, p <= 46341). Refuted in the model: unary minus writes outside its array for residues of positive degree; multiplication by a field element scales the modulus instead of the residue; multiplication by a negative int returns the operand unchanged; exp(INT_MIN) overflows. Formatted input/output not modelled."
  },
  {
   "property": "C36",
   "status": "partial",
   "theorems": [
    "C36_factor_partial",
    "C36_factor_zero",
    "C36_is_irreducible_partial"
   ],
   "note": "proved for primes p with p*p representable (p <= 46341, beyond which the coefficient arithmetic itself overflows) and polynomials of int-sized length; the loops are shown to terminate"
  },
  {
   "property": "C37",
   "status": "proved",
   "theorems": [
    "C37_order",
    "C37_order_nonunit",
    "C37_generator",
    "C37_generator_prime"
   ],
   "note": ""
  },
  {
   "property": "C38",
   "status": "proved",
   "theorems": [
    "C38_row_echelon",
    "C38_rank",
    "C38_fp"
   ],
   "note": ""
  },
  {
   "property": "C39",
   "status": "proved",
   "theorems": [
    "C39_kernel"
   ],
   "note": ""
  },
  {
   "property": "C40",
   "status": "proved",
   "theorems": [
    "C40_det",
    "C40_inverse",
    "C40_solve"
   ],
   "note": ""
  },
  {
   "property": "C41",
   "status": "proved",
   "theorems": [
    "C41_int_history",
    "C41_history",
    "C41_unfactor",
    "C41_merge",
    "C41_int_instance"
   ],
   "note": ""
  },
  {
   "property": "C42",
   "status": "partial",
   "theorems": [
    "C42_int_divisors",
    "C42_int_maximal",
    "C42_int_divisors_refuted",
    "C42_divisors",
    "C42_maximal"
   ],
   "note": "Generic theorems for any element type (C42_divisors, C42_maximal) and, for ints, every n with n*n <= INT_MAX; beyond that the extra squaring in the power routine overflows, REFUTED by C42_int_divisors_refuted (n = 65536)."
  },
  {
   "property": "C43",
   "status": "partial",
   "theorems": [
    "C43_get",
    "C43_copy_ctor",
    "C43_assign",
    "C43_assign_refuted",
    "C43_set",
    "C43_assign_scalar"
   ],
   "note": "Proved when the target has no buffer or one at least as large as the source; in every other case the assignment writes out of bounds (C43_assign_refuted)."
  },
  {
   "property": "C44",
   "status": "proved",
   "theorems": [
    "C44_stack_lifo"
   ],
   "note": ""
  },
  {
   "property": "C45",
   "status": "proved",
   "theorems": [
    "C45_tokenize",
    "C45_count",
    "C45_spec_content",
    "C45_spec_words",
    "C45_spec_maximal"
   ],
   "note": ""
  },
  {
   "property": "C46",
   "status": "partial",
   "theorems": [
    "C46_eval",
    "C46_reject",
    "C46_empty",
    "C46_total",
    "C46_sub_left",
    "C46_div_left",
    "C46_precedence",
    "C46_parentheses",
    "C46_intmod",
    "C46_intmod_total",
    "C46_extraneous_refuted",
    "C46_negative_refuted",
    "C46_int_min_refuted"
   ],
   "note": "proved for all token lists and all element types (grammar, precedence, rejection, termination) and for Z/m with m <= 46341; refuted in three points: text after an expression is noticed only when its value has been printed, negative numbers modulo m are not reduced when read (-3 == 4 is false modulo 7), the exponent INT_MIN is undefined. Reading a number from a string is a parameter"
  },
  {
   "property": "C47",
   "status": "partial",
   "theorems": [
    "C47_f2_poly",
    "C47_f2_poly_bad",
    "C47_f2_all",
    "C47_f2_units",
    "C47_f2_nonunits",
    "C47_f2_nonunits_const",
    "C47_f2_bad",
    "C47_int_all",
    "C47_int_units",
    "C47_int_nonunits",
    "C47_int_one_refuted",
    "C47_int_bad"
   ],
   "note": "proved for all degrees up to 30 and all moduli that can be handled; refuted for modulus 1 (C47_int_one_refuted): the unit listing throws and the listing of non-units returns an uninitialised element"
  },
  {
   "property": "C48",
   "status": "partial",
   "theorems": [
    "C48_lowest_terms",
    "C48_representation",
    "C48_canonical",
    "C48_make",
    "C48_poly",
    "C48_ring",
    "C48_neg",
    "C48_div",
    "C48_mod",
    "C48_eq",
    "C48_exp",
    "C48_exp_min_refuted",
    "C48_compare",
    "C48_compare_total",
    "C48_compare_eq",
    "C48_order_refuted"
   ],
   "note": "proved for construction, +, -, *, /, %, ==, powers and for comparison as comparison of cross products; refuted: < is not transitive (C48_order_refuted), exp(INT_MIN) is undefined (C48_exp_min_refuted)"
  },
  {
   "property": "C49",
   "status": "proved",
   "theorems": [
    "C49_fp_char_poly",
    "C49_fp_nonsquare",
    "C49_fp_companion",
    "C49_companion_char",
    "C49_fp_roundtrip",
    "C49_f2n_char_poly",
    "C49_f2n_nonsquare",
    "C49_f2n_companion",
    "C49_f2n_roundtrip",
    "C49_f2_char_poly",
    "C49_f2_nonsquare",
    "C49_f2_companion",
    "C49_f2_roundtrip"
   ],
   "note": ""
  },
  {
   "property": "C50",
   "status": "partial",
   "theorems": [
    "C50_f2_minimal",
    "C50_fp_minimal",
    "C50_f2n_minimal_partial",
    "C50_unique",
    "C50_irreducible",
    "C50_f2_frobenius",
    "C50_fp_frobenius",
    "C50_f2n_frobenius_partial",
    "C50_f2_nilpotent_refuted",
    "C50_fp_nilpotent_refuted"
   ],
   "note": "over GF(2^n) for n <= 30 (the size of the field is an int); a nilpotent non-zero residue modulo a reducible polynomial makes the Frobenius length loop forever (C50_f2_nilpotent_refuted, C50_fp_nilpotent_refuted)"
  },
  {
   "property": "C51",
   "status": "partial",
   "theorems": [
    "C51_arith",
    "C51_mul",
    "C51_mul_vec",
    "C51_exp",
    "C51_paste_square",
    "C51_paste_refuted"
   ],
   "note": "All arithmetic and powers proved for every field and shape (exponents other than INT_MIN). paste proved when the left matrix is square (C51_paste_square); for other shapes REFUTED by C51_paste_refuted (second block written at the wrong column offset)."
  },
  {
   "property": "C52",
   "status": "partial",
   "theorems": [
    "C52_get",
    "C52_add",
    "C52_transpose",
    "C52_mul",
    "C52_mul_vec",
    "C52_exp",
    "C52_mul_refuted",
    "C52_exp_refuted",
    "C52_outer_refuted"
   ],
   "note": "Sum and transpose proved; product, matrix-vector product and powers with exponent >= 1 proved with the same reading of trim as C19 (strictly UB: C52_mul_refuted); exponents <= 0 always throw (C52_exp_refuted), as does the outer product (C52_outer_refuted)."
  },
  {
   "property": "C53",
   "status": "partial",
   "theorems": [
    "C53_field",
    "C53_assign_refuted",
    "C53_exp_refuted"
   ],
   "note": "Arithmetic and construction proved (C53_field); assignment from an int keeps 8 bits (C53_assign_refuted) and 0^0 is 0 (C53_exp_refuted)."
  },
  {
   "property": "C54",
   "status": "proved",
   "theorems": [
    "C54_order",
    "C54_order_coef",
    "C54_increment",
    "C54_value_unique"
   ],
   "note": ""
  },
  {
   "property": "C55",
   "status": "partial",
   "theorems": [
    "C55_bit_at",
    "C55_bit_at_negative",
    "C55_set_bit",
    "C55_set_coeff_partial",
    "C55_set_coeff_refuted"
   ],
   "note": "bit_at and set_bit proved for all positions; set_coeff proved for positions below 31 within their word (C55_set_coeff_partial); REFUTED elsewhere by C55_set_coeff_refuted (undefined shift at 32, stray coefficients at 31)."
  },
  {
   "property": "C56",
   "status": "partial",
   "theorems": [
    "C56_generator_partial",
    "C56_generator_refuted"
   ],
   "note": "irreducible moduli of degree at most 15; for reducible moduli the search throws at the first non-unit, C56_generator_refuted."
  },
  {
   "property": "C57",
   "status": "partial",
   "theorems": [
    "C57_period_partial",
    "C57_find_prim_partial",
    "C57_find_prim_nonpositive"
   ],
   "note": "period: degree at most 15; search: degree at most 30 (beyond that the totient overflows); for a defined mask in the bit-vector trim."
  },
  {
   "property": "C58",
   "status": "partial",
   "theorems": [
    "C58_compare",
    "C58_num_injective",
    "C58_increment",
    "C58_from_base_rep",
    "C58_base_one_refuted",
    "C58_base_zero_refuted"
   ],
   "note": "for a prime modulus proved in full; from_base_rep loops forever for modulus 1 and divides by zero for modulus 0"
  },
  {
   "property": "C59",
   "status": "partial",
   "theorems": [
    "C59_deriv",
    "C59_eval",
    "C59_get_coeff",
    "C59_set_coeff",
    "C59_set_coeff_negative",
    "C59_promote_partial",
    "C59_pth_root",
    "C59_promote_refuted"
   ],
   "note": "multiplication by x of the zero polynomial leaves a zero leading coefficient (C59_promote_refuted); the rest is proved in full"
  },
  {
   "property": "C60",
   "status": "partial",
   "theorems": [
    "C60_find_irr_partial",
    "C60_find_irr_nonpositive",
    "C60_find_irr_degree1_refuted"
   ],
   "note": "degree 1 returns x+1 although x is lower (C60_find_irr_degree1_refuted); proved for degrees >= 2 and p <= 46341"
  },
  {
   "property": "C61",
   "status": "partial",
   "theorems": [
    "C61_totient_partial",
    "C61_totient_irreducible",
    "C61_totient_refuted"
   ],
   "note": "int_power squares once too often, so for example no irreducible quadratic over F_257 has its totient computed (C61_totient_refuted); proved whenever p^(2 deg f) is representable, and exactly characterised for irreducible f"
  },
  {
   "property": "C62",
   "status": "partial",
   "theorems": [
    "C62_ring",
    "C62_canonical",
    "C62_make_int",
    "C62_make",
    "C62_int",
    "C62_neg_partial",
    "C62_neg_refuted",
    "C62_exp",
    "C62_exp_negative",
    "C62_exp_const",
    "C62_exp_zero",
    "C62_field",
    "C62_elements",
    "C62_mixed"
   ],
   "note": "unary minus of a polynomial of positive degree writes outside its array (C62_neg_refuted), correct for constants; everything else holds for every finite field GF(2^n) given by an irreducible modulus"
  },
  {
   "property": "C63",
   "status": "partial",
   "theorems": [
    "C63_quot_rem",
    "C63_quot_rem_zero",
    "C63_gcd",
    "C63_ext_gcd_partial",
    "C63_ext_gcd_refuted"
   ],
   "note": "ext_gcd throws when an argument is zero (C63_ext_gcd_refuted); division, remainder and gcd hold without restriction"
  },
  {
   "property": "C64",
   "status": "proved",
   "theorems": [
    "C64_compare",
    "C64_num_injective",
    "C64_increment"
   ],
   "note": ""
  },
  {
   "property": "C65",
   "status": "partial",
   "theorems": [
    "C65_deriv",
    "C65_eval",
    "C65_get_coeff",
    "C65_set_coeff",
    "C65_set_coeff_negative",
    "C65_promote_partial",
    "C65_promote_refuted"
   ],
   "note": "promoting the zero polynomial leaves a non-canonical representation of degree 1 (C65_promote_refuted); the rest holds"
  },
  {
   "property": "C66",
   "status": "partial",
   "theorems": [
    "C66_square_root_partial",
    "C66_square_root_refuted"
   ],
   "note": "proved for n <= 31; for n >= 33 the exponent 1 << (n-1) is undefined behaviour (C66_square_root_refuted)"
  },
  {
   "property": "C67",
   "status": "partial",
   "theorems": [
    "C67_make",
    "C67_make_zero",
    "C67_canonical",
    "C67_ring",
    "C67_int",
    "C67_recip",
    "C67_unit_iff",
    "C67_div",
    "C67_rem",
    "C67_exp",
    "C67_exp_zero",
    "C67_exp_negative",
    "C67_exp_min_refuted",
    "C67_mixed",
    "C67_compare",
    "C67_eq_int",
    "C67_neg_partial",
    "C67_neg_refuted",
    "C67_mul_int"
   ],
   "note": "unary minus writes outside its array for residues of positive degree (C67_neg_refuted); exp(INT_MIN) overflows (C67_exp_min_refuted); the rest holds for all fields GF(2^n) and non-zero moduli. Formatted input/output not modelled"
  },
  {
   "property": "C68",
   "status": "partial",
   "theorems": [
    "C68_factor_partial",
    "C68_factor_zero",
    "C68_is_irreducible_partial",
    "C68_roots_partial"
   ],
   "note": "proved for n <= 30 (the field size is held in an int) and int-sized degrees"
  },
  {
   "property": "C69",
   "status": "partial",
   "theorems": [
    "C69_find_irr_partial",
    "C69_find_irr_nonpositive",
    "C69_find_irr_degree1_refuted"
   ],
   "note": "degree 1 returns x+1 although x is lower (C69_find_irr_degree1_refuted); proved for degrees >= 2 and n <= 30"
  },
  {
   "property": "C70",
   "status": "partial",
   "theorems": [
    "C70_totient_partial",
    "C70_totient_irreducible",
    "C70_totient_refuted",
    "C70_totient_field_refuted"
   ],
   "note": "int_power squares once too often, so the totient of any irreducible quadratic over GF(2^8) is undefined behaviour (C70_totient_refuted), and 1 << n is for n >= 32 (C70_totient_field_refuted); proved whenever 2 n deg f <= 30 and exactly characterised for irreducible f"
  },
  {
   "property": "C71",
   "status": "partial",
   "theorems": [
    "C71_order_partial",
    "C71_order_nonunit",
    "C71_find_generator_partial",
    "C71_find_generator_constant",
    "C71_find_generator_refuted"
   ],
   "note": "proved for n deg m <= 15, where the group order squared is representable (int_power squares once too often); the generator search throws at the first non-unit instead of reporting failure (C71_find_generator_refuted)"
  },
  {
   "property": "C72",
   "status": "partial",
   "theorems": [
    "C72_log_partial",
    "C72_log_refuted",
    "C72_log_nonunit",
    "C72_log_large_refuted",
    "C72_sorting_exists"
   ],
   "note": "the search assumes the group has 2^(deg m) elements instead of 2^(n deg m), so whenever (n-1) deg m >= 2 some logarithm modulo every irreducible m is missed (C72_log_refuted); a returned value is always right and every logarithm below 2^(deg m) is found (C72_log_partial); deg m = 31 throws and above is undefined (C72_log_large_refuted)"
  },
  {
   "property": "C73",
   "status": "partial",
   "theorems": [
    "C73_f2_objects",
    "C73_f2_det",
    "C73_fp_det",
    "C73_f2n_det",
    "C73_f2_zero_refuted",
    "C73_fp_zero_refuted",
    "C73_f2n_zero_refuted",
    "C73_nonsquare"
   ],
   "note": "proved for every non-zero matrix; for the zero matrix the row reduction leaves the denominator unset and the determinant throws (C73_*_zero_refuted)"
  },
  {
   "property": "C74",
   "status": "proved",
   "theorems": [
    "C74_products",
    "C74_conjugates"
   ],
   "note": ""
  },
  {
   "property": "C75",
   "status": "proved",
   "theorems": [
    "C75_f2m_vector",
    "C75_f2m_empty",
    "C75_f2_vector",
    "C75_f2_matrix",
    "C75_fp_vector",
    "C75_empty"
   ],
   "note": ""
  },
  {
   "property": "C76",
   "status": "partial",
   "theorems": [
    "C76_fp_lowest_terms",
    "C76_fp_canonical",
    "C76_fp_make",
    "C76_fp_ring",
    "C76_fp_div",
    "C76_fp_eq",
    "C76_fp_exp",
    "C76_fp_exp_min_refuted",
    "C76_fp_compare",
    "C76_fp_neg_partial",
    "C76_fp_neg_refuted",
    "C76_fp_order_refuted",
    "C76_f2n_lowest_terms",
    "C76_f2n_canonical",
    "C76_f2n_make",
    "C76_f2n_ring",
    "C76_f2n_div",
    "C76_f2n_eq",
    "C76_f2n_exp",
    "C76_f2n_exp_min_refuted",
    "C76_f2n_compare",
    "C76_f2n_neg_partial",
    "C76_f2n_neg_refuted"
   ],
   "note": "proved for construction, +, -, *, /, %, ==, powers and for comparison as comparison of cross products; refuted: unary minus is undefined for numerators of positive degree and otherwise not re-simplified, so -(a) == 0-a fails over GF(7) (C76_fp_neg_refuted); < has cycles (C76_fp_order_refuted); exp(INT_MIN) is undefined"
  },
  {
   "property": "C77",
   "status": "partial",
   "theorems": [
    "C77_fp_poly",
    "C77_fp_monics_refuted",
    "C77_fp_all",
    "C77_fp_units",
    "C77_fp_nonunits",
    "C77_fp_bad",
    "C77_f2n_poly",
    "C77_f2n_all",
    "C77_f2n_units",
    "C77_f2n_nonunits",
    "C77_f2n_bad"
   ],
   "note": "proved exactly where int_power does not overflow (pow_fits); refuted: the header promises monic polynomials only (C77_fp_monics_refuted), and sizes that fit in an int are undefined because of the extra squaring"
  },
  {
   "property": "C78",
   "status": "proved",
   "theorems": [
    "C78_f2_multiples",
    "C78_f2_rel_prime",
    "C78_f2_bad",
    "C78_int_multiples",
    "C78_int_rel_prime",
    "C78_int_bad"
   ],
   "note": ""
  },
  {
   "property": "C79",
   "status": "proved",
   "theorems": [
    "C79_f2_tuples",
    "C79_f2_points",
    "C79_fp_tuples",
    "C79_fp_points",
    "C79_f2_bad"
   ],
   "note": ""
  },
  {
   "property": "C80",
   "status": "partial",
   "theorems": [
    "C80_ring",
    "C80_division",
    "C80_division_by_zero",
    "C80_gcd",
    "C80_powers",
    "C80_values",
    "C80_compare",
    "C80_coefficients",
    "C80_negate_refuted",
    "C80_negate_constant"
   ],
   "note": "proved up to int overflow (the result is the exact one or the call is undefined); refuted: unary minus of a non-constant polynomial writes outside its array (C80_negate_refuted)"
  },
  {
   "property": "C81",
   "status": "proved",
   "theorems": [
    "C81_exist",
    "C81_unique",
    "C81_value",
    "C81_history"
   ],
   "note": "for every n and every history of calls; up to int overflow in the coefficients; existence and uniqueness of the cyclotomic polynomials are proved too"
  },
  {
   "property": "C82",
   "status": "partial",
   "theorems": [
    "C82_residue",
    "C82_bit",
    "C82_mod_p",
    "C82_mod_p_proper",
    "C82_mod_p_refuted",
    "C82_gf2n",
    "C82_gf2n_proper",
    "C82_gf2_partial",
    "C82_gf2_refuted",
    "C82_cyclotomic_p",
    "C82_cyclotomic_2n",
    "C82_cyclotomic_2_partial",
    "C82_cyclotomic_2_refuted",
    "C82_cyclotomic_reject"
   ],
   "note": "proved for GF(p), GF(2^n) and for degrees up to 30 over GF(2); refuted: leading coefficients that vanish are not dropped (C82_mod_p_refuted), degrees from 32 up over GF(2) are undefined (C82_gf2_refuted, C82_cyclotomic_2_refuted)"
  },
  {
   "property": "C83",
   "status": "partial",
   "theorems": [
    "C83_prep",
    "C83_field",
    "C83_root",
    "C83_roundtrip",
    "C83_reject",
    "C83_degree_refuted",
    "C83_sorting_exists",
    "C83_generators_exist"
   ],
   "note": "proved for first and second field of degree at most 30 (the sort of the C library is assumed to sort, C83_sorting_exists); from degree 31 on the conversion of nonzero elements throws (31) or is undefined (C83_degree_refuted)"
  },
  {
   "property": "C84",
   "status": "partial",
   "theorems": [
    "C84_f2_poly",
    "C84_f2_poly_neg",
    "C84_f2_poly_uniform",
    "C84_f2_polymod",
    "C84_f2_polymod_small",
    "C84_f2_polymod_uniform",
    "C84_f2_irr",
    "C84_f2_irr_result",
    "C84_f2_irr_reach",
    "C84_f2_irr_neg",
    "C84_f2_prim_partial",
    "C84_f2_prim_result_partial",
    "C84_f2_prim_neg",
    "C84_intmod",
    "C84_intmod_small",
    "C84_uint64",
    "C84_fp_poly",
    "C84_fp_poly_neg",
    "C84_fp_polymod",
    "C84_fp_polymod_small",
    "C84_fp_irr_partial",
    "C84_fp_irr_result_partial",
    "C84_fp_irr_neg",
    "C84_f2n_poly",
    "C84_f2n_poly_neg",
    "C84_f2n_polymod",
    "C84_f2n_polymod_0",
    "C84_f2n_irr_partial",
    "C84_f2n_irr_result_partial",
    "C84_f2n_irr_neg",
    "C84_source"
   ],
   "note": "random elements: proved for every source and state. Searches: proved relative to the irreducibility and primitivity tests, hence under their limits (the unspecified shifts of bit_vector_t::trim give some value; p <= 46341; fields GF(2^n) with n <= 30; primitive search for degree <= 30). That a search ends depends on the source: after any number of attempts it has returned the first candidate that passes, or none has passed (C84_*_irr); C84_f2_irr_reach shows that every irreducible polynomial with constant term 1 is reached."
  },
  {
   "property": "C85",
   "status": "partial",
   "theorems": [
    "C85_elements",
    "C85_coefficients",
    "C85_ring",
    "C85_canonical",
    "C85_sub_partial",
    "C85_sub_degree_partial",
    "C85_sub_refuted",
    "C85_neg_partial",
    "C85_neg_refuted",
    "C85_make",
    "C85_int",
    "C85_characteristic",
    "C85_exp",
    "C85_exp_negative",
    "C85_exp_const",
    "C85_exp_zero",
    "C85_quot_rem",
    "C85_quot_rem_zero",
    "C85_gcd",
    "C85_ext_gcd_partial",
    "C85_compare",
    "C85_num_injective",
    "C85_eval",
    "C85_get_coeff",
    "C85_set_coeff",
    "C85_set_coeff_negative",
    "C85_promote_partial",
    "C85_field",
    "C85_prime_field",
    "C85_mixed",
    "C85_ext_gcd_refuted"
   ],
   "note": "p <= 46341. Proved: +, *, quotients, gcd, powers, values, coefficients, comparison. Differences are right exactly if the coefficients of the subtrahend beyond the degree of the minuend lie in the prime field, and undefined otherwise (C85_sub_partial, C85_sub_refuted); unary minus is defined for prime field constants only (C85_neg_refuted); the extended gcd is right or undefined (C85_ext_gcd_partial, C85_ext_gcd_refuted)"
  },
  {
   "property": "C86",
   "status": "partial",
   "theorems": [
    "C86_deriv_partial",
    "C86_deriv_behaviour",
    "C86_deriv_refuted",
    "C86_mul_intmod_partial",
    "C86_mul_intmod_refuted",
    "C86_mul_intmod_zero",
    "C86_pth_root_refuted",
    "C86_unimplemented"
   ],
   "note": "the derivative is right for degrees up to 1 and never right from degree 2 on (C86_deriv_refuted); multiplication by a prime field element other than 1 gives an object that is no polynomial over the field (C86_mul_intmod_refuted); p-th roots always throw (C86_pth_root_refuted)"
  },
  {
   "property": "C87",
   "status": "partial",
   "theorems": [
    "C87_make",
    "C87_make_zero",
    "C87_canonical",
    "C87_ring",
    "C87_sub_partial",
    "C87_sub_refuted",
    "C87_int",
    "C87_recip_partial",
    "C87_unit_iff",
    "C87_div_partial",
    "C87_rem_partial",
    "C87_exp",
    "C87_exp_zero",
    "C87_exp_negative_partial",
    "C87_exp_min_refuted",
    "C87_mixed",
    "C87_compare",
    "C87_eq_int",
    "C87_neg_partial",
    "C87_neg_refuted",
    "C87_mul_int_partial",
    "C87_mul_int_refuted",
    "C87_recip_refuted"
   ],
   "note": "p <= 46341. Proved: construction, +, *, ==, comparison, non-negative powers, integers. Differences, unary minus as in C85; reciprocals, quotients, remainders and negative powers are right or undefined (C87_recip_partial, C87_recip_refuted); negative integer multiples give 0 (C87_mul_int_refuted)"
  },
  {
   "property": "C88",
   "status": "partial",
   "theorems": [
    "C88_plus_scalar",
    "C88_minus_scalar",
    "C88_scalar_nonsquare",
    "C88_diagonalizable_partial",
    "C88_extension_partial",
    "C88_nonsquare"
   ],
   "note": "Proved when the degree of the splitting field over GF(2) is at most 30 (the searches for generators and square roots shift an int). With the strict reading of bit_vector_t::trim (tm = None) the search for the extension's modulus is undefined as in C29. The printing is not modelled."
  },
  {
   "property": "C89",
   "status": "partial",
   "theorems": [
    "C89_parse",
    "C89_command",
    "C89_output_partial",
    "C89_long_word_refuted",
    "C89_nul_refuted",
    "C89_plain",
    "C89_reject",
    "C89_round",
    "C89_popen",
    "C89_expand",
    "C89_loop"
   ],
   "note": "Acceptance, order and nesting are proved. The words of the output are right for outputs without NUL bytes whose lines have at most 4095 bytes and whose length is below INT_MAX/3; longer words are cut (C89_long_word_refuted) and a line starting with a NUL byte is undefined (C89_nul_refuted). Output that contains brackets is expanded again, which need not end (C89_loop). The shell is a parameter: it sees the words joined by blanks, without quoting."
  },
  {
   "property": "C90",
   "status": "partial",
   "theorems": [
    "C90_vector_accepts",
    "C90_matrix_accepts",
    "C90_vector_lengths",
    "C90_vector_comparisons",
    "C90_vector_value",
    "C90_vector_comparison",
    "C90_vector_text",
    "C90_vector_trailing_blank",
    "C90_vector_empty",
    "C90_matrix_value",
    "C90_matrix_total",
    "C90_matrix_unique",
    "C90_reduced_unique",
    "C90_matrix_fp",
    "C90_matrix_fp_any",
    "C90_matrix_fp_total",
    "C90_matrix_text",
    "C90_matrix_ragged",
    "C90_column_text",
    "C90_overrun_refuted",
    "C90_negative_entry_refuted",
    "C90_min_exponent_refuted"
   ],
   "note": "Proved for the grammar, for values of vector expressions without comparisons or with one, and for matrix expressions (any field; instance modulo a prime p <= 46341) whose bracketed texts have no minus sign and whose exponents are not INT_MIN. Refuted: a comparison whose left side is a compound of shorter vectors overruns a buffer (C90_overrun_refuted), a second comparison of vectors never succeeds (C90_vector_comparisons), entries with a minus sign compare wrongly (C90_negative_entry_refuted), the exponent INT_MIN is undefined (C90_min_exponent_refuted). For kerbas, rr and rrnz the printed value is one of those the operator may have. Reading a matrix from a file is a parameter; printing is not modelled."
  },
  {
   "property": "C91",
   "status": "partial",
   "theorems": [
    "C91_matrix_read",
    "C91_matrix_ragged",
    "C91_matrix_bad",
    "C91_matrix_none",
    "C91_matrix_long",
    "C91_last_line_refuted",
    "C91_indent_refuted",
    "C91_round_trip",
    "C91_several",
    "C91_vector_read",
    "C91_vector_round_trip",
    "C91_vector_long",
    "C91_mod_round_trip",
    "C91_mod_several",
    "C91_mod_vector",
    "C91_mod_any_file",
    "C91_indented_refuted",
    "C91_bits_read",
    "C91_bits_ragged",
    "C91_bits_round_trip",
    "C91_bits_any_text",
    "C91_bitvec_read",
    "C91_bitvec_round_trip",
    "C91_bits_trailing_refuted",
    "C91_bits_reuse_refuted",
    "C91_mod_read",
    "C91_file_operand",
    "C91_file_ragged",
    "C91_file_missing",
    "C91_files_ok",
    "C91_file_expression"
   ],
   "note": "Round trips, reading of any well-formed text, failures and use in expressions are proved; for integers modulo m <= 46341 every file shorter than 65536 characters without minus signs is either read into a matrix of the right shape or refused, for bit matrices every text. Refuted: the last line of a text without final newline is dropped without error (C91_last_line_refuted), indentation accumulates and overruns the line buffer (C91_indent_refuted, C91_indented_refuted), bit matrices refuse lines with trailing blanks (C91_bits_trailing_refuted) and cannot be read into a variable that has rows (C91_bits_reuse_refuted)."
  },
  {
   "property": "C92",
   "status": "partial",
   "theorems": [
    "C92_fp_read",
    "C92_fp_meaning",
    "C92_fp_reject",
    "C92_fp_reject_digit",
    "C92_fp_print",
    "C92_fp_round_trip",
    "C92_fp_stream",
    "C92_fp_stream_reject",
    "C92_fpm_read",
    "C92_fpm_round_trip",
    "C92_fpm_stream",
    "C92_fp_separators_refuted",
    "C92_fp_empty_refuted",
    "C92_fpn_read",
    "C92_fpn_reject",
    "C92_fpn_round_trip",
    "C92_fpn_stream",
    "C92_fpnm_read",
    "C92_fpnm_round_trip",
    "C92_fpnm_stream",
    "C92_fpn_separators_refuted",
    "C92_fpn_commas_refuted",
    "C92_f2n_read",
    "C92_f2n_reject",
    "C92_f2n_stream_reject",
    "C92_f2n_round_trip",
    "C92_f2n_stream",
    "C92_f2n_istream",
    "C92_f2n_istream_end_refuted",
    "C92_f2nm_read",
    "C92_f2nm_round_trip",
    "C92_f2nm_stream",
    "C92_f2n_separators_refuted",
    "C92_q_read",
    "C92_q_read_digits",
    "C92_q_reject",
    "C92_q_numerators",
    "C92_q_round_trip",
    "C92_q_constant",
    "C92_q_constant_refuted",
    "C92_q_constant_rejected_refuted",
    "C92_q_stream",
    "C92_q_stream_reject",
    "C92_q_stream_negative_refuted",
    "C92_q_stream_fraction_refuted",
    "C92_q_separators_refuted"
   ],
   "note": "Reading, refusals, round trips and streams are proved over GF(p), GF(2^n) and GF(p^n) for polynomials and residue classes. Refuted: a text of nothing but separators leaves a pointer to released memory (undefined for the residue classes), the empty text is undefined for p < 10, the istream overload over GF(2^n) reports failure if the text ends with the polynomial; over Q denominators are dropped, constants of ten and more are misread, negative and fractional constants are refused, and streams stop at the first sign or slash (C92_*_refuted). Over GF(p^n) a text is shown to be refused only if a coefficient starts with neither digit nor comma."
  },
  {
   "property": "C93",
   "status": "partial",
   "theorems": [
    "C93_rat_whole",
    "C93_rat_over",
    "C93_rat_zero",
    "C93_rat_stream",
    "C93_rat_round_trip",
    "C93_rat_junk_refuted",
    "C93_rat_large_refuted",
    "C93_rat_empty_refuted",
    "C93_rat_empty",
    "C93_fp_whole",
    "C93_fp_over",
    "C93_fp_round_trip",
    "C93_fp_junk_refuted",
    "C93_f2_whole",
    "C93_f2_over",
    "C93_f2_round_trip",
    "C93_f2_junk_refuted",
    "C93_f2n_whole",
    "C93_f2n_over",
    "C93_f2n_istream_whole",
    "C93_f2n_istream_over",
    "C93_f2n_istream_end_refuted",
    "C93_f2n_round_trip",
    "C93_f2n_junk_refuted"
   ],
   "note": "Reading and round trips are proved for rational numbers and for rational functions over GF(2), GF(p), GF(2^n). Refuted: what is no number or polynomial is read as 0 (or leaves the old numerator), what is too large as 2^31-1, all with success; the istream overloads accept the empty text for numbers, and fail over GF(2^n) if the text ends with the denominator (C93_*_refuted)."
  },
  {
   "property": "C94",
   "status": "partial",
   "theorems": [
    "C94_gcd",
    "C94_gcd_sign_refuted",
    "C94_ext_gcd",
    "C94_ext_gcd_zero_refuted",
    "C94_ext_gcd_overflow_refuted",
    "C94_lcm",
    "C94_lcm_overflow_refuted",
    "C94_lcm_zero_refuted",
    "C94_totient",
    "C94_test_prime",
    "C94_nth_prime",
    "C94_nth_prime_reject_refuted",
    "C94_nth_prime_name_refuted",
    "C94_list",
    "C94_list_overflow_refuted",
    "C94_list_last_refuted",
    "C94_factor",
    "C94_factor_int_min_refuted",
    "C94_divisors",
    "C94_maximal",
    "C94_maximal_unit",
    "C94_divisors_overflow_refuted",
    "C94_no_arguments",
    "C94_no_arguments_refuted",
    "C94_no_number",
    "C94_gcd_no_number",
    "C94_partial_output_refuted"
   ],
   "note": "Proved for all arguments within the ranges stated in each theorem. Refuted: z_gcd prints a negative number for a single negative argument or 0 and a negative one; z_gcd -e is undefined for 0 as second argument and overflows in its check; z_lcm overflows though the result fits, and is undefined for 0 0; z_list is undefined if the value after the last one does not fit; z_factor of -2^31 and z_divisors beyond 46340 can overflow; z_test_prime and z_factor accept no arguments; nth_prime is known by another name only and fails with status 0; output precedes the usage message (C94_*_refuted)."
  },
  {
   "property": "C95",
   "status": "partial",
   "theorems": [
    "C95_list_all",
    "C95_list_units",
    "C95_list_nonunits",
    "C95_list_multiples",
    "C95_list_rel_prime",
    "C95_list_default_refuted",
    "C95_list_one_refuted",
    "C95_table_all",
    "C95_table_units",
    "C95_table_log",
    "C95_table_alog",
    "C95_table_log_found",
    "C95_order",
    "C95_order_nonunit_refuted",
    "C95_max_order",
    "C95_orbit",
    "C95_orbit_even",
    "C95_orbit_not_coprime_refuted",
    "C95_orbit_zero_refuted",
    "C95_generator",
    "C95_log",
    "C95_log_none_refuted",
    "C95_random",
    "C95_random_small_refuted"
   ],
   "note": "Proved for all moduli in the ranges stated. Refuted: fp_orbit accepts elements that are not coprime to the modulus unless both are even, and is undefined modulo 0; fp_list without option is refused; fp_list modulo 1, fp_ord of a non-unit, fp_log of an element without logarithm and fp_random modulo less than 2 print nothing and have status 0 (C95_*_refuted)."
  },
  {
   "property": "C96",
   "status": "partial",
   "theorems": [
    "C96_dispatch",
    "C96_names",
    "C96_list",
    "C96_no_command",
    "C96_unknown_refuted"
   ],
   "note": "Dispatch, listing and the names are proved. Refuted: an unknown command, an exception and a non-zero return value of the handler all give exit status 0 (C96_unknown_refuted, C96_dispatch)."
  },
  {
   "property": "C97",
   "status": "partial",
   "theorems": [
    "C97_text",
    "C97_text_meaning",
    "C97_deg",
    "C97_deg_bad",
    "C97_gcd",
    "C97_ext_gcd",
    "C97_lcm",
    "C97_lcm_zero_refuted",
    "C97_no_arguments",
    "C97_eval",
    "C97_companion",
    "C97_list",
    "C97_list_refuted",
    "C97_random",
    "C97_random_one",
    "C97_random_refuted",
    "C97_totient_partial",
    "C97_test_partial",
    "C97_period_partial",
    "C97_factor_partial",
    "C97_divisors_partial",
    "C97_maximal_partial",
    "C97_divisors_zero_refuted",
    "C97_find_partial",
    "C97_find_refuted",
    "C97_find_random_partial",
    "C97_mask_refuted"
   ],
   "note": "The theorems named _partial assume that the mask which bit_vector_t::trim shifts has some value (it is never initialised: C97_mask_refuted shows undefined behaviour otherwise) and bound the degree as stated. Refuted: f2_p_lcm 0 0, f2_p_random of a negative degree and f2_p_list 31 print nothing and have status 0, f2_p_list beyond is undefined, f2_p_divisors 0 prints only 1, f2_p_find -1 -i 1 prints x+1 though x is lower. f2_p_qp is modelled without theorems."
  },
  {
   "property": "C98",
   "status": "partial",
   "theorems": [
    "C98_text",
    "C98_deg",
    "C98_deg_bad",
    "C98_empty_refuted",
    "C98_gcd",
    "C98_ext_gcd_partial",
    "C98_ext_gcd_refuted",
    "C98_ext_gcd_order",
    "C98_lcm",
    "C98_lcm_zero_refuted",
    "C98_totient_partial",
    "C98_test_partial",
    "C98_factor_partial",
    "C98_divisors_partial",
    "C98_maximal_partial",
    "C98_divisors_zero_refuted",
    "C98_eval",
    "C98_companion",
    "C98_list_partial",
    "C98_list_refuted",
    "C98_find_partial",
    "C98_find_refuted",
    "C98_find_random_partial",
    "C98_random",
    "C98_random_one",
    "C98_random_refuted",
    "C98_no_arguments",
    "C98_bad_modulus"
   ],
   "note": "p up to 46341 (larger moduli overflow). Bezout identities only if the second polynomial is not 0 (otherwise nothing is printed: refuted); units and listings only while p^(2 deg) fits in an int (listings beyond are undefined: refuted); divisors up to degree 30 and not of 0 (refuted); the lowest irreducible from degree 2 (degree 1 refuted); texts without entries are undefined (refuted); negative random degrees print nothing (refuted). fp_p_qp and the expression commands are not stated."
  },
  {
   "property": "C99",
   "status": "partial",
   "theorems": [
    "C99_text",
    "C99_text_meaning",
    "C99_element",
    "C99_deg",
    "C99_deg_bad",
    "C99_empty_refuted",
    "C99_gcd",
    "C99_ext_gcd_partial",
    "C99_ext_gcd_refuted",
    "C99_ext_gcd_order",
    "C99_lcm",
    "C99_lcm_zero_refuted",
    "C99_totient_partial",
    "C99_test_partial",
    "C99_factor_partial",
    "C99_divisors_partial",
    "C99_maximal_partial",
    "C99_divisors_zero_refuted",
    "C99_eval",
    "C99_eval_bad",
    "C99_companion",
    "C99_list_partial",
    "C99_list_refuted",
    "C99_find_partial",
    "C99_find_refuted",
    "C99_find_random_partial",
    "C99_random",
    "C99_random_one",
    "C99_random_refuted",
    "C99_no_arguments",
    "C99_bad_modulus"
   ],
   "note": "m irreducible. Bezout identities only if the second polynomial is not 0 (otherwise nothing is printed: refuted); from C99_totient_partial on deg m is at most 30; units and listings only while 2 n deg <= 30 (listings are undefined once (2^n)^(2^k) overflows: refuted); divisors up to degree 30 and not of 0 (refuted); the lowest irreducible from degree 2 (degree 1 refuted); texts without entries are undefined (refuted); negative random degrees print nothing (refuted). f2n_p_qp and the expression commands are not stated."
  },
  {
   "property": "C100",
   "status": "partial",
   "theorems": [
    "C100_text",
    "C100_text_class",
    "C100_list_all",
    "C100_list_units",
    "C100_list_nonunits",
    "C100_list_multiples",
    "C100_list_rel_prime",
    "C100_list_refuted",
    "C100_table_all",
    "C100_table_units",
    "C100_table_log",
    "C100_table_alog",
    "C100_table_found_partial",
    "C100_order_partial",
    "C100_order_bad_partial",
    "C100_bad_element",
    "C100_order_nonunit_refuted",
    "C100_log_partial",
    "C100_log_none_refuted",
    "C100_log_refuted",
    "C100_min_pol_partial",
    "C100_ch_pol_partial",
    "C100_random",
    "C100_random_one",
    "C100_find_gen_partial",
    "C100_convert_partial",
    "C100_convert_none",
    "C100_list_default_refuted",
    "C100_zero_modulus_refuted",
    "C100_random_small_refuted",
    "C100_order_refuted",
    "C100_find_gen_refuted",
    "C100_no_arguments",
    "C100_bad_modulus"
   ],
   "note": "Listings and tables for degree of m up to 30 (degree 31: nothing printed with the status of success; beyond: undefined, C100_list_refuted). Orders, generators and tables to the generator found: degree up to 15 (overflow from 17 on, C100_order_refuted); generators only for irreducible m (x^2 has one that is not found, C100_find_gen_refuted). Characteristic and minimal polynomials and conversions: irreducible moduli. Whenever there is no result (no inverse, no logarithm, modulus 0) nothing is printed but the exit status is 0 (refuted). The option of f2_pm_list, in brackets in its usage, cannot be left out (refuted)."
  },
  {
   "property": "C101",
   "status": "partial",
   "theorems": [
    "C101_text",
    "C101_text_class",
    "C101_list_all",
    "C101_list_units",
    "C101_list_nonunits",
    "C101_table_all",
    "C101_table_units",
    "C101_table_other",
    "C101_order",
    "C101_order_exists",
    "C101_order_nonunit",
    "C101_min_pol_partial",
    "C101_ch_pol_partial",
    "C101_random",
    "C101_random_one",
    "C101_random_small_refuted",
    "C101_zero_modulus_refuted",
    "C101_bad_residue",
    "C101_no_arguments",
    "C101_bad_modulus"
   ],
   "note": "Listings of all residues and the tables of all residues: exactly while the smallest power p^(2^k) computed fits an int (otherwise undefined, C101_list_all); of units: p^(2 deg m) within int. Orders: all of them up to 2^31-1, beyond undefined (C101_order). Minimal and characteristic polynomials for irreducible m only (for others the loop need not end: C50). Defects: modulus 0, and random residues modulo a constant, print nothing with exit status 0 (C101_zero_modulus_refuted, C101_random_small_refuted)."
  },
  {
   "property": "C102",
   "status": "partial",
   "theorems": [
    "C102_text",
    "C102_text_class",
    "C102_list_all_partial",
    "C102_list_units_partial",
    "C102_list_nonunits_partial",
    "C102_table_all_partial",
    "C102_table_units_partial",
    "C102_table_log_partial",
    "C102_table_alog_partial",
    "C102_table_found_partial",
    "C102_order_partial",
    "C102_order_nonunit_refuted",
    "C102_log_partial",
    "C102_log_nonunit_refuted",
    "C102_log_refuted",
    "C102_log_large_refuted",
    "C102_min_pol_partial",
    "C102_ch_pol_partial",
    "C102_random",
    "C102_random_one",
    "C102_find_gen_partial",
    "C102_find_gen_refuted",
    "C102_zero_modulus_refuted",
    "C102_no_arguments",
    "C102_bad_modulus",
    "C102_bad_residue"
   ],
   "note": "Listings and tables while the number of residues (its square for units) fits an int; orders and generators while n * deg m <= 15; minimal and characteristic polynomials for irreducible m. Logarithms only if one exists within the range the code searches, which is computed from deg m and not from n (C72): otherwise an existing logarithm is not found (C102_log_refuted), and for deg m > 31 the behaviour is undefined (C102_log_large_refuted). Other defects: order or logarithm of an element without an inverse, no generator found, and modulus 0 print nothing with exit status 0 (C102_order_nonunit_refuted, C102_log_nonunit_refuted, C102_find_gen_refuted, C102_zero_modulus_refuted)."
  },
  {
   "property": "C103",
   "status": "partial",
   "theorems": [
    "C103_mod_2_partial",
    "C103_mod_2_stop",
    "C103_mod_2_refuted",
    "C103_mod_p",
    "C103_mod_p_proper",
    "C103_mod_p_refuted",
    "C103_mod_p_stop",
    "C103_gf2n",
    "C103_gf2n_proper",
    "C103_gf2n_refuted",
    "C103_gf2n_stop",
    "C103_no_arguments",
    "C103_bad_modulus",
    "C103_separators_refuted",
    "C103_text_unique"
   ],
   "note": "GF(2): degrees up to 30; from 32 on mostly undefined (C103_mod_2_refuted). GF(p), GF(2^n): the text of the reduced polynomial if the leading coefficient does not vanish (C103_mod_p_proper, C103_gf2n_proper); otherwise its zeros are printed too (C103_mod_p_refuted, C103_gf2n_refuted), the exact output is C103_mod_p, C103_gf2n. A text of commas only is undefined behaviour (C103_separators_refuted)."
  },
  {
   "property": "C104",
   "status": "partial",
   "theorems": [
    "C104_cyclotomic_partial",
    "C104_cyclotomic_refuted",
    "C104_cyclotomic_stop",
    "C104_random",
    "C104_usage",
    "C104_text",
    "C104_gcd",
    "C104_ext_gcd_partial",
    "C104_gcd_bad",
    "C104_cyclotomic_field_partial",
    "C104_reduce",
    "C104_reduce_stop",
    "C104_bad_modulus",
    "C104_gcd_program",
    "C104_gcd_program_int_min",
    "C104_gcd_program_usage",
    "C104_ext_gcd_refuted"
   ],
   "note": "q_cyclotomic, and get_cyclo_fpn_poly (C104_cyclotomic_field_partial): or undefined from some argument on, since the computation may overflow an int (C104_cyclotomic_partial); a number below 1 ends the command silently with exit status 0 (C104_cyclotomic_refuted). fpn_p_gcd -e: second polynomial not 0, and it may be undefined (C104_ext_gcd_partial, C104_ext_gcd_refuted). gcd: INT_MIN excluded, where it is undefined (C104_gcd_program_int_min). The rest is proved in full."
  },
  {
   "property": "C105",
   "status": "partial",
   "theorems": [
    "C105_usage",
    "C105_bad_modulus_refuted",
    "C105_printed",
    "C105_order_partial",
    "C105_singular",
    "C105_rectangular_refuted",
    "C105_empty_refuted",
    "C105_ragged_refuted",
    "C105_bad_line_refuted"
   ],
   "note": "An order above 2147483647 overflows the counter and is undefined (C105_order_partial). A matrix that is not square, rows of different lengths, an unreadable line after the first row and a modulus below 1 end with nothing printed but exit status 0 (C105_rectangular_refuted, C105_ragged_refuted, C105_bad_line_refuted, C105_bad_modulus_refuted). An input without rows goes unnoticed and is undefined (C105_empty_refuted)."
  },
  {
   "property": "C106",
   "status": "partial",
   "theorems": [
    "C106_usage",
    "C106_bad_modulus_refuted",
    "C106_char_poly",
    "C106_rectangular_refuted",
    "C106_no_file",
    "C106_ragged",
    "C106_no_rows",
    "C106_random",
    "C106_random_refuted"
   ],
   "note": "A modulus below 1 (below 2 for fp_mat_random), dimensions below 1 and a matrix that is not square end with nothing printed but exit status 0 (C106_bad_modulus_refuted, C106_random_refuted, C106_rectangular_refuted)."
  },
  {
   "property": "C107",
   "status": "partial",
   "theorems": [
    "C107_printed",
    "C107_signed",
    "C107_usage",
    "C107_order_partial",
    "C107_order_exists",
    "C107_singular",
    "C107_rectangular_refuted",
    "C107_ragged_refuted",
    "C107_empty_refuted",
    "C107_bad_line_refuted",
    "C107_char_poly",
    "C107_ch_rectangular_refuted",
    "C107_no_file",
    "C107_ragged",
    "C107_no_rows",
    "C107_random",
    "C107_random_refuted"
   ],
   "note": "An order above 2147483647 overflows the counter and is undefined (C107_order_partial). For f2_mat_ord and f2_mat_ch_pol a matrix that is not square, for f2_mat_ord also rows of different lengths and an unreadable line after the first row, and for f2_mat_random dimensions below 1 end with nothing printed but exit status 0 (C107_rectangular_refuted, C107_ch_rectangular_refuted, C107_ragged_refuted, C107_bad_line_refuted, C107_random_refuted). f2_mat_ord of an input without rows goes unnoticed and is undefined (C107_empty_refuted)."
  }
 ]
}