# Formal model of spffl in Rocq

`/repo` (the C++ library `spffl`: integers mod m, GF(2)[x], F_p[x], GF(2^n)[x], residue
classes, matrices over finite fields, factorization, unit groups, a small expression
evaluator) was read as text. Nothing was executed. Every definition of the model carries
a comment citing the file and lines it models.

## Conventions of the model

* **Outcomes.** A C++ call is a value of `res A` (`theories/Base.v`):
  `Ok a` (normal return), `Exn` (an `exception_t` is thrown), `UB` (signed
  overflow, division by zero, shift out of range, out-of-bounds access,
  use of an uninitialised value), `Div` (the loop fuel ran out: the model cannot
  exhibit a normal return). A theorem that says `= Ok v` excludes the other three.
* **Integers.** `int` is `Z` with an explicit range check after each arithmetic
  operation (`chk`), 32 bits; `unsigned`/`uint64_t` are `N`/`Z` with explicit wrap.
* **Loops** are the combinator `loop fuel step state`, or structural recursion on
  the iteration range when the C++ loop is a counted `for`. Where a loop is fuelled,
  the theorems show the fuel suffices (`Ok`, never `Div`), so termination is part of them.
* **Specifications** are independent of the model: divisibility/primality on `Z`
  from the standard library, `{poly 'F_p}`, matrices, `\rank`, `\det`, coprimality of
  polynomials, finite fields from Mathematical Components.
* **Files.** `M*.v` hold the definitions of the model, `P*.v` proofs, `Prop*.v` the final
  theorems `Cnn_...` for property `Cnn`, `Example`s meeting their hypotheses, and
  `Print Assumptions`.
* **Names.** `_partial`: the English claim needs the extra hypotheses visible in the
  statement, and the note in `MANIFEST.json` says what is missing. `_refuted`: the code
  violates the claim; the theorem exhibits or characterises the violation.

## Trusted base

* Coq 8.16.1's kernel, including `vm_compute`.
* The faithfulness of the reading of the C++ source into Gallina (mutation-tested on the
  theorem side, see `seeded/LOG.jsonl`; the cited lines allow a check on the other).
* `Print Assumptions` says **`Closed under the global context` for every theorem** named in
  `MANIFEST.json`; `tools/assumptions.py` repeats the check for all of them after a build.
  No axiom of the standard library or of any other library is used. (A scan of loaded
  modules shows names such as `mathcomp.ssreflect.finset.Imset.imset`: these are fields of
  sealed modules inside Mathematical Components, defined there, not axioms, and they do not
  appear under `Print Assumptions`.)
* No functors, module types, axioms, `Admitted`, or switched-off kernel checks.

## What is modelled

| Model file | C++ source | Functions |
|---|---|---|
| `MIntMath` | intmath/int_gcd, int_power, int_sqrt, int_totient, log2, log10 | all |
| `MPrime`, `MPrimes16` | intmath/is_prime, primes_16 | all; the table is transcribed by `tools/gen_primes.py` |
| `MIntmod` | intmath/intmod_t | construction, arithmetic, comparison, exp, recip with its static cache as explicit state, stream input after parsing |
| `MIntrat` | intmath/intrat_t | construction, arithmetic, comparison, exp |
| `MFac` | containers/tfacinfo.h, factorization/int_factor | insert, merge, exp, unfactor, divisors, maximal divisors; int_factor |
| `MMisc` | bits/count_bits, bitrand/psdes, base/tokenize | all |
| `MCont` | containers/tvector.h, tstack.h | storage: construction, copy, assignment, access, push, pop |
| `MMat` | containers/tmatrix.h (generic in the element type) | arithmetic, row reduction, echelon form, rank, kernel, inverse, determinant, solve, paste, split, powers |
| `MBits` | bits/bit_t, bit_vector_t, bit_matrix_t | all but stream i/o and random |
| `MF2Poly` | polynomials/f2_poly_t, f2_polymod_t | all incl. hexadecimal text input and output |
| `MF2Fac` | factorization/f2_poly_factor, f2_poly_totient | all (random_irreducible in `MRandom`) |
| `MUnits` | units/f2_polymod_units, fp_units | all (random_prim in `MRandom`) |
| `MPoly` | polynomials/fp_poly_t (generic in the coefficients; also f2n_poly_t) | all but change_modulus; stream i/o in MPolyText |
| `MPolymod` | polynomials/fp_polymod_t, f2n_polymod_t | all but change_modulus; stream i/o in MPolyText |
| `MPolyFac` | factorization/fp_poly_factor, fp_poly_totient, f2n_ versions | all (random_irr in `MRandom`) |
| `MF2nPoly` | polynomials/f2n_poly_t, f2n_polymod_t, factorization/f2n_poly_factor, f2n_poly_totient, units/f2n_polymod_units | the instance, square_root, roots, units |
| `MLinalg` | containers/tmatrix.h ed_row_reduce, ed_det; linalg/f2_linear_algebra, fp_linear_algebra, f2_polymod_linear_algebra, min_char_polys | all that is compiled (fp_polymod_min_poly, fp_polymod_char_poly and the fpn_ versions are inside `#if 0`); the diagonalizability test is in MDiag |
| `MRat` | rationals/f2_polyrat_t, fp_polyrat_t, f2n_polyrat_t | all but get_characteristic; stream i/o in MPolyText |
| `MList` | list/list_elements.cpp | all (f2n_polymod_glist and fp_polymod_glist are declared in the header but not defined) |
| `MCyclo` | polynomials/q_poly_t (the instance of MPoly with intrat_t coefficients), q_cyclotomic/cyclo_poly, qff | q_poly_t: all but stream i/o (in MPolyText); get_cyclo_qpoly with its static table as explicit state, the reductions and get_cyclo_ for GF(2), GF(p), GF(2^n). The fpn_ versions are in MSpiff5 |
| `MCli` | cli_parser/cmd_line_ops.h | lexan, clo_exp, emit, P U F T E C Q, cmd_line_parse, over a record of element operators (instance: intmod_t). Not: reading of a number from a stream (a parameter) |
| `MConvert` | linalg/f2_polymod_convert | all; `f2_polymod_t`/`f2n_poly_t::change_modulus` |
| `MRandom` | random/*, the random searches in factorization/ and units/ | all; the source of words is an arbitrary state machine (instance: bitrand/psdes). Not: the /dev/urandom branch (not compiled by default), seeding from the clock |
| `MDiag` | linalg/f2_polymod_linear_algebra: f2_polymod_matrix_is_diagonalizable, ft_vector_from_base_rep; containers/tmatrix.h matrix plus and minus scalar | all but the printing |
| `MCmdInterp` | cli_parser/cmd_interp | all; the shell (popen) is a parameter, allocation failures left out |
| `MMatCli` | cli_parser/cmd_line_vector_ops.h, cmd_line_matrix_ops.h; tvector.h and tmatrix.h: bracket_in; tstack.h: push | both evaluators over one record of what differs; the vectors of stack slots and of the variables save carry the size of their buffers. Instance: intmod_t. Reading a matrix from a file: a parameter here, see `MTextIO` |
| `MTextIO` | tvector.h, tmatrix.h, bit_vector_t.cpp, bit_matrix_t.cpp: operator<<, operator>>, load_from_file; line_scan.cpp; intmod_t, bit_t operator<<; istream::getline, peek and the state bits | element type, its printing and reading are parameters; the 2048, 65536 and 8192 character buffers are sizes, writing beyond is UB; the position in the buffer of tmatrix.h, which moves with the indentation, is kept |
| `MPolyText` | operator<<, operator>> (both overloads), from_string of fp_poly_t, f2n_poly_t, fpn_poly_t, q_poly_t, fp_polymod_t, f2n_polymod_t, fpn_polymod_t, intrat_t, f2_polyrat_t, fp_polyrat_t, f2n_polyrat_t; base/tokenize.cpp for one separator | streams as in MTextIO; a polynomial whose coefficients were deleted is the outcome `Freed`, its use is undefined. Not: leaked memory, warnings on std::cerr |
| `MSpiff` | cli/spiff: spiff_main.cpp, z_handlers.cpp, the commands of fp_handlers.cpp on residues (fp_list to fp_random); containers/tfacinfo.h: operator<< | a run is the text on standard output and the exit status (or undefined behaviour); the other handlers, qsort and the random words are parameters. sscanf %d of a number beyond int is undefined. Not: standard error, the usage texts, arguments with brackets (MCmdInterp), fp_mat_ch_pol, fp_mat_ord, fp_mat_random |
| `MSpiff2` | cli/spiff: f2_poly_handlers.cpp, fp_poly_handlers.cpp, f2n_poly_handlers.cpp, but for the wrappers of the expression parsers | as `MSpiff`; the mask of bit_vector_t::trim, the statics of intmod_t::recip (fixed during a command) and the number of attempts of a random search are parameters. A text read as a polynomial after which the object holds a released pointer makes the run undefined |
| `MSpiff3` | cli/spiff: f2_polymod_handlers.cpp: f2_pm_list to f2_pm_random | as `MSpiff2`. Not: f2_pm_op and the commands on matrices and vectors |
| `MSpiff4` | cli/spiff: fp_polymod_handlers.cpp: fp_pm_list to fp_pm_random; f2n_polymod_handlers.cpp: f2n_pm_list to f2n_pm_random | as `MSpiff2`. Not: fp_pm_op, f2n_pm_op and the commands on matrices and vectors |
| `MSpiff5` | cli/spiff: q_cyclotomic, f2_random, fpn_p_gcd, fpn_p_qp; q_cyclotomic/qff: fpn_poly_from_qpoly; cli/gcd | as `MSpiff2`; the table of get_cyclo_qpoly goes from one argument to the next |
| `MSpiff6` | cli/spiff: fp_mat_ord; containers/tmatrix, tvector: operator== | standard input is a text; the search has fuel, and every theorem holds from the order on; after a failed read the rows read so far are those of a second run of the reader on the same text (`det_after_failure`) |
| `MSpiff7` | cli/spiff: fp_mat_ch_pol, fp_mat_random | the files that can be opened are a function from names to texts; the rows are filled in order and printed at the end |
| `MSpiff8` | cli/spiff: f2_mat_ord, f2_mat_ch_pol, f2_mat_random; bits/bit_t.cpp: the text of a bit | as MSpiff6 and MSpiff7; a bit is a `bool` with the operations of `bit_ops`; `is >> unsigned` takes a sign and digits below 2^32. Not: f2_op, f2_vec_op, f2_mat_op |
| `MFpnPoly` | polynomials/fpn_poly_t, fpn_polymod_t (instances of MPoly and MPolymod with fp_polymod_t coefficients) | all but stream i/o and from_string (in MPolyText) |

### Simplifications, stated once

* The heap: objects are values; `std::vector` and owned arrays are lists. Buffers have
  explicit sizes where a property is about them (`MCont`, `MBits`, the one-element arrays
  of `operator-` in `MPoly`). Aliasing (`x = x`) is not modelled.
* Texts of exceptions and diagnostic output are not modelled. Formatted input/output is
  modelled only for GF(2) polynomials and residues, `intmod_t`, vectors and matrices.
* Degrees, dimensions and indices are `nat` (int in the code): the model speaks about
  objects whose sizes are representable. Where a size is *computed with* (`1 << deg`,
  products of degrees) the check is modelled.
* `bit_vector_t::trim` shifts an `int` by 32 or more places: undefined. The model takes a
  parameter `tm`: `None` follows the standard (UB), `Some m` says that the shifts yield an
  unspecified mask `m`. Theorems say which reading they need; the strict reading is the
  subject of `_refuted` theorems.
* `qsort` in the logarithm routines is a parameter constrained to return a sorted
  permutation (`sorts`); `C32_sorting_exists` and `C72_sorting_exists` show this can be met.
* The searches with random candidates are loops without a bound in the code; in the model they get
  a number of attempts, and running out of attempts is a distinct outcome (`Div`).
* Timing and, but for spiff, `main`-style tools are not modelled.

### Not modelled

stream input/output not listed above, change_modulus, line_scan, the
command-line tools under cli/ other than the commands of spiff listed above.

## How the properties are proved

| Property | Proof idea |
|---|---|
| C01-C02 | loop invariant (gcd preserved; Bezout; bound \|m\|\|c\|+\|m'\|\|d\| <= \|b\|) |
| C03 | bisection, invariant lower^2 <= n < upper^2 |
| C04 | invariant rv*b2^e; exact set of arguments where the last squaring overflows |
| C05 | count of coprimes |
| C06-C07 | table checked complete by a `vm_compute` sieve, then number theory |
| C08 | bisection lemmas |
| C09-C12 | Z/mZ congruences, Euler's theorem for the reciprocal |
| C13-C14 | gcd lemmas, cross multiplication |
| C15 | Feistel inverse |
| C16-C21, C52, C53 | per-bit characterisation of word lists; matrices over 'F_2 |
| C22-C27, C54, C55 | word lists refined to `N`, then to `{poly 'F_2}` (`isP`) |
| C28-C30 | Berlekamp: kernel of Q - I, splitting, induction on degree; irreducibles of every degree exist |
| C31-C32, C37, C56, C57 | Lagrange/Euler for residue rings of polynomials, cyclic unit groups of finite fields, baby-step giant-step with an abstract sort |
| C33-C36, C58-C61 | generic coefficient record `kops` with a specification `kspec` into an arbitrary finite field; polynomials related to `{poly F}` |
| C85-C87 | the same `kspec` for coefficients GF(p)[z]/(m) with a corrected unary minus; the code is undefined or equal to the corrected one (`PMono`) |
| C88 | splitting over GF(q^e) from x^(q^k)-x (`PDiag.splits`), nullities against multiplicities (`PDiag.diag_criterion`), then C49, C68, C29, C56, C83 and C38 for the steps |
| C89 | depth function for brackets, one round of replacement (`C89_round`), induction over the parsed command line; words of the output by the tokens of C45 |
| C90 | grammar against the parser (`PMatCli`, `PMatCli2`, generic in the machine), buffer invariant for vectors (`PMatCli3.J`), relational semantics of matrix operators (`PMatCli7.den`) with the matrix theorems of C38, uniqueness of reduced echelon forms (`PMatCli6.rref_uniq`) |
| C91 | grammar of lines (`PTextIO.row_line`, `blank_line`, `rows_text` with the accumulated indentation) against the reader (`mat_read`), printing gives such lines (`PTextIO2.round_trip`), decimal numerals (`PTextIO3.digits_ok`), bit words (`PTextIO4.wsok`), invariant for any text (`lines_valid`, `blines_any`) |
| C92 | words between separators (`PPolyText.spread`) against tokenize, filling from the top (`fp_scan_ok`, `fpn_scan_ok`, `f2n_scan_ok`, `q_scan_ok`), printing gives such texts (`fp_put_text`, `put_els`, `put_f2s`); streams by the first foreign character (`fp_in_ok`, `fpn_in_ok`, `f2n_iss_ok`) |
| C93 | the common reader of fractions over any reader of numerators (`PPolyText8.frac_whole`, `frac_over`), instantiated by ints, polynomials over GF(p), GF(2), GF(2^n); C48 and C76 for the quotient |
| C94 | algebra of runs (`PSpiff.emit`, `pb_*`), numerals by C91, values by C01, C02, C05-C07, C42 |
| C95 | the same with C09, C10, C32, C37, C47, C78, C84; orbits by induction over the powers (`PSpiff6.orbit_run`) |
| C96 | the table of commands, checked by computation |
| C97 | generic loops over arguments (`PSpiff7.per_ok`, `fold_main_ok`, `over_lists`), numbers of polynomials (`PSpiff8`), divisors of a factorisation over any field (`PSpiff9`), values by C26, C28-C31, C47, C49, C57, C84 |
| C98 | the commands over any finite field with a reader and a printer (`PSpiff11`, `PSpiff12`), instantiated at F_p; values by C34, C36, C49, C59-C61, C77, C84, texts by C92 |
| C99 | the same at GF(2^n); values by C49, C63, C65, C68-C70, C77, C84, texts of elements and polynomials in `PSpiff13` |
| C100 | commands as in C96-C99; tables and listings for any element type in `PSpiff14`, residues modulo m of degree any in `PSpiff15`; values by C31, C32, C47, C50, C56, C78, C83, C84 |
| C101 | commands over any field in `PSpiff16`; text with leading zeros (`pad_coefs`); order by induction on the exponent and Euler's theorem (`PEuler`); values by C35, C50, C77, C84, C92 |
| C102 | commands over any field in `PSpiff16`; text with leading zeros; logarithms by C72, generators and orders by C70, C71; values by C35, C50, C77, C84, C99 |
| C103 | what `q_scan` reads is the object of the polynomial (`trim_enc`, from C92); the reduction by C82; leading zeros by comparing lengths (`raw_longer`) |
| C104 | cyclotomic polynomials by C81 along the arguments; GF(p^n) by C85, C92, the text of an element being that of its representative (`rep`); fpn_p_qp by the coefficients set so far, from the top |
| C105 | matrices read by C91, determinant by C40, powers by C51; an order exists because the powers of an invertible matrix over a finite field repeat (`order_exists`) |
| C106 | matrices read by C91, characteristic polynomial by C49, residues by C84 along the rows |
| C107 | matrices read by C91 with a reader for bits (`bit_reads`), order by the lemmas of C105 over GF(2), characteristic polynomial by C49 |
| C38-C40, C51 | matrices over any field related to `'M[F]_(m,n)`; row-operation invariants |
| C41-C44 | list invariants over explicit buffers |
| C45 | induction over the token loop |
| C62-C72 | instance of the generic development: GF(2^n) is `{poly 'F_2}`/(irreducible), embedded in a mathcomp finite field; canonical encodings `g2_enc`, `g2_menc` |
| C49, C73 | row reduction over a Euclidean domain: determinant times denominator = numerator times product of the diagonal; cofactor expansion for the companion matrix |
| C50, C74 | conjugates under Frobenius in a field extension; the kernel of the matrix of powers is one-dimensional; characteristic polynomial of the multiplication map by a basis of powers |
| C48, C76 | Euclid's algorithm as a relation; it is homogeneous, so dividing by its result depends on the fraction only; encoding of mathcomp's `{fraction {poly F}}` |
| C46 | a grammar (inductive relation) and a value function stated without the parser; completeness and soundness of recursive descent by induction on derivations and on fuel; the fuel suffices since every operand consumes a token; instance Z/m with mathcomp's 'Z_m |
| C47, C77-C79 | the counter enumerates the polynomials in the order of their numbers; the size computed beforehand (totient) is the number of elements stored; tuples by induction; projective points by scaling the last non-zero coordinate to 1 |
| C80-C82 | the operations over Q with overflow lie below the same operations without overflow (`le_res`: UB or equal), monotonicity carries the generic development over; cyclotomic polynomials by cancelling products over divisors; an own proof that they exist with integer coefficients (`cyclotomic_exist`) |

## Defects of the code found (all as theorems unless marked *)

* int_power squares once too often: `int_power(2,16)` overflows (C04); hence
  get_all_divisors(65536) (C42), order modulo polynomials of degree 17 (C31), totients of
  quadratics over F_257 (C61) and GF(2^8) (C70) are undefined. intrat exp likewise (C13).
* int_totient(1) = 0 (C05); int_ext_gcd with b = 0 (C02); INT_MIN in is_prime, intmod exp,
  residue exp (C11, C27, C35, C67).
* intmod stream input of negative numbers leaves a negative residue (C09); hence the command-line
  evaluator finds -3 == 4 false modulo 7. It prints the value before it notices extraneous text,
  and the exponent INT_MIN is undefined behaviour (C46).
* tvector::operator= and bit_vector operator= overrun a smaller target (C43, C16);
  tmatrix::paste writes the second block at the wrong column (C51).
* bit vector == ignores the last word (C17); trim is undefined (C16, C19, C28-C30);
  bit matrix inverse, exp(<=0) and outer always throw (C20, C52); bit_t = int is not
  masked, 0^0 = 0 (C53).
* f2_poly a*0 keeps several words and breaks later operations (C22); set_coeff shifts an
  int (C55); find_irreducible(1) skips x (C29, C60, C69); totient overflow from degree 31 (C30).
* is_primitive accepts x^2+1 (C31); find_generator throws at the first non-unit (C56, C71);
  logarithms for degree 31 throw and for higher degrees are undefined (C32, C72).
* fp_poly/f2n_poly unary minus writes outside its array (C33, C62) and so for residues
  (C35, C67); ext_gcd with 0 throws (C34, C63); promote of 0 not canonical (C59, C65);
  from_base_rep with modulus 1 does not terminate, with 0 divides by zero (C58).
* fp_polymod * intmod scales the modulus; fp_polymod * negative int is the identity (C35).
* f2n square_root undefined for n >= 33 (C66); f2n logarithm uses 2^deg m as group size and
  misses logarithms (C72); so elements of fields of degree 31 and more cannot be converted (C83).
* ed_det throws for the zero matrix, the denominator is never set (C73); the Frobenius length of a
  nilpotent residue loops forever (C50).
* rational functions: < is not transitive (C48, C76); unary minus does not simplify, so
  -(1/x) == 0 - 1/x is false over GF(7), and is undefined for non-constant numerators (C76).
* listings: modulo 1 the unit listing throws and the non-unit listing returns an element (-1 mod 0)
  (C47); fp_poly_list and f2n_poly_list list all polynomials although the header says monics only,
  and overflow in int_power for sizes that fit (C77).
* rational polynomials: unary minus as above (C80); reductions to GF(p) and GF(2^n) keep vanishing
  leading coefficients, reductions to GF(2) of degree 32 and more shift an int too far, so no
  cyclotomic polynomial of such a degree can be had over GF(2) (C82).
* the random search for an irreducible polynomial of degree 1 over GF(2) never returns x, and those
  over GF(p), GF(2^n) never return a polynomial with zero constant term (C84).
* fpn_poly_t - is undefined if the subtrahend has coefficients outside the prime field beyond the
  degree of the minuend, unary minus for everything but prime field constants, hence ext_gcd and the
  reciprocals, quotients and negative powers of fpn_polymod_t may be undefined (C85, C87);
  deriv and operator*(intmod_t) multiply the moduli of the coefficients instead of the coefficients,
  pth_root, increment and from_base_rep always throw (C86); negative multiples of an fpn_polymod_t are 0 (C87).
* cmd_interp cuts words of the output longer than 4095 bytes, reads line[-1] for lines that start with a
  NUL byte, and expands brackets in the output again without limit (C89).
* The vector evaluator overruns buffers when vectors of different lengths meet (comparisons, chains of sums);
  the matrix evaluator takes entries with a minus sign as residues below zero and negates the exponent INT_MIN (C90).
* Reading a matrix drops a last line without newline silently, and the indentation of the lines adds up until the
  64 KiB buffer is overrun; bit matrices refuse trailing blanks, and reading into a bit matrix with rows gives an
  n x 0 matrix, fails, or is undefined (C91).
* A polynomial text of nothing but separators deletes the coefficients and keeps the pointer, so that residue classes read
  from it are undefined, as is the empty text over GF(p), p < 10; the istream overload for GF(2^n) fails if the text ends
  with the polynomial; over Q denominators are dropped, 12 is read as x+2, -1 and 1/2 are refused (C92).
* "abc" is read as the rational number 0, "99999999999/2" as 2147483647, both with success; the istream overload accepts the
  empty text (C93).
* spiff: the exit status is 0 for an unknown command, after an exception and when no generator is found (C94-C96); `nth_prime`
  is only known by the name `spffl::intmath::nth_prime`; `z_gcd -e a 0` and `z_list 2147483647` are undefined, as is the
  check of `z_gcd -e` for large arguments; `z_lcm` multiplies first (C94).
* `fp_orbit` tests coprimality by gcd(a, p), which is the gcd of the GF(2) polynomials a mod 2 and p mod 2: `fp_orbit 9 3`
  prints ten values and then fails; p = 0 is undefined (C95).
* spiff: `f2_p_lcm 0 0`, `f2_p_random -1` and `f2_p_list 31` print nothing and have status 0; `f2_p_list 32` is undefined;
  `f2_p_divisors 0` prints only 1; f2_p_deg, _period, _factor and _divisors accept an empty argument list (C97).
* spiff: `fp_p_gcd -e p f 0` and `fp_p_lcm p 0 0` print nothing and have status 0; the usage text of fp_p_gcd puts -e after p, which
  is refused; an empty polynomial or one made of commas is undefined; `fp_p_divisors p 0` prints only 1; `fp_p_find -1 p 1` prints x + 1
  although x is lower; `fp_p_list` is undefined once p^(2^k) exceeds an int (C98).
* spiff: `f2n_p_gcd -e m f 0`, `f2n_p_lcm m 0 0` and `f2n_p_random m -1` print nothing and have status 0; an empty polynomial or one
  made of colons is undefined; `f2n_p_divisors m 0` prints only 1; `f2n_p_find -1 m 1` prints x + 1 although x is lower (C99).
* `f2_pm_ord`, `f2_pm_log`, `f2_pm_find_gen` of something without an order, a logarithm or (as far as the search sees) a generator, and every command with
  modulus 0: nothing (more) is printed, the message goes to standard error and the exit status is 0. `f2_pm_list` without an option is rejected although its
  usage puts the option in brackets; for degree 31 it prints nothing with exit status 0, beyond 31 it is undefined (C100).
* `fp_pm_ord`, `fp_pm_ch_pol`, `fp_pm_min_pol` with modulus 0, and `fp_pm_random` with a constant modulus: nothing is printed and the exit status is 0; `fp_pm_ord` of an
  element without an inverse prints 0 (C101).
* `f2n_pm_ord`, `f2n_pm_log` of or to an element without an inverse, `f2n_pm_find_gen` if no generator is found, `f2n_pm_ord`, `f2n_pm_ch_pol`, `f2n_pm_min_pol`, `f2n_pm_random`
  with modulus 0: nothing is printed and the exit status is 0. `f2n_pm_log` does not find logarithms that exist, for every irreducible modulus but the smallest (C102).
* `fp_p_qp`, `f2n_p_qp` print the zeros of leading coefficients that vanish in the field; `f2_p_qp` from degree 32 on, and with a text of commas only, is undefined (C103).
* `q_cyclotomic` with a number below 1 ends silently with exit status 0, the arguments after it unread; `fpn_p_gcd -e` is undefined for polynomials as small as x^2+1 and
  (z+1)x+z over GF(9) (C104).
* `fp_mat_ord` does not notice that no matrix could be read, and looks at the first row of none; a matrix that is not square, or has rows of different lengths, ends with exit status 0 (C105).
* `fp_mat_ch_pol` of a matrix that is not square, and `fp_mat_random` with a dimension or modulus that is too small, end with exit status 0 (C106).
* `f2_mat_ord`, `f2_mat_ch_pol`, `f2_mat_random`: the same defects as the commands modulo p (C107).
* \* Read but not stated: bit_vector += and -= do not check lengths;
  operator= of fp_poly/f2n_poly frees before copying on self-assignment;
  tfacinfo/tstack operator= lack a return.
