{
 "C01": {
  "status": "proved",
  "note": ""
 },
 "C02": {
  "status": "proved",
  "note": ""
 },
 "C03": {
  "status": "proved",
  "note": ""
 },
 "C04": {
  "status": "proved",
  "note": ""
 },
 "C05": {
  "status": "proved",
  "note": "Where arb_get_interval_arf gets a non-positive precision the model leaves the result unspecified."
 },
 "C06": {
  "status": "proved",
  "note": ""
 },
 "C07": {
  "status": "proved",
  "note": ""
 },
 "C08": {
  "status": "proved",
  "note": ""
 },
 "C09": {
  "status": "proved",
  "note": "Overflow: C82_number."
 },
 "C10": {
  "status": "proved",
  "note": ""
 },
 "C11": {
  "status": "proved",
  "note": ""
 },
 "C12": {
  "status": "proved",
  "note": ""
 },
 "C13": {
  "status": "proved",
  "note": "Gen-level and object-level."
 },
 "C14": {
  "status": "proved",
  "note": ""
 },
 "C15": {
  "status": "proved",
  "note": ""
 },
 "C16": {
  "status": "proved",
  "note": "The factory's contract (weak pointers, kept-alive window) is modelled from its use: its source is not in the repository."
 },
 "C17": {
  "status": "proved",
  "note": ""
 },
 "C18": {
  "status": "proved",
  "note": ""
 },
 "C19": {
  "status": "proved",
  "note": ""
 },
 "C20": {
  "status": "proved",
  "note": ""
 },
 "C21": {
  "status": "proved",
  "note": ""
 },
 "C22": {
  "status": "proved",
  "note": ""
 },
 "C23": {
  "status": "proved",
  "note": ""
 },
 "C24": {
  "status": "proved",
  "note": ""
 },
 "C25": {
  "status": "proved",
  "note": ""
 },
 "C26": {
  "status": "proved",
  "note": ""
 },
 "C27": {
  "status": "proved",
  "note": ""
 },
 "C28": {
  "status": "proved",
  "note": ""
 },
 "C29": {
  "status": "proved",
  "note": "For all families of balls that enclose; the code's own balls are the subject of C67/C76."
 },
 "C30": {
  "status": "proved",
  "note": ""
 },
 "C31": {
  "status": "proved",
  "note": "For all families of balls that enclose; the code's own balls are the subject of C67/C76."
 },
 "C32": {
  "status": "proved",
  "note": "For all families of balls that enclose; the code's own balls are the subject of C66/C76."
 },
 "C33": {
  "status": "proved",
  "note": ""
 },
 "C34": {
  "status": "proved",
  "note": ""
 },
 "C35": {
  "status": "proved",
  "note": ""
 },
 "C36": {
  "status": "proved",
  "note": "coordinates: polynomial basis of the field."
 },
 "C37": {
  "status": "proved",
  "note": ""
 },
 "C38": {
  "status": "proved",
  "note": ""
 },
 "C39": {
  "status": "partial",
  "note": "False for the code: two threads can draw the same seed (C39_race_refuted), and one thread can draw it twice (C39_same_thread_refuted), since the counter is not atomic. Proved: calls that do not interleave get distinct seeds; all seeds are in the range of the counter."
 },
 "C40": {
  "status": "proved",
  "note": "cereal's text and binary encodings are not modelled, the archive is the sequence of fields with cereal's pointer tracking."
 },
 "C41": {
  "status": "partial",
  "note": "False for the code: coefficients are permuted when the loading process has created the generators in another order (C41_other_order_refuted, C41_fresh_process_refuted). Proved: generators and coefficients survive up to order, and the value when the orders agree, in particular for single elements without products in a fresh process."
 },
 "C42": {
  "status": "proved",
  "note": ""
 },
 "C43": {
  "status": "proved",
  "note": ""
 },
 "C44": {
  "status": "proved",
  "note": "For all families of balls that enclose; the code's own balls are the subject of C68/C76."
 },
 "C45": {
  "status": "proved",
  "note": "For all families of balls that enclose; the code's own balls are the subject of C69."
 },
 "C46": {
  "status": "proved",
  "note": "The boost::lexical_cast and mpq_class(string) steps are modelled as digit strings."
 },
 "C47": {
  "status": "proved",
  "note": ""
 },
 "C48": {
  "status": "proved",
  "note": ""
 },
 "C49": {
  "status": "proved",
  "note": ""
 },
 "C50": {
  "status": "proved",
  "note": "Number fields of any degree: an irreducible polynomial and an isolated real root (NumberField.v); fields of degree at most two also in a computable form. E-ANTIC's embedding test is a contract."
 },
 "C51": {
  "status": "proved",
  "note": ""
 },
 "C52": {
  "status": "proved",
  "note": "For all families of balls that enclose; the code's own balls are the subject of C65/C76."
 },
 "C53": {
  "status": "proved",
  "note": ""
 },
 "C54": {
  "status": "proved",
  "note": ""
 },
 "C55": {
  "status": "proved",
  "note": ""
 },
 "C56": {
  "status": "partial",
  "note": "False for the code: != calls == (C56_ne_refuted). Proved: it is undecided where it has to be, and otherwise the opposite of the right answer."
 },
 "C57": {
  "status": "partial",
  "note": "False for the code: one bit is missed (C57_product_accurate_refuted). Proved: accuracy prec - 1."
 },
 "C58": {
  "status": "partial",
  "note": "False for the code: the radius is half of what is needed (C58_contains_*_refuted); the ball of 1/3 does not contain 1/3 at any precision (C58_third_refuted), and for every random number half of the precisions give a wrong ball (C58_half_refuted). Proved for random numbers and rationals: exactly when the ball contains the number (C58_*_exactly_partial); in particular for rationals that fit into prec bits. See C07 for the distance in general."
 },
 "C59": {
  "status": "partial",
  "note": "False for the code: the answer 0, and -1 for products (C59_*_refuted). Proved, for numbers that are not products: the other answers are right; a number in the ball, other than its lower end, gets the answer 0; after the answer 0 the number agrees with a point of the interval to one bit more than its ends have; for random numbers and rationals exactly what is answered: for random numbers the upper end is taken to be larger by one bit more than the ends have, for rationals both ends are off by half a unit in that place, for 0 the answer is right (C59_*_exactly_partial, C59_number_zero_partial)."
 },
 "C60": {
  "status": "partial",
  "note": "False for the code: double rounding (C60_*_refuted). Proved: faithful rounding, and the closest double if the number is less than a quarter of the distance of doubles away from a double (not for products); for random numbers and rationals (not subnormal) exactly when the double is wrong (C60_*_exactly_partial): for random numbers of the library one pattern of three binary digits decides."
 },
 "C61": {
  "status": "partial",
  "note": "False for the code: C61_lt_*_refuted. Proved: right if the balls contain the numbers; C11 lists the cases that are always right; for random numbers against dyadic numbers exactly when the answer is wrong (C61_random_exactly_partial), so that comparisons of random numbers with integers are right."
 },
 "C62": {
  "status": "partial",
  "note": "False for the code for two different fields of degree one (C62_commutative_refuted). Proved over the same ring, and for all fields if one has not degree one; C62_exactly_partial says exactly when the order matters: same field, or exactly one module without generators, or one field of degree other than one."
 },
 "C63": {
  "status": "partial",
  "note": "False for the code (C63_reported_refuted). Proved: what is dropped; exactly when it is reported (C63_exactly_partial, over the same ring): if there is a nonzero coefficient whose generator comes after all generators of the target; exactly when the value is kept (C63_value_partial)."
 },
 "C64": {
  "status": "partial",
  "note": "False for the code: it can throw (C64_general_refuted). Proved: what is returned is a quotient, for all modules (C64_sound_partial); for modules without rational generators other than 1 the quotient is found when there is one; with such a generator only 0/y and x/1 are found (C64_other_partial)."
 },
 "C65": {
  "status": "proved",
  "note": ""
 },
 "C66": {
  "status": "proved",
  "note": ""
 },
 "C67": {
  "status": "proved",
  "note": ""
 },
 "C68": {
  "status": "proved",
  "note": ""
 },
 "C69": {
  "status": "partial",
  "note": "False for the code (C69_hash_refuted): equal elements of different modules can have different doubles. Proved within one module, and for all modules if the value is less than an eighth of the distance of doubles away from a double. Also simplify() and adding and subtracting 1 can change the double and the hash (C69_simplify_refuted)."
 },
 "C70": {
  "status": "partial",
  "note": "False for the code in both directions over the integers (C70_*_refuted). Proved over any field for every module whose rational generator is not 0 (C70_field_partial), for modules over any ring without rational generators other than 1 (C70_standard_partial), and what is computed in all other cases (C70_exactly_partial, C70_integers_partial)."
 },
 "C71": {
  "status": "partial",
  "note": "False for the code over the integers (C71_*_refuted). Proved over fields, for modules with a generator; exactly when it throws (C71_throws_partial), and exactly when a division by an integer that throws leaves the element unchanged (C71_unchanged_partial); by a rational divisor that is not an integer it never does (C71_changed_partial); over any ring the element stays an element of its module, the coefficients before the first one that cannot be divided are divided, those after it are unchanged; over the integers the coefficient that cannot be divided is unchanged if the divisor is an integer, and multiplied with the denominator (numerator) if it is a rational divisor (factor)."
 },
 "C72": {
  "status": "partial",
  "note": "False for the code: seeds wrap around after 2^32, and all random numbers are rational (C72_*_refuted). Proved: the first 2^32 are distinct."
 },
 "C73": {
  "status": "partial",
  "note": "False for the code: generator -1/2 over the integers (C73_complete_refuted). Proved for positive generators; over the integers one() misses 1 exactly if the rational generator is -1/n (C73_exactly_partial, C73_missed_partial), over fields exactly if the generator is negative (C73_field_partial; there the code forms a quotient with a negative denominator, which the model marks as an error)."
 },
 "C74": {
  "status": "partial",
  "note": "False for the code: negative non-integers are truncated (C74_floor_negative_refuted). Proved for all others."
 },
 "C75": {
  "status": "partial",
  "note": "False for the code: it throws for numbers that are not among the generators (C75_total_refuted). Proved: it is right when it is defined, and it is defined exactly for 0 and for generators of the module (C75_exactly_partial)."
 },
 "C76": {
  "status": "partial",
  "note": "False for the code: C76_*_refuted with rand48 digits. Proved: the order when the values are not extremely close, floor and ceil when the value is not extremely close to an integer, the double when the value is close to one; see C65-C68."
 },
 "C77": {
  "status": "proved",
  "note": "At the level of tokens; see C108 for the characters."
 },
 "C78": {
  "status": "proved",
  "note": ""
 },
 "C79": {
  "status": "proved",
  "note": "FLINT's and GMP's conversions are modelled by their documentation."
 },
 "C80": {
  "status": "proved",
  "note": "For the balls that the library computes for random numbers see C66 and C61."
 },
 "C81": {
  "status": "partial",
  "note": "The code does not meet the property, C81_threads_refuted: two threads suffice for arf(prec) of the number 1 to return 0, and the 0 stays in the cache (C81_poisoned_refuted). Proved for all schedules: no thread crashes (C81_no_crash), each call returns within a fixed number of steps of its thread (C81_returns, C81_wait_free), what it can return at all (C81_possible), and that random numbers and rationals get the right value at precisions 54 and 64 (C81_usual_precisions). Right values for all numbers for one thread (C81_alone, C81_numbers_alone), and for fewer than 128 precisions of each number under any schedule (C81_threads_partial, C81_numbers_partial). Each access to a cache is taken to be atomic (in the C++ they are data races)."
 },
 "C82": {
  "status": "proved",
  "note": "The sign of zero is not represented. Elements: for balls that enclose; C82_element_code for the code's own balls."
 },
 "C83": {
  "status": "proved",
  "note": "The sign of zero is not represented. FLINT's functions follow its documentation for special values."
 },
 "C84": {
  "status": "partial",
  "note": "False for the code: NaN <= x and NaN >= x hold for all x (C84_nan_refuted), and < is not a strict weak order (C84_weak_order_refuted). Proved: <, >, ==, != for all floats, and <=, >= when neither is NaN."
 },
 "C85": {
  "status": "proved",
  "note": "Comparisons with rationals: answers are right (C85_rational)."
 },
 "C86": {
  "status": "partial",
  "note": "False for the code, contrary to its documentation: integers from 10^6 on are only written with six digits (C86_large_refuted, C86_no_exact_refuted). Proved for all other floats. printf's %g is modelled; the examples of the documentation compute (C86_documented). The sign of a double zero is not represented."
 },
 "C87": {
  "status": "partial",
  "note": "False for the code: the exponent of numbers from an interval is written one too large, for every such number (C87_constrained_refuted), and different random numbers have the same text (C87_collision_refuted). Proved: rationals, six digits of random numbers, what the text of a constrained number determines. Texts of the documentation compute (C87_documented)."
 },
 "C88": {
  "status": "proved",
  "note": "The number field of a module is only written as K."
 },
 "C89": {
  "status": "proved",
  "note": ""
 },
 "C90": {
  "status": "proved",
  "note": "for elements whose only rational generator is 1 (coercion, random elements, arithmetic); rational(q) + rational(r) with q != r raises, as documented: C90_rational"
 },
 "C91": {
  "status": "proved",
  "note": ""
 },
 "C92": {
  "status": "proved",
  "note": "relative to enclosing, shrinking balls for the generators; the balls the code computes for random numbers are not always enclosing, see C56-C64"
 },
 "C93": {
  "status": "proved",
  "note": ""
 },
 "C94": {
  "status": "partial",
  "note": "False for the code: unary minus of a number returns an expression without lifelines, so that the number can be released before it is evaluated (C94_negation_refuted). Proved for all programs in which only results of operations are negated. Not modelled: Python integers as operands, numbers that are changed in place."
 },
 "C95": {
  "status": "proved",
  "note": "After a scalar *= or /= that throws, nothing is claimed about its target (see C71). For moved-from elements see C99."
 },
 "C96": {
  "status": "proved",
  "note": ""
 },
 "C97": {
  "status": "proved",
  "note": "Without != of a ball and a rational, which is wrong (C56). The operands of arithmetic are balls."
 },
 "C98": {
  "status": "partial",
  "note": "False for the code: products with fewer than two factors are accepted (C98_single_factor_refuted, C98_empty_product_refuted). Proved for all archives whose products have positive exponents of sum at least two. Factors that are not random numbers are not modelled; for negative exponents see C114."
 },
 "C99": {
  "status": "proved",
  "note": "Variables that have been moved from count as not existing until they are assigned again. C99_nothing_thrown: without scalars; scalars can throw over the integers (C99_example)."
 },
 "C100": {
  "status": "partial",
  "note": "The code does not meet the property: C100_threads_refuted, the ball of 1 + r that Element::arb returns does not contain 1 + r, because another thread asked for 128 approximations of 1 (see C81). Proved: for all programs and schedules as long as no number is approximated at 128 or more precisions other than 54 and 64 (C100_outcome_partial, C100_returns_partial), and for one thread without this restriction (C100_single); C100_elements, C100_greater and C100_balls say that the operations of elements are such programs. Each access to a cache is taken to be atomic (in the C++ they are data races)."
 },
 "C101": {
  "status": "proved",
  "note": "Numbers that are closer than that: C76, C63, C66."
 },
 "C102": {
  "status": "proved",
  "note": "Modules with other rational generators: C64, C70."
 },
 "C103": {
  "status": "proved",
  "note": "For the library's own balls the answers agree with the order of the real numbers unless numbers are very close (C101)."
 },
 "C104": {
  "status": "proved",
  "note": "FLINT's rounding of radii is only assumed to at most double them, so the bound has 2 * rank where about log2(rank) would suffice."
 },
 "C105": {
  "status": "proved",
  "note": "Numbers that are zero (the rational 0) are excluded in the bounds for comparisons of two RealNumbers: the ball of 0 has an absolute radius."
 },
 "C106": {
  "status": "partial",
  "note": "False for the code (C106_squares_refuted, C106_order_refuted): exponents and degrees are C++ ints. The partial theorems give the exact range in which products, quotients and the order are right; C12-C14, C24 and everything above them are about unbounded exponents, so they are about this range."
 },
 "C107": {
  "status": "proved",
  "note": "The accuracy of the C library log2 is a hypothesis of the theorems; the correctly rounded logarithm meets it (C107_example)."
 },
 "C108": {
  "status": "proved",
  "note": "That different random numbers are printed differently is a hypothesis of the converse; C108_collision_refuted shows that it is needed. Coefficients are written by GMP; number field coefficients are not covered."
 },
 "C109": {
  "status": "proved",
  "note": "With the library own balls (code_setting), although they can be too small (C58).  Memory is unbounded in the model: on a machine the loop ends when it is exhausted."
 },
 "C110": {
  "status": "proved",
  "note": "C110_operations: the same for all operations on all numbers as long as no number is approximated at 128 or more precisions (C81 has what goes wrong otherwise). Comparisons double the precision, therefore they never get there. Each access to a cache is taken to be atomic (in the C++ they are data races)."
 },
 "C111": {
  "status": "partial",
  "note": "False for the code: C111_sum_refuted (the sum of x^(2^30) y^(2^30) and z^2 is undefined), C111_quotient_refuted (x^(2^30+1) / x is undefined, because the partial quotient is multiplied with the unused generators of the common module, too). The partial theorems: sums are right for degrees up to 2^31-1, products as long as the degrees of the products of generators are, quotients for degrees up to 2^30-1, for every ring and whatever overflow does."
 },
 "C112": {
  "status": "proved",
  "note": "For all lawful rings and all value preserving maps of coefficients into Ring(); C112_conversions: the conversions that exist are such maps. Quotients and units only in one direction, since 1/2 exists only after the conversion (C112_example)."
 },
 "C113": {
  "status": "partial",
  "note": "Proved for all texts in lowest terms, and for the order with rationals for all texts. False otherwise: mpq_class(text) does not reduce and canonicalize() is not called, so \"2/4\" is a second object for 1/2 (== is false, < does not return), and \"1/0\" is a division by zero in the hash (C113_same_number_refuted, C113_archive_refuted, C113_zero_denominator_refuted)."
 },
 "C114": {
  "status": "partial",
  "note": "Proved when no exponent is negative and one is positive (C114_nonnegative_partial). False otherwise: negative exponents are accepted, but the factor is ignored by arf (C114_ignored_refuted, C114_negative_refuted), the conversion of log2 to long is undefined when the exponents do not add up to a positive number (C114_degree_refuted), and x^-1 y^2 times x is not y^2 (C114_inverse_refuted). See C98 for exponents 0 and single factors."
 }
}