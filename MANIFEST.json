{
 "claims": [
  {
   "property": "C01",
   "status": "proved",
   "theorems": [
    "C01_add_correctly_rounded",
    "C01_sub_correctly_rounded",
    "C01_mul_correctly_rounded",
    "C01_div_correctly_rounded",
    "C01_exact_operations"
   ],
   "note": ""
  },
  {
   "property": "C02",
   "status": "proved",
   "theorems": [
    "C02_mantissa_exponent",
    "C02_floor",
    "C02_ceil",
    "C02_logb",
    "C02_shifts",
    "C02_comparisons",
    "C02_to_double"
   ],
   "note": ""
  },
  {
   "property": "C03",
   "status": "proved",
   "theorems": [
    "C03_lt",
    "C03_gt",
    "C03_le",
    "C03_ge",
    "C03_eq",
    "C03_ne"
   ],
   "note": ""
  },
  {
   "property": "C04",
   "status": "proved",
   "theorems": [
    "C04_sound",
    "C04_answered",
    "C04_exact"
   ],
   "note": ""
  },
  {
   "property": "C05",
   "status": "proved",
   "theorems": [
    "C05_interval_encloses",
    "C05_of_interval",
    "C05_roundtrip",
    "C05_of_interval_exact",
    "C05_defined",
    "C05_tight"
   ],
   "note": "Where arb_get_interval_arf gets a non-positive precision the model leaves the result unspecified."
  },
  {
   "property": "C06",
   "status": "proved",
   "theorems": [
    "C06_value_unique",
    "C06_arf_returns",
    "C06_rational_accurate",
    "C06_rational_nearest",
    "C06_random_accurate",
    "C06_product_accurate"
   ],
   "note": ""
  },
  {
   "property": "C07",
   "status": "proved",
   "theorems": [
    "C07_relative_accuracy",
    "C07_rational_zero",
    "C07_refine_keeps",
    "C07_twice_radius",
    "C07_product_radius"
   ],
   "note": ""
  },
  {
   "property": "C08",
   "status": "proved",
   "theorems": [
    "C08_cmp_below",
    "C08_cmp_above",
    "C08_cmp_below_rational"
   ],
   "note": ""
  },
  {
   "property": "C09",
   "status": "proved",
   "theorems": [
    "C09_double_faithful",
    "C09_double_error"
   ],
   "note": "Overflow: C82_number."
  },
  {
   "property": "C10",
   "status": "proved",
   "theorems": [
    "C10_history_independent",
    "C10_returns",
    "C10_bounded"
   ],
   "note": ""
  },
  {
   "property": "C11",
   "status": "proved",
   "theorems": [
    "C11_lt_terminates",
    "C11_lt_arf_terminates",
    "C11_lt_rational_terminates",
    "C11_gt_arf_terminates",
    "C11_gt_rational_terminates",
    "C11_rationals_right",
    "C11_randoms_right",
    "C11_rational_rational_right",
    "C11_equality_with_arf_right",
    "C11_sign_right",
    "C11_wrong_only_if_close",
    "C11_rational_wrong_only_if_close",
    "C11_rational_gt_wrong_only_if_close",
    "C11_arf_wrong_only_if_close"
   ],
   "note": ""
  },
  {
   "property": "C12",
   "status": "proved",
   "theorems": [
    "C12_product_value",
    "C12_commutative",
    "C12_associative",
    "C12_unital",
    "C12_throws",
    "C12_same_object",
    "C12_same_object_associative",
    "C12_object_value"
   ],
   "note": ""
  },
  {
   "property": "C13",
   "status": "proved",
   "theorems": [
    "C13_division_sound",
    "C13_division_complete",
    "C13_division_self",
    "C13_division_throws",
    "C13_division_error",
    "C13_division_object"
   ],
   "note": "Gen-level and object-level."
  },
  {
   "property": "C14",
   "status": "proved",
   "theorems": [
    "C14_reachable",
    "C14_specified",
    "C14_irreflexive",
    "C14_transitive",
    "C14_total",
    "C14_compatible"
   ],
   "note": ""
  },
  {
   "property": "C15",
   "status": "proved",
   "theorems": [
    "C15_key_equal_iff_product",
    "C15_equal_keys_equal_hashes",
    "C15_hash",
    "C15_computed_product"
   ],
   "note": ""
  },
  {
   "property": "C16",
   "status": "proved",
   "theorems": [
    "C16_unique",
    "C16_random_interned",
    "C16_rational_interned",
    "C16_product_interned",
    "C16_immutable",
    "C16_well_formed",
    "C16_module_unique",
    "C16_module_interned",
    "C16_module_immutable",
    "C16_module_keeps_generators"
   ],
   "note": "The factory's contract (weak pointers, kept-alive window) is modelled from its use: its source is not in the repository."
  },
  {
   "property": "C17",
   "status": "proved",
   "theorems": [
    "C17_ids_distinct"
   ],
   "note": ""
  },
  {
   "property": "C18",
   "status": "proved",
   "theorems": [
    "C18_canonical",
    "C18_sorted",
    "C18_unique",
    "C18_faithful",
    "C18_objects"
   ],
   "note": ""
  },
  {
   "property": "C19",
   "status": "proved",
   "theorems": [
    "C19_throws"
   ],
   "note": ""
  },
  {
   "property": "C20",
   "status": "proved",
   "theorems": [
    "C20_generators",
    "C20_trivial",
    "C20_ring",
    "C20_succeeds",
    "C20_commutative",
    "C20_commutative_basis",
    "C20_idempotent",
    "C20_associative",
    "C20_submodule",
    "C20_contains",
    "C20_least"
   ],
   "note": ""
  },
  {
   "property": "C21",
   "status": "proved",
   "theorems": [
    "C21_promote",
    "C21_succeeds",
    "C21_self",
    "C21_up_and_back"
   ],
   "note": ""
  },
  {
   "property": "C22",
   "status": "proved",
   "theorems": [
    "C22_standard",
    "C22_sum",
    "C22_succeeds",
    "C22_generators",
    "C22_double",
    "C22_numbers"
   ],
   "note": ""
  },
  {
   "property": "C23",
   "status": "proved",
   "theorems": [
    "C23_negative",
    "C23_difference",
    "C23_succeeds",
    "C23_self"
   ],
   "note": ""
  },
  {
   "property": "C24",
   "status": "proved",
   "theorems": [
    "C24_product",
    "C24_generators",
    "C24_succeeds",
    "C24_standard",
    "C24_zero",
    "C24_real"
   ],
   "note": ""
  },
  {
   "property": "C25",
   "status": "proved",
   "theorems": [
    "C25_add_commutative",
    "C25_add_associative",
    "C25_add_zero",
    "C25_add_negative",
    "C25_mul_commutative",
    "C25_mul_associative",
    "C25_mul_one",
    "C25_distributive",
    "C25_general_distributive",
    "C25_general_mul_associative",
    "C25_general_add_associative"
   ],
   "note": ""
  },
  {
   "property": "C26",
   "status": "proved",
   "theorems": [
    "C26_equal",
    "C26_defined",
    "C26_reflexive",
    "C26_symmetric",
    "C26_transitive",
    "C26_bool"
   ],
   "note": ""
  },
  {
   "property": "C27",
   "status": "proved",
   "theorems": [
    "C27_rational",
    "C27_integer",
    "C27_equal_rational",
    "C27_equal_integer"
   ],
   "note": ""
  },
  {
   "property": "C28",
   "status": "proved",
   "theorems": [
    "C28_sound",
    "C28_complete",
    "C28_product",
    "C28_zero",
    "C28_terminates"
   ],
   "note": ""
  },
  {
   "property": "C29",
   "status": "proved",
   "theorems": [
    "C29_number_fields",
    "C29_sound",
    "C29_integer_quotients",
    "C29_returns"
   ],
   "note": "For all families of balls that enclose; the code's own balls are the subject of C67/C76."
  },
  {
   "property": "C30",
   "status": "proved",
   "theorems": [
    "C30_sound",
    "C30_complete"
   ],
   "note": ""
  },
  {
   "property": "C31",
   "status": "proved",
   "theorems": [
    "C31_floor",
    "C31_ceil",
    "C31_integers",
    "C31_returns"
   ],
   "note": "For all families of balls that enclose; the code's own balls are the subject of C67/C76."
  },
  {
   "property": "C32",
   "status": "proved",
   "theorems": [
    "C32_sound_elements",
    "C32_elements",
    "C32_integers",
    "C32_rationals",
    "C32_reals"
   ],
   "note": "For all families of balls that enclose; the code's own balls are the subject of C66/C76."
  },
  {
   "property": "C33",
   "status": "proved",
   "theorems": [
    "C33_simplify",
    "C33_sum"
   ],
   "note": ""
  },
  {
   "property": "C34",
   "status": "proved",
   "theorems": [
    "C34_multiply",
    "C34_multiply_complete",
    "C34_divide",
    "C34_divide_complete",
    "C34_divide_by_zero"
   ],
   "note": ""
  },
  {
   "property": "C35",
   "status": "proved",
   "theorems": [
    "C35_element",
    "C35_element_defined",
    "C35_coefficient",
    "C35_coefficient_throws",
    "C35_generator",
    "C35_generator_defined",
    "C35_unique"
   ],
   "note": ""
  },
  {
   "property": "C36",
   "status": "proved",
   "theorems": [
    "C36_length",
    "C36_determines",
    "C36_entries",
    "C36_power_basis"
   ],
   "note": "coordinates: polynomial basis of the field."
  },
  {
   "property": "C37",
   "status": "proved",
   "theorems": [
    "C37_integers_to_rationals",
    "C37_integers_to_field",
    "C37_rationals_to_field",
    "C37_commutes",
    "C37_embeddings",
    "C37_embeddings_number_fields",
    "C37_to_number_field"
   ],
   "note": ""
  },
  {
   "property": "C38",
   "status": "proved",
   "theorems": [
    "C38_distinct",
    "C38_values_distinct",
    "C38_nonzero"
   ],
   "note": ""
  },
  {
   "property": "C39",
   "status": "partial",
   "theorems": [
    "C39_race_refuted",
    "C39_same_thread_refuted",
    "C39_range_partial",
    "C39_unpreempted_partial"
   ],
   "note": "False for the code: two threads can draw the same seed (C39_race_refuted), and one thread can draw it twice (C39_same_thread_refuted), since the counter is not atomic. Proved: calls that do not interleave get distinct seeds; all seeds are in the range of the counter."
  },
  {
   "property": "C40",
   "status": "proved",
   "theorems": [
    "C40_elements",
    "C40_real_numbers",
    "C40_nothing_changes"
   ],
   "note": "cereal's text and binary encodings are not modelled, the archive is the sequence of fields with cereal's pointer tracking."
  },
  {
   "property": "C41",
   "status": "partial",
   "theorems": [
    "C41_generators_partial",
    "C41_same_order_partial",
    "C41_fresh_linear_partial",
    "C41_other_order_refuted",
    "C41_fresh_process_refuted"
   ],
   "note": "False for the code: coefficients are permuted when the loading process has created the generators in another order (C41_other_order_refuted, C41_fresh_process_refuted). Proved: generators and coefficients survive up to order, and the value when the orders agree, in particular for single elements without products in a fresh process."
  },
  {
   "property": "C42",
   "status": "proved",
   "theorems": [
    "C42_throws",
    "C42_returns",
    "C42_range",
    "C42_approximations",
    "C42_approximation_range"
   ],
   "note": ""
  },
  {
   "property": "C43",
   "status": "proved",
   "theorems": [
    "C43_returns",
    "C43_closest",
    "C43_double",
    "C43_double_returns",
    "C43_largest_unspecified"
   ],
   "note": ""
  },
  {
   "property": "C44",
   "status": "proved",
   "theorems": [
    "C44_irrational",
    "C44_rational",
    "C44_double"
   ],
   "note": "For all families of balls that enclose; the code's own balls are the subject of C68/C76."
  },
  {
   "property": "C45",
   "status": "proved",
   "theorems": [
    "C45_elements",
    "C45_floats"
   ],
   "note": "For all families of balls that enclose; the code's own balls are the subject of C69."
  },
  {
   "property": "C46",
   "status": "proved",
   "theorems": [
    "C46_ball",
    "C46_ball_comparisons",
    "C46_float",
    "C46_element_equal",
    "C46_element_equal_locale",
    "C46_element_equal_locale_throws",
    "C46_element_order",
    "C46_element_multiply",
    "C46_element_divide"
   ],
   "note": "The boost::lexical_cast and mpq_class(string) steps are modelled as digit strings."
  },
  {
   "property": "C47",
   "status": "proved",
   "theorems": [
    "C47_sound",
    "C47_no_rational_generator",
    "C47_complete_field",
    "C47_complete_integers"
   ],
   "note": ""
  },
  {
   "property": "C48",
   "status": "proved",
   "theorems": [
    "C48_assign_float",
    "C48_inplace_float",
    "C48_innermost_annotation",
    "C48_assign_ball",
    "C48_assign_ball_defined",
    "C48_inplace_ball"
   ],
   "note": ""
  },
  {
   "property": "C49",
   "status": "proved",
   "theorems": [
    "C49_floor_integers",
    "C49_floor_fields",
    "C49_floor_rationals",
    "C49_division_by_zero",
    "C49_division",
    "C49_unit",
    "C49_floor_number_fields"
   ],
   "note": ""
  },
  {
   "property": "C50",
   "status": "proved",
   "theorems": [
    "C50_lawful_integers",
    "C50_lawful_rationals",
    "C50_lawful_fields",
    "C50_compositum",
    "C50_coerce",
    "C50_commutative",
    "C50_lawful_number_fields",
    "C50_values",
    "C50_coerce_number_fields",
    "C50_compositum_number_fields",
    "C50_commutative_number_fields",
    "C50_equality_number_fields"
   ],
   "note": "Number fields of any degree: an irreducible polynomial and an isolated real root (NumberField.v); fields of degree at most two also in a computable form. E-ANTIC's embedding test is a contract."
  },
  {
   "property": "C51",
   "status": "proved",
   "theorems": [
    "C51_add_encloses",
    "C51_sub_encloses",
    "C51_mul_encloses",
    "C51_div_encloses",
    "C51_neg_encloses",
    "C51_add_exact",
    "C51_mul_exact",
    "C51_wf"
   ],
   "note": ""
  },
  {
   "property": "C52",
   "status": "proved",
   "theorems": [
    "C52_encloses",
    "C52_accuracy",
    "C52_returns"
   ],
   "note": "For all families of balls that enclose; the code's own balls are the subject of C65/C76."
  },
  {
   "property": "C53",
   "status": "proved",
   "theorems": [
    "C53_equal",
    "C53_throws",
    "C53_agrees"
   ],
   "note": ""
  },
  {
   "property": "C54",
   "status": "proved",
   "theorems": [
    "C54_prefix",
    "C54_range",
    "C54_deterministic"
   ],
   "note": ""
  },
  {
   "property": "C55",
   "status": "proved",
   "theorems": [
    "C55_encloses",
    "C55_exact"
   ],
   "note": ""
  },
  {
   "property": "C56",
   "status": "partial",
   "theorems": [
    "C56_ne_refuted",
    "C56_opposite_partial",
    "C56_undecided_partial"
   ],
   "note": "False for the code: != calls == (C56_ne_refuted). Proved: it is undecided where it has to be, and otherwise the opposite of the right answer."
  },
  {
   "property": "C57",
   "status": "partial",
   "theorems": [
    "C57_one_bit_less_partial",
    "C57_product_accurate_refuted"
   ],
   "note": "False for the code: one bit is missed (C57_product_accurate_refuted). Proved: accuracy prec - 1."
  },
  {
   "property": "C58",
   "status": "partial",
   "theorems": [
    "C58_random_exactly_partial",
    "C58_rand48_exactly_partial",
    "C58_half_refuted",
    "C58_rational_exactly_partial",
    "C58_third_refuted",
    "C58_dyadic_partial",
    "C58_contains_rational_refuted",
    "C58_contains_random_refuted"
   ],
   "note": "False for the code: the radius is half of what is needed (C58_contains_*_refuted); the ball of 1/3 does not contain 1/3 at any precision (C58_third_refuted), and for every random number half of the precisions give a wrong ball (C58_half_refuted). Proved for random numbers and rationals: exactly when the ball contains the number (C58_*_exactly_partial); in particular for rationals that fit into prec bits. See C07 for the distance in general."
  },
  {
   "property": "C59",
   "status": "partial",
   "theorems": [
    "C59_random_exactly_partial",
    "C59_rand48_exactly_partial",
    "C59_inside_partial",
    "C59_zero_partial",
    "C59_decided_partial",
    "C59_rational_exactly_partial",
    "C59_number_zero_partial",
    "C59_cmp_product_refuted",
    "C59_cmp_zero_refuted"
   ],
   "note": "False for the code: the answer 0, and -1 for products (C59_*_refuted). Proved, for numbers that are not products: the other answers are right; a number in the ball, other than its lower end, gets the answer 0; after the answer 0 the number agrees with a point of the interval to one bit more than its ends have; for random numbers and rationals exactly what is answered: for random numbers the upper end is taken to be larger by one bit more than the ends have, for rationals both ends are off by half a unit in that place, for 0 the answer is right (C59_*_exactly_partial, C59_number_zero_partial)."
  },
  {
   "property": "C60",
   "status": "partial",
   "theorems": [
    "C60_random_exactly_partial",
    "C60_rand48_exactly_partial",
    "C60_rational_exactly_partial",
    "C60_apart_partial",
    "C60_faithful_partial",
    "C60_double_random_refuted",
    "C60_double_rational_refuted"
   ],
   "note": "False for the code: double rounding (C60_*_refuted). Proved: faithful rounding, and the closest double if the number is less than a quarter of the distance of doubles away from a double (not for products); for random numbers and rationals (not subnormal) exactly when the double is wrong (C60_*_exactly_partial): for random numbers of the library one pattern of three binary digits decides."
  },
  {
   "property": "C61",
   "status": "partial",
   "theorems": [
    "C61_random_exactly_partial",
    "C61_random_integers_partial",
    "C61_random_dyadic_refuted",
    "C61_sound_if_contained_partial",
    "C61_lt_integer_refuted",
    "C61_lt_arf_refuted",
    "C61_lt_rational_random_refuted",
    "C61_lt_product_refuted",
    "C61_lt_q_refuted"
   ],
   "note": "False for the code: C61_lt_*_refuted. Proved: right if the balls contain the numbers; C11 lists the cases that are always right; for random numbers against dyadic numbers exactly when the answer is wrong (C61_random_exactly_partial), so that comparisons of random numbers with integers are right."
  },
  {
   "property": "C62",
   "status": "partial",
   "theorems": [
    "C62_commutative_refuted",
    "C62_degree_partial",
    "C62_exactly_partial",
    "C62_same_ring_partial"
   ],
   "note": "False for the code for two different fields of degree one (C62_commutative_refuted). Proved over the same ring, and for all fields if one has not degree one; C62_exactly_partial says exactly when the order matters: same field, or exactly one module without generators, or one field of degree other than one."
  },
  {
   "property": "C63",
   "status": "partial",
   "theorems": [
    "C63_reported_refuted",
    "C63_kept_partial",
    "C63_reported_partial",
    "C63_exactly_partial",
    "C63_value_partial"
   ],
   "note": "False for the code (C63_reported_refuted). Proved: what is dropped; exactly when it is reported (C63_exactly_partial, over the same ring): if there is a nonzero coefficient whose generator comes after all generators of the target; exactly when the value is kept (C63_value_partial)."
  },
  {
   "property": "C64",
   "status": "partial",
   "theorems": [
    "C64_general_refuted",
    "C64_standard_partial",
    "C64_sound_partial",
    "C64_other_partial"
   ],
   "note": "False for the code: it can throw (C64_general_refuted). Proved: what is returned is a quotient, for all modules (C64_sound_partial); for modules without rational generators other than 1 the quotient is found when there is one; with such a generator only 0/y and x/1 are found (C64_other_partial)."
  },
  {
   "property": "C65",
   "status": "proved",
   "theorems": [
    "C65_within",
    "C65_returns"
   ],
   "note": ""
  },
  {
   "property": "C66",
   "status": "proved",
   "theorems": [
    "C66_elements",
    "C66_rationals",
    "C66_returns"
   ],
   "note": ""
  },
  {
   "property": "C67",
   "status": "proved",
   "theorems": [
    "C67_floor",
    "C67_floor_returns",
    "C67_floordiv",
    "C67_floordiv_returns"
   ],
   "note": ""
  },
  {
   "property": "C68",
   "status": "proved",
   "theorems": [
    "C68_double",
    "C68_returns"
   ],
   "note": ""
  },
  {
   "property": "C69",
   "status": "partial",
   "theorems": [
    "C69_hash_refuted",
    "C69_simplify_refuted",
    "C69_apart_partial",
    "C69_same_module_partial"
   ],
   "note": "False for the code (C69_hash_refuted): equal elements of different modules can have different doubles. Proved within one module, and for all modules if the value is less than an eighth of the distance of doubles away from a double. Also simplify() and adding and subtracting 1 can change the double and the hash (C69_simplify_refuted)."
  },
  {
   "property": "C70",
   "status": "partial",
   "theorems": [
    "C70_complete_refuted",
    "C70_sound_refuted",
    "C70_standard_partial",
    "C70_field_partial",
    "C70_exactly_partial",
    "C70_integers_partial"
   ],
   "note": "False for the code in both directions over the integers (C70_*_refuted). Proved over any field for every module whose rational generator is not 0 (C70_field_partial), for modules over any ring without rational generators other than 1 (C70_standard_partial), and what is computed in all other cases (C70_exactly_partial, C70_integers_partial)."
  },
  {
   "property": "C71",
   "status": "partial",
   "theorems": [
    "C71_divide_by_zero_refuted",
    "C71_unchanged_refuted",
    "C71_prefix_partial",
    "C71_multiply_partial",
    "C71_integers_partial",
    "C71_first_partial",
    "C71_rational_refuted",
    "C71_field_partial",
    "C71_throws_partial",
    "C71_unchanged_partial",
    "C71_changed_partial"
   ],
   "note": "False for the code over the integers (C71_*_refuted). Proved over fields, for modules with a generator; exactly when it throws (C71_throws_partial), and exactly when a division by an integer that throws leaves the element unchanged (C71_unchanged_partial); by a rational divisor that is not an integer it never does (C71_changed_partial); over any ring the element stays an element of its module, the coefficients before the first one that cannot be divided are divided, those after it are unchanged; over the integers the coefficient that cannot be divided is unchanged if the divisor is an integer, and multiplied with the denominator (numerator) if it is a rational divisor (factor)."
  },
  {
   "property": "C72",
   "status": "partial",
   "theorems": [
    "C72_first_partial",
    "C72_distinct_refuted",
    "C72_independent_refuted"
   ],
   "note": "False for the code: seeds wrap around after 2^32, and all random numbers are rational (C72_*_refuted). Proved: the first 2^32 are distinct."
  },
  {
   "property": "C73",
   "status": "partial",
   "theorems": [
    "C73_complete_refuted",
    "C73_positive_partial",
    "C73_exactly_partial",
    "C73_missed_partial",
    "C73_field_partial"
   ],
   "note": "False for the code: generator -1/2 over the integers (C73_complete_refuted). Proved for positive generators; over the integers one() misses 1 exactly if the rational generator is -1/n (C73_exactly_partial, C73_missed_partial), over fields exactly if the generator is negative (C73_field_partial; there the code forms a quotient with a negative denominator, which the model marks as an error)."
  },
  {
   "property": "C74",
   "status": "partial",
   "theorems": [
    "C74_floor_negative_refuted",
    "C74_nonnegative_partial"
   ],
   "note": "False for the code: negative non-integers are truncated (C74_floor_negative_refuted). Proved for all others."
  },
  {
   "property": "C75",
   "status": "partial",
   "theorems": [
    "C75_total_refuted",
    "C75_generators_partial",
    "C75_exactly_partial"
   ],
   "note": "False for the code: it throws for numbers that are not among the generators (C75_total_refuted). Proved: it is right when it is defined, and it is defined exactly for 0 and for generators of the module (C75_exactly_partial)."
  },
  {
   "property": "C76",
   "status": "partial",
   "theorems": [
    "C76_subnormal_refuted",
    "C76_arb_refuted",
    "C76_lt_refuted",
    "C76_floor_refuted",
    "C76_double_refuted",
    "C76_floor_apart_partial",
    "C76_double_apart_partial",
    "C76_apart_partial"
   ],
   "note": "False for the code: C76_*_refuted with rand48 digits. Proved: the order when the values are not extremely close, floor and ceil when the value is not extremely close to an integer, the double when the value is close to one; see C65-C68."
  },
  {
   "property": "C77",
   "status": "proved",
   "theorems": [
    "C77_denotes",
    "C77_same_text",
    "C77_signs",
    "C77_denotes_code"
   ],
   "note": "At the level of tokens; see C108 for the characters."
  },
  {
   "property": "C78",
   "status": "proved",
   "theorems": [
    "C78_constants",
    "C78_midpoint",
    "C78_double",
    "C78_is_exact",
    "C78_is_finite"
   ],
   "note": ""
  },
  {
   "property": "C79",
   "status": "proved",
   "theorems": [
    "C79_set_str",
    "C79_get_str",
    "C79_mpz",
    "C79_mpq",
    "C79_arf",
    "C79_arf_texts",
    "C79_arf_injective",
    "C79_arb",
    "C79_arb_any",
    "C79_arb_finite",
    "C79_of_string",
    "C79_of_mantissa"
   ],
   "note": "FLINT's and GMP's conversions are modelled by their documentation."
  },
  {
   "property": "C80",
   "status": "proved",
   "theorems": [
    "C80_elements",
    "C80_integers",
    "C80_rationals",
    "C80_reals",
    "C80_rational_numbers",
    "C80_random_numbers",
    "C80_floats",
    "C80_number_rational",
    "C80_floats_consistent"
   ],
   "note": "For the balls that the library computes for random numbers see C66 and C61."
  },
  {
   "property": "C81",
   "status": "partial",
   "theorems": [
    "C81_threads_partial",
    "C81_alone",
    "C81_wait_free",
    "C81_threads_refuted",
    "C81_poisoned_refuted",
    "C81_digits",
    "C81_numbers_partial",
    "C81_numbers_alone",
    "C81_no_crash",
    "C81_possible",
    "C81_usual_precisions",
    "C81_returns"
   ],
   "note": "The code does not meet the property, C81_threads_refuted: two threads suffice for arf(prec) of the number 1 to return 0, and the 0 stays in the cache (C81_poisoned_refuted). Proved for all schedules: no thread crashes (C81_no_crash), each call returns within a fixed number of steps of its thread (C81_returns, C81_wait_free), what it can return at all (C81_possible), and that random numbers and rationals get the right value at precisions 54 and 64 (C81_usual_precisions). Right values for all numbers for one thread (C81_alone, C81_numbers_alone), and for fewer than 128 precisions of each number under any schedule (C81_threads_partial, C81_numbers_partial). Each access to a cache is taken to be atomic (in the C++ they are data races)."
  },
  {
   "property": "C82",
   "status": "proved",
   "theorems": [
    "C82_float",
    "C82_ball",
    "C82_binary64",
    "C82_overflow",
    "C82_unique",
    "C82_number",
    "C82_number_returns",
    "C82_irrational",
    "C82_element",
    "C82_element_code"
   ],
   "note": "The sign of zero is not represented. Elements: for balls that enclose; C82_element_code for the code's own balls."
  },
  {
   "property": "C83",
   "status": "proved",
   "theorems": [
    "C83_add",
    "C83_sub",
    "C83_mul",
    "C83_div",
    "C83_neg",
    "C83_abs",
    "C83_shift",
    "C83_floor",
    "C83_ceil",
    "C83_of_double",
    "C83_to_double",
    "C83_double_roundtrip",
    "C83_hash"
   ],
   "note": "The sign of zero is not represented. FLINT's functions follow its documentation for special values."
  },
  {
   "property": "C84",
   "status": "partial",
   "theorems": [
    "C84_lt",
    "C84_gt",
    "C84_eq",
    "C84_ne",
    "C84_le_partial",
    "C84_ge_partial",
    "C84_nan_refuted",
    "C84_weak_order_refuted",
    "C84_long",
    "C84_long_value"
   ],
   "note": "False for the code: NaN <= x and NaN >= x hold for all x (C84_nan_refuted), and < is not a strict weak order (C84_weak_order_refuted). Proved: <, >, ==, != for all floats, and <=, >= when neither is NaN."
  },
  {
   "property": "C85",
   "status": "proved",
   "theorems": [
    "C85_lt",
    "C85_gt",
    "C85_le",
    "C85_ge",
    "C85_eq",
    "C85_ne",
    "C85_add",
    "C85_sub",
    "C85_mul",
    "C85_neg",
    "C85_rational",
    "C85_constants",
    "C85_indeterminate",
    "C85_is_finite",
    "C85_is_exact",
    "C85_interval",
    "C85_conservative"
   ],
   "note": "Comparisons with rationals: answers are right (C85_rational)."
  },
  {
   "property": "C86",
   "status": "partial",
   "theorems": [
    "C86_reading_unique",
    "C86_double",
    "C86_double_integer",
    "C86_exact_partial",
    "C86_injective_partial",
    "C86_approximation",
    "C86_large_refuted",
    "C86_no_exact_refuted"
   ],
   "note": "False for the code, contrary to its documentation: integers from 10^6 on are only written with six digits (C86_large_refuted, C86_no_exact_refuted). Proved for all other floats. printf's %g is modelled; the examples of the documentation compute (C86_documented). The sign of a double zero is not represented."
  },
  {
   "property": "C87",
   "status": "partial",
   "theorems": [
    "C87_rational",
    "C87_digits",
    "C87_random",
    "C87_constrained_text",
    "C87_constrained_determines",
    "C87_constrained_refuted",
    "C87_constrained_partial",
    "C87_collision_refuted"
   ],
   "note": "False for the code: the exponent of numbers from an interval is written one too large, for every such number (C87_constrained_refuted), and different random numbers have the same text (C87_collision_refuted). Proved: rationals, six digits of random numbers, what the text of a constrained number determines. Texts of the documentation compute (C87_documented)."
  },
  {
   "property": "C88",
   "status": "proved",
   "theorems": [
    "C88_product",
    "C88_module"
   ],
   "note": "The number field of a module is only written as K."
  },
  {
   "property": "C89",
   "status": "proved",
   "theorems": [
    "C89_equal",
    "C89_rationals",
    "C89_randoms",
    "C89_constrained",
    "C89_products",
    "C89_kinds",
    "C89_equivalence",
    "C89_bool"
   ],
   "note": ""
  },
  {
   "property": "C90",
   "status": "proved",
   "theorems": [
    "C90_operations",
    "C90_elements",
    "C90_equality",
    "C90_rational",
    "C90_ring",
    "C90_domain",
    "C90_nontrivial"
   ],
   "note": "for elements whose only rational generator is 1 (coercion, random elements, arithmetic); rational(q) + rational(r) with q != r raises, as documented: C90_rational"
  },
  {
   "property": "C91",
   "status": "proved",
   "theorems": [
    "C91_quotient",
    "C91_by_zero",
    "C91_invert",
    "C91_divides",
    "C91_gcd",
    "C91_divides_returns",
    "C91_gcd_returns"
   ],
   "note": ""
  },
  {
   "property": "C92",
   "status": "proved",
   "theorems": [
    "C92_order",
    "C92_abs",
    "C92_integer_parts"
   ],
   "note": "relative to enclosing, shrinking balls for the generators; the balls the code computes for random numbers are not always enclosing, see C56-C64"
  },
  {
   "property": "C93",
   "status": "proved",
   "theorems": [
    "C93_integer",
    "C93_rational",
    "C93_algebraic",
    "C93_is_square_ZZ",
    "C93_is_square_QQ"
   ],
   "note": ""
  },
  {
   "property": "C94",
   "status": "partial",
   "theorems": [
    "C94_collector",
    "C94_variables",
    "C94_balls",
    "C94_floats",
    "C94_negation_refuted"
   ],
   "note": "False for the code: unary minus of a number returns an expression without lifelines, so that the number can be released before it is evaluated (C94_negation_refuted). Proved for all programs in which only results of operations are negated. Not modelled: Python integers as operands, numbers that are changed in place."
  },
  {
   "property": "C95",
   "status": "proved",
   "theorems": [
    "C95_programs",
    "C95_objects",
    "C95_frame",
    "C95_alias",
    "C95_nothing_thrown"
   ],
   "note": "After a scalar *= or /= that throws, nothing is claimed about its target (see C71). For moved-from elements see C99."
  },
  {
   "property": "C96",
   "status": "proved",
   "theorems": [
    "C96_values",
    "C96_unshared",
    "C96_no_leaks",
    "C96_step"
   ],
   "note": ""
  },
  {
   "property": "C97",
   "status": "proved",
   "theorems": [
    "C97_comparison",
    "C97_raises",
    "C97_program",
    "C97_reals_unique",
    "C97_agree"
   ],
   "note": "Without != of a ball and a rational, which is wrong (C56). The operands of arithmetic are balls."
  },
  {
   "property": "C98",
   "status": "partial",
   "theorems": [
    "C98_coefficients",
    "C98_elements_partial",
    "C98_real_numbers_partial",
    "C98_process_partial",
    "C98_integers_partial",
    "C98_single_factor_refuted",
    "C98_empty_product_refuted"
   ],
   "note": "False for the code: products with fewer than two factors are accepted (C98_single_factor_refuted, C98_empty_product_refuted). Proved for all archives whose products have positive exponents of sum at least two. Factors that are not random numbers are not modelled; for negative exponents see C114."
  },
  {
   "property": "C99",
   "status": "proved",
   "theorems": [
    "C99_programs",
    "C99_values",
    "C99_objects",
    "C99_frame",
    "C99_moves",
    "C99_nothing_thrown"
   ],
   "note": "Variables that have been moved from count as not existing until they are assigned again. C99_nothing_thrown: without scalars; scalars can throw over the integers (C99_example)."
  },
  {
   "property": "C100",
   "status": "partial",
   "theorems": [
    "C100_values",
    "C100_outcome_partial",
    "C100_returns_partial",
    "C100_no_crash",
    "C100_single",
    "C100_balls",
    "C100_elements",
    "C100_threads_refuted",
    "C100_greater"
   ],
   "note": "The code does not meet the property: C100_threads_refuted, the ball of 1 + r that Element::arb returns does not contain 1 + r, because another thread asked for 128 approximations of 1 (see C81). Proved: for all programs and schedules as long as no number is approximated at 128 or more precisions other than 54 and 64 (C100_outcome_partial, C100_returns_partial), and for one thread without this restriction (C100_single); C100_elements, C100_greater and C100_balls say that the operations of elements are such programs. Each access to a cache is taken to be atomic (in the C++ they are data races)."
  },
  {
   "property": "C101",
   "status": "proved",
   "theorems": [
    "C101_elements",
    "C101_integers",
    "C101_rationals",
    "C101_reals",
    "C101_floor_ceil",
    "C101_floordiv"
   ],
   "note": "Numbers that are closer than that: C76, C63, C66."
  },
  {
   "property": "C102",
   "status": "proved",
   "theorems": [
    "C102_scalars",
    "C102_scalars_total",
    "C102_cancel",
    "C102_domain",
    "C102_cancel_factor",
    "C102_idempotent",
    "C102_division",
    "C102_integer_multiples",
    "C102_simplify",
    "C102_units",
    "C102_units_field"
   ],
   "note": "Modules with other rational generators: C64, C70."
  },
  {
   "property": "C103",
   "status": "proved",
   "theorems": [
    "C103_total",
    "C103_addition",
    "C103_multiplication",
    "C103_floor",
    "C103_remainder"
   ],
   "note": "For the library's own balls the answers agree with the order of the real numbers unless numbers are very close (C101)."
  },
  {
   "property": "C104",
   "status": "proved",
   "theorems": [
    "C104_coefficients"
   ],
   "note": "FLINT's rounding of radii is only assumed to at most double them, so the bound has 2 * rank where about log2(rank) would suffice."
  },
  {
   "property": "C105",
   "status": "proved",
   "theorems": [
    "C105_drawn",
    "C105_bounded",
    "C105_arf",
    "C105_double",
    "C105_cmp",
    "C105_used",
    "C105_less",
    "C105_less_arf",
    "C105_less_integer",
    "C105_less_rational"
   ],
   "note": "Numbers that are zero (the rational 0) are excluded in the bounds for comparisons of two RealNumbers: the ball of 0 has an absolute radius."
  },
  {
   "property": "C106",
   "status": "partial",
   "theorems": [
    "C106_multiplication_partial",
    "C106_exactly_partial",
    "C106_rational",
    "C106_division",
    "C106_quotient",
    "C106_order_partial",
    "C106_order_exactly_partial",
    "C106_degree_partial",
    "C106_squares_refuted",
    "C106_order_refuted"
   ],
   "note": "False for the code (C106_squares_refuted, C106_order_refuted): exponents and degrees are C++ ints. The partial theorems give the exact range in which products, quotients and the order are right; C12-C14, C24 and everything above them are about unbounded exponents, so they are about this range."
  },
  {
   "property": "C107",
   "status": "proved",
   "theorems": [
    "C107_factors",
    "C107_rank",
    "C107_not_less",
    "C107_arf",
    "C107_elements"
   ],
   "note": "The accuracy of the C library log2 is a hypothesis of the theorems; the correctly rounded logarithm meets it (C107_example)."
  },
  {
   "property": "C108",
   "status": "proved",
   "theorems": [
    "C108_unambiguous",
    "C108_integers",
    "C108_rationals",
    "C108_denotes",
    "C108_denotes_code",
    "C108_same",
    "C108_collision_refuted"
   ],
   "note": "That different random numbers are printed differently is a hypothesis of the converse; C108_collision_refuted shows that it is needed. Coefficients are written by GMP; number field coefficients are not covered."
  },
  {
   "property": "C109",
   "status": "proved",
   "theorems": [
    "C109_arb",
    "C109_order",
    "C109_integer_parts",
    "C109_floordiv",
    "C109_exists"
   ],
   "note": "With the library own balls (code_setting), although they can be too small (C58).  Memory is unbounded in the model: on a machine the loop ends when it is exhausted."
  },
  {
   "property": "C110",
   "status": "proved",
   "theorems": [
    "C110_comparisons",
    "C110_not_delayed",
    "C110_single",
    "C110_operations"
   ],
   "note": "C110_operations: the same for all operations on all numbers as long as no number is approximated at 128 or more precisions (C81 has what goes wrong otherwise). Comparisons double the precision, therefore they never get there. Each access to a cache is taken to be atomic (in the C++ they are data races)."
  },
  {
   "property": "C111",
   "status": "partial",
   "theorems": [
    "C111_sum_partial",
    "C111_difference_partial",
    "C111_product_partial",
    "C111_real_partial",
    "C111_quotient_partial",
    "C111_equal_partial",
    "C111_simplify_partial",
    "C111_power_partial",
    "C111_quotient_refuted",
    "C111_sum_refuted"
   ],
   "note": "False for the code: C111_sum_refuted (the sum of x^(2^30) y^(2^30) and z^2 is undefined), C111_quotient_refuted (x^(2^30+1) / x is undefined, because the partial quotient is multiplied with the unused generators of the common module, too). The partial theorems: sums are right for degrees up to 2^31-1, products as long as the degrees of the products of generators are, quotients for degrees up to 2^30-1, for every ring and whatever overflow does."
  },
  {
   "property": "C112",
   "status": "proved",
   "theorems": [
    "C112_conversions",
    "C112_observations",
    "C112_rational_coefficients",
    "C112_degrees",
    "C112_simplify",
    "C112_multiply",
    "C112_divide",
    "C112_quotient",
    "C112_unit",
    "C112_twice",
    "C112_through_rationals",
    "C112_order"
   ],
   "note": "For all lawful rings and all value preserving maps of coefficients into Ring(); C112_conversions: the conversions that exist are such maps. Quotients and units only in one direction, since 1/2 exists only after the conversion (C112_example)."
  },
  {
   "property": "C113",
   "status": "partial",
   "theorems": [
    "C113_load_partial",
    "C113_rejected",
    "C113_equality_partial",
    "C113_equality_rational_partial",
    "C113_saved_partial",
    "C113_order",
    "C113_less_partial",
    "C113_same_number_refuted",
    "C113_archive_refuted",
    "C113_zero_denominator_refuted"
   ],
   "note": "Proved for all texts in lowest terms, and for the order with rationals for all texts. False otherwise: mpq_class(text) does not reduce and canonicalize() is not called, so \"2/4\" is a second object for 1/2 (== is false, < does not return), and \"1/0\" is a division by zero in the hash (C113_same_number_refuted, C113_archive_refuted, C113_zero_denominator_refuted)."
  },
  {
   "property": "C114",
   "status": "partial",
   "theorems": [
    "C114_positive_partial",
    "C114_accurate_partial",
    "C114_returns_partial",
    "C114_ignored_refuted",
    "C114_negative_refuted",
    "C114_degree_refuted",
    "C114_inverse_refuted",
    "C114_zeros_partial",
    "C114_nonnegative_partial"
   ],
   "note": "Proved when no exponent is negative and one is positive (C114_nonnegative_partial). False otherwise: negative exponents are accepted, but the factor is ignored by arf (C114_ignored_refuted, C114_negative_refuted), the conversion of log2 to long is undefined when the exponents do not add up to a positive number (C114_degree_refuted), and x^-1 y^2 times x is not y^2 (C114_inverse_refuted). See C98 for exponents 0 and single factors."
  }
 ]
}