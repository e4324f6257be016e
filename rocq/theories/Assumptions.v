(** Generated by mkassumptions.py: all the theorems, and the axioms they depend on. *)
From Verif Require PropArchive PropArith PropCompare PropConstruct PropConvert PropCost PropDivision PropDouble PropDraw PropElement PropEqual PropExact PropExpr PropField PropFloatLog PropFloor PropGen PropIeee PropIntExponents PropLaws PropLife PropLoops PropMachine PropMachineElement PropModule PropModuleFactory PropMore PropNative PropOperators PropOrder PropOrdered PropOutput PropPartial PropPrint PropPrintText PropProcess PropPromote PropPy PropPyBall PropPyYap PropRandom PropRationalCmp PropRawRational PropReal PropScale PropSerial PropShared PropSharedMany PropSharedSafe PropSpecial PropStore PropStuck PropText PropThreads PropThreadsNumbers PropUnits PropYap.
Definition all_PropArchive := (@PropArchive.C98_coefficients,
  @PropArchive.C98_elements_partial,
  @PropArchive.C98_real_numbers_partial,
  @PropArchive.C98_process_partial,
  @PropArchive.C98_integers_partial,
  @PropArchive.C98_single_factor_refuted,
  @PropArchive.C98_empty_product_refuted).
Print Assumptions all_PropArchive.
Definition all_PropArith := (@PropArith.C01_add_correctly_rounded,
  @PropArith.C01_sub_correctly_rounded,
  @PropArith.C01_mul_correctly_rounded,
  @PropArith.C01_div_correctly_rounded,
  @PropArith.C01_exact_operations,
  @PropArith.C02_mantissa_exponent,
  @PropArith.C02_floor,
  @PropArith.C02_ceil,
  @PropArith.C02_logb,
  @PropArith.C02_shifts,
  @PropArith.C02_comparisons,
  @PropArith.C02_to_double,
  @PropArith.C03_lt,
  @PropArith.C03_gt,
  @PropArith.C03_le,
  @PropArith.C03_ge,
  @PropArith.C03_eq,
  @PropArith.C03_ne,
  @PropArith.C04_sound,
  @PropArith.C56_ne_refuted,
  @PropArith.C05_interval_encloses,
  @PropArith.C51_add_encloses,
  @PropArith.C51_sub_encloses,
  @PropArith.C51_mul_encloses,
  @PropArith.C51_div_encloses,
  @PropArith.C51_neg_encloses,
  @PropArith.C51_add_exact,
  @PropArith.C51_mul_exact,
  @PropArith.C51_wf).
Print Assumptions all_PropArith.
Definition all_PropCompare := (@PropCompare.C80_elements,
  @PropCompare.C80_integers,
  @PropCompare.C80_rationals,
  @PropCompare.C80_reals,
  @PropCompare.C80_rational_numbers,
  @PropCompare.C80_random_numbers,
  @PropCompare.C80_floats,
  @PropCompare.C80_number_rational,
  @PropCompare.C80_floats_consistent).
Print Assumptions all_PropCompare.
Definition all_PropConstruct := (@PropConstruct.C05_of_interval,
  @PropConstruct.C05_roundtrip,
  @PropConstruct.C05_of_interval_exact,
  @PropConstruct.C78_constants,
  @PropConstruct.C78_midpoint,
  @PropConstruct.C78_double,
  @PropConstruct.C78_is_exact,
  @PropConstruct.C78_is_finite).
Print Assumptions all_PropConstruct.
Definition all_PropConvert := (@PropConvert.C112_conversions,
  @PropConvert.C112_observations,
  @PropConvert.C112_rational_coefficients,
  @PropConvert.C112_degrees,
  @PropConvert.C112_simplify,
  @PropConvert.C112_multiply,
  @PropConvert.C112_divide,
  @PropConvert.C112_quotient,
  @PropConvert.C112_unit,
  @PropConvert.C112_twice,
  @PropConvert.C112_through_rationals,
  @PropConvert.C112_order).
Print Assumptions all_PropConvert.
Definition all_PropCost := (@PropCost.C104_coefficients).
Print Assumptions all_PropCost.
Definition all_PropDivision := (@PropDivision.C28_sound,
  @PropDivision.C28_complete,
  @PropDivision.C28_product,
  @PropDivision.C28_zero,
  @PropDivision.C28_terminates,
  @PropDivision.C64_general_refuted).
Print Assumptions all_PropDivision.
Definition all_PropDouble := (@PropDouble.C44_irrational,
  @PropDouble.C44_rational,
  @PropDouble.C44_double,
  @PropDouble.C68_double,
  @PropDouble.C68_returns,
  @PropDouble.C76_subnormal_refuted,
  @PropDouble.C45_elements).
Print Assumptions all_PropDouble.
Definition all_PropDraw := (@PropDraw.C105_drawn,
  @PropDraw.C105_bounded,
  @PropDraw.C105_arf,
  @PropDraw.C105_double,
  @PropDraw.C105_cmp,
  @PropDraw.C105_used,
  @PropDraw.C105_less,
  @PropDraw.C105_less_arf,
  @PropDraw.C105_less_integer,
  @PropDraw.C105_less_rational).
Print Assumptions all_PropDraw.
Definition all_PropElement := (@PropElement.C50_lawful_integers,
  @PropElement.C50_lawful_rationals,
  @PropElement.C50_lawful_fields,
  @PropElement.C22_standard,
  @PropElement.C21_promote,
  @PropElement.C21_succeeds,
  @PropElement.C21_self,
  @PropElement.C21_up_and_back,
  @PropElement.C63_reported_refuted,
  @PropElement.C22_sum,
  @PropElement.C22_succeeds,
  @PropElement.C22_generators,
  @PropElement.C22_double,
  @PropElement.C22_numbers,
  @PropElement.C23_negative,
  @PropElement.C23_difference,
  @PropElement.C23_succeeds,
  @PropElement.C23_self,
  @PropElement.C24_product,
  @PropElement.C24_generators,
  @PropElement.C24_succeeds,
  @PropElement.C24_standard,
  @PropElement.C24_zero,
  @PropElement.C24_real,
  @PropElement.C25_add_commutative,
  @PropElement.C25_add_associative,
  @PropElement.C25_add_zero,
  @PropElement.C25_add_negative,
  @PropElement.C25_mul_commutative,
  @PropElement.C25_mul_associative,
  @PropElement.C25_mul_one,
  @PropElement.C25_distributive,
  @PropElement.C25_general_distributive,
  @PropElement.C25_general_mul_associative,
  @PropElement.C25_general_add_associative,
  @PropElement.C26_equal,
  @PropElement.C26_defined,
  @PropElement.C26_reflexive,
  @PropElement.C26_symmetric,
  @PropElement.C26_transitive,
  @PropElement.C26_bool,
  @PropElement.C27_rational,
  @PropElement.C27_integer,
  @PropElement.C27_equal_rational,
  @PropElement.C27_equal_integer,
  @PropElement.C30_sound,
  @PropElement.C30_complete,
  @PropElement.C70_complete_refuted,
  @PropElement.C70_sound_refuted,
  @PropElement.C33_simplify,
  @PropElement.C33_sum,
  @PropElement.C34_multiply,
  @PropElement.C34_multiply_complete,
  @PropElement.C34_divide,
  @PropElement.C34_divide_complete,
  @PropElement.C34_divide_by_zero,
  @PropElement.C71_divide_by_zero_refuted,
  @PropElement.C71_unchanged_refuted,
  @PropElement.C35_element,
  @PropElement.C35_element_defined,
  @PropElement.C35_coefficient,
  @PropElement.C35_coefficient_throws,
  @PropElement.C35_generator,
  @PropElement.C35_generator_defined,
  @PropElement.C35_unique,
  @PropElement.C36_length,
  @PropElement.C36_determines,
  @PropElement.C36_entries,
  @PropElement.C36_power_basis,
  @PropElement.C37_integers_to_rationals,
  @PropElement.C37_integers_to_field,
  @PropElement.C37_rationals_to_field,
  @PropElement.C37_commutes,
  @PropElement.C37_embeddings,
  @PropElement.C47_sound,
  @PropElement.C47_no_rational_generator,
  @PropElement.C47_complete_field,
  @PropElement.C47_complete_integers,
  @PropElement.C73_complete_refuted,
  @PropElement.C49_floor_integers,
  @PropElement.C49_floor_fields,
  @PropElement.C49_floor_rationals,
  @PropElement.C74_floor_negative_refuted,
  @PropElement.C49_division_by_zero,
  @PropElement.C49_division,
  @PropElement.C49_unit,
  @PropElement.C50_compositum,
  @PropElement.C50_coerce,
  @PropElement.C50_commutative,
  @PropElement.C53_equal,
  @PropElement.C53_throws,
  @PropElement.C53_agrees,
  @PropElement.C75_total_refuted).
Print Assumptions all_PropElement.
Definition all_PropEqual := (@PropEqual.C89_equal,
  @PropEqual.C89_rationals,
  @PropEqual.C89_randoms,
  @PropEqual.C89_constrained,
  @PropEqual.C89_products,
  @PropEqual.C89_kinds,
  @PropEqual.C89_equivalence,
  @PropEqual.C89_bool).
Print Assumptions all_PropEqual.
Definition all_PropExact := (@PropExact.C58_random_exactly_partial,
  @PropExact.C58_rand48_exactly_partial,
  @PropExact.C58_half_refuted,
  @PropExact.C60_random_exactly_partial,
  @PropExact.C60_rand48_exactly_partial,
  @PropExact.C58_rational_exactly_partial,
  @PropExact.C58_third_refuted,
  @PropExact.C60_rational_exactly_partial,
  @PropExact.C59_random_exactly_partial,
  @PropExact.C59_rand48_exactly_partial,
  @PropExact.C61_random_exactly_partial,
  @PropExact.C61_random_integers_partial,
  @PropExact.C61_random_dyadic_refuted).
Print Assumptions all_PropExact.
Definition all_PropExpr := (@PropExpr.C99_programs,
  @PropExpr.C99_values,
  @PropExpr.C99_objects,
  @PropExpr.C99_frame,
  @PropExpr.C99_moves,
  @PropExpr.C99_nothing_thrown).
Print Assumptions all_PropExpr.
Definition all_PropField := (@PropField.C50_lawful_number_fields,
  @PropField.C50_values,
  @PropField.C50_coerce_number_fields,
  @PropField.C50_compositum_number_fields,
  @PropField.C50_commutative_number_fields,
  @PropField.C50_equality_number_fields,
  @PropField.C49_floor_number_fields,
  @PropField.C29_number_fields,
  @PropField.C37_embeddings_number_fields,
  @PropField.C37_to_number_field).
Print Assumptions all_PropField.
Definition all_PropFloatLog := (@PropFloatLog.C107_factors,
  @PropFloatLog.C107_rank,
  @PropFloatLog.C107_not_less,
  @PropFloatLog.C107_arf,
  @PropFloatLog.C107_elements).
Print Assumptions all_PropFloatLog.
Definition all_PropFloor := (@PropFloor.C31_floor,
  @PropFloor.C31_ceil,
  @PropFloor.C31_integers,
  @PropFloor.C31_returns,
  @PropFloor.C67_floor,
  @PropFloor.C67_floor_returns,
  @PropFloor.C29_sound,
  @PropFloor.C29_integer_quotients,
  @PropFloor.C29_returns,
  @PropFloor.C67_floordiv,
  @PropFloor.C67_floordiv_returns).
Print Assumptions all_PropFloor.
Definition all_PropGen := (@PropGen.C12_product_value,
  @PropGen.C12_commutative,
  @PropGen.C12_associative,
  @PropGen.C12_unital,
  @PropGen.C12_throws,
  @PropGen.C12_same_object,
  @PropGen.C12_same_object_associative,
  @PropGen.C12_object_value,
  @PropGen.C13_division_sound,
  @PropGen.C13_division_complete,
  @PropGen.C13_division_self,
  @PropGen.C13_division_throws,
  @PropGen.C13_division_error,
  @PropGen.C13_division_object,
  @PropGen.C14_reachable,
  @PropGen.C14_specified,
  @PropGen.C14_irreflexive,
  @PropGen.C14_transitive,
  @PropGen.C14_total,
  @PropGen.C14_compatible,
  @PropGen.C15_key_equal_iff_product,
  @PropGen.C15_equal_keys_equal_hashes,
  @PropGen.C15_hash,
  @PropGen.C15_computed_product,
  @PropGen.C16_unique,
  @PropGen.C16_random_interned,
  @PropGen.C16_rational_interned,
  @PropGen.C16_product_interned,
  @PropGen.C16_immutable,
  @PropGen.C16_well_formed).
Print Assumptions all_PropGen.
Definition all_PropIeee := (@PropIeee.C82_float,
  @PropIeee.C82_ball,
  @PropIeee.C82_binary64,
  @PropIeee.C82_overflow,
  @PropIeee.C82_unique,
  @PropIeee.C82_number,
  @PropIeee.C82_number_returns,
  @PropIeee.C82_irrational,
  @PropIeee.C82_element,
  @PropIeee.C82_element_code).
Print Assumptions all_PropIeee.
Definition all_PropIntExponents := (@PropIntExponents.C114_positive_partial,
  @PropIntExponents.C114_accurate_partial,
  @PropIntExponents.C114_returns_partial,
  @PropIntExponents.C114_ignored_refuted,
  @PropIntExponents.C114_negative_refuted,
  @PropIntExponents.C114_degree_refuted,
  @PropIntExponents.C114_inverse_refuted,
  @PropIntExponents.C114_zeros_partial,
  @PropIntExponents.C114_nonnegative_partial).
Print Assumptions all_PropIntExponents.
Definition all_PropLaws := (@PropLaws.C102_scalars,
  @PropLaws.C102_scalars_total,
  @PropLaws.C102_cancel,
  @PropLaws.C102_domain,
  @PropLaws.C102_cancel_factor,
  @PropLaws.C102_idempotent,
  @PropLaws.C102_division,
  @PropLaws.C102_integer_multiples,
  @PropLaws.C102_simplify,
  @PropLaws.C102_units,
  @PropLaws.C102_units_field).
Print Assumptions all_PropLaws.
Definition all_PropLife := (@PropLife.C96_values,
  @PropLife.C96_unshared,
  @PropLife.C96_no_leaks,
  @PropLife.C96_step).
Print Assumptions all_PropLife.
Definition all_PropLoops := (@PropLoops.C76_arb_refuted,
  @PropLoops.C76_lt_refuted,
  @PropLoops.C76_floor_refuted,
  @PropLoops.C76_double_refuted,
  @PropLoops.C69_hash_refuted,
  @PropLoops.C69_simplify_refuted).
Print Assumptions all_PropLoops.
Definition all_PropMachine := (@PropMachine.C106_multiplication_partial,
  @PropMachine.C106_exactly_partial,
  @PropMachine.C106_rational,
  @PropMachine.C106_division,
  @PropMachine.C106_quotient,
  @PropMachine.C106_order_partial,
  @PropMachine.C106_order_exactly_partial,
  @PropMachine.C106_degree_partial,
  @PropMachine.C106_squares_refuted,
  @PropMachine.C106_order_refuted).
Print Assumptions all_PropMachine.
Definition all_PropMachineElement := (@PropMachineElement.C111_sum_partial,
  @PropMachineElement.C111_difference_partial,
  @PropMachineElement.C111_product_partial,
  @PropMachineElement.C111_real_partial,
  @PropMachineElement.C111_quotient_partial,
  @PropMachineElement.C111_equal_partial,
  @PropMachineElement.C111_simplify_partial,
  @PropMachineElement.C111_power_partial,
  @PropMachineElement.C111_quotient_refuted,
  @PropMachineElement.C111_sum_refuted).
Print Assumptions all_PropMachineElement.
Definition all_PropModule := (@PropModule.C18_canonical,
  @PropModule.C18_sorted,
  @PropModule.C18_unique,
  @PropModule.C18_faithful,
  @PropModule.C19_throws,
  @PropModule.C20_generators,
  @PropModule.C20_trivial,
  @PropModule.C20_ring,
  @PropModule.C20_succeeds,
  @PropModule.C20_commutative,
  @PropModule.C20_commutative_basis,
  @PropModule.C20_idempotent,
  @PropModule.C20_associative,
  @PropModule.C20_submodule,
  @PropModule.C20_contains,
  @PropModule.C20_least,
  @PropModule.C62_commutative_refuted).
Print Assumptions all_PropModule.
Definition all_PropModuleFactory := (@PropModuleFactory.C18_objects,
  @PropModuleFactory.C16_module_unique,
  @PropModuleFactory.C16_module_interned,
  @PropModuleFactory.C16_module_immutable,
  @PropModuleFactory.C16_module_keeps_generators).
Print Assumptions all_PropModuleFactory.
Definition all_PropMore := (@PropMore.C04_answered,
  @PropMore.C04_exact,
  @PropMore.C56_opposite_partial,
  @PropMore.C05_defined,
  @PropMore.C05_tight,
  @PropMore.C62_degree_partial,
  @PropMore.C62_exactly_partial,
  @PropMore.C71_prefix_partial,
  @PropMore.C71_multiply_partial,
  @PropMore.C71_integers_partial,
  @PropMore.C71_first_partial,
  @PropMore.C71_rational_refuted,
  @PropMore.C76_floor_apart_partial,
  @PropMore.C60_apart_partial,
  @PropMore.C76_double_apart_partial,
  @PropMore.C69_apart_partial,
  @PropMore.C59_inside_partial,
  @PropMore.C59_zero_partial).
Print Assumptions all_PropMore.
Definition all_PropNative := (@PropNative.C46_ball,
  @PropNative.C46_ball_comparisons,
  @PropNative.C46_float,
  @PropNative.C46_element_equal,
  @PropNative.C46_element_equal_locale,
  @PropNative.C46_element_equal_locale_throws,
  @PropNative.C46_element_order,
  @PropNative.C46_element_multiply,
  @PropNative.C46_element_divide).
Print Assumptions all_PropNative.
Definition all_PropOperators := (@PropOperators.C101_elements,
  @PropOperators.C101_integers,
  @PropOperators.C101_rationals,
  @PropOperators.C101_reals,
  @PropOperators.C101_floor_ceil,
  @PropOperators.C101_floordiv).
Print Assumptions all_PropOperators.
Definition all_PropOrder := (@PropOrder.C52_encloses,
  @PropOrder.C52_accuracy,
  @PropOrder.C52_returns,
  @PropOrder.C65_within,
  @PropOrder.C65_returns,
  @PropOrder.C32_sound_elements,
  @PropOrder.C32_elements,
  @PropOrder.C32_integers,
  @PropOrder.C32_rationals,
  @PropOrder.C32_reals,
  @PropOrder.C66_elements,
  @PropOrder.C66_rationals,
  @PropOrder.C66_returns).
Print Assumptions all_PropOrder.
Definition all_PropOrdered := (@PropOrdered.C103_total,
  @PropOrdered.C103_addition,
  @PropOrdered.C103_multiplication,
  @PropOrdered.C103_floor,
  @PropOrdered.C103_remainder).
Print Assumptions all_PropOrdered.
Definition all_PropOutput := (@PropOutput.C86_reading_unique,
  @PropOutput.C86_double,
  @PropOutput.C86_double_integer,
  @PropOutput.C86_exact_partial,
  @PropOutput.C86_injective_partial,
  @PropOutput.C86_approximation,
  @PropOutput.C86_large_refuted,
  @PropOutput.C86_no_exact_refuted,
  @PropOutput.C87_rational,
  @PropOutput.C87_digits,
  @PropOutput.C87_random,
  @PropOutput.C87_constrained_text,
  @PropOutput.C87_constrained_determines,
  @PropOutput.C87_constrained_refuted,
  @PropOutput.C87_constrained_partial,
  @PropOutput.C87_collision_refuted,
  @PropOutput.C88_product,
  @PropOutput.C88_module).
Print Assumptions all_PropOutput.
Definition all_PropPartial := (@PropPartial.C45_floats,
  @PropPartial.C55_encloses,
  @PropPartial.C55_exact,
  @PropPartial.C56_undecided_partial,
  @PropPartial.C57_one_bit_less_partial,
  @PropPartial.C58_dyadic_partial,
  @PropPartial.C59_decided_partial,
  @PropPartial.C60_faithful_partial,
  @PropPartial.C62_same_ring_partial,
  @PropPartial.C63_kept_partial,
  @PropPartial.C63_reported_partial,
  @PropPartial.C64_standard_partial,
  @PropPartial.C64_sound_partial,
  @PropPartial.C64_other_partial,
  @PropPartial.C69_same_module_partial,
  @PropPartial.C70_standard_partial,
  @PropPartial.C71_field_partial,
  @PropPartial.C72_first_partial,
  @PropPartial.C73_positive_partial,
  @PropPartial.C74_nonnegative_partial,
  @PropPartial.C75_generators_partial,
  @PropPartial.C76_apart_partial).
Print Assumptions all_PropPartial.
Definition all_PropPrint := (@PropPrint.C77_denotes,
  @PropPrint.C77_same_text,
  @PropPrint.C77_signs,
  @PropPrint.C77_denotes_code).
Print Assumptions all_PropPrint.
Definition all_PropPrintText := (@PropPrintText.C108_unambiguous,
  @PropPrintText.C108_integers,
  @PropPrintText.C108_rationals,
  @PropPrintText.C108_denotes,
  @PropPrintText.C108_denotes_code,
  @PropPrintText.C108_same,
  @PropPrintText.C108_collision_refuted).
Print Assumptions all_PropPrintText.
Definition all_PropProcess := (@PropProcess.C10_history_independent,
  @PropProcess.C10_returns,
  @PropProcess.C10_bounded,
  @PropProcess.C17_ids_distinct,
  @PropProcess.C38_distinct,
  @PropProcess.C72_distinct_refuted,
  @PropProcess.C38_values_distinct,
  @PropProcess.C38_nonzero,
  @PropProcess.C72_independent_refuted,
  @PropProcess.C39_race_refuted,
  @PropProcess.C39_same_thread_refuted,
  @PropProcess.C39_range_partial,
  @PropProcess.C39_unpreempted_partial).
Print Assumptions all_PropProcess.
Definition all_PropPromote := (@PropPromote.C63_exactly_partial,
  @PropPromote.C63_value_partial,
  @PropPromote.C73_exactly_partial,
  @PropPromote.C73_missed_partial,
  @PropPromote.C73_field_partial,
  @PropPromote.C75_exactly_partial).
Print Assumptions all_PropPromote.
Definition all_PropPy := (@PropPy.C90_operations,
  @PropPy.C90_elements,
  @PropPy.C90_equality,
  @PropPy.C90_rational,
  @PropPy.C90_ring,
  @PropPy.C90_domain,
  @PropPy.C90_nontrivial,
  @PropPy.C91_quotient,
  @PropPy.C91_by_zero,
  @PropPy.C91_invert,
  @PropPy.C91_divides,
  @PropPy.C91_gcd,
  @PropPy.C92_order,
  @PropPy.C92_abs,
  @PropPy.C92_integer_parts,
  @PropPy.C91_divides_returns,
  @PropPy.C91_gcd_returns,
  @PropPy.C93_integer,
  @PropPy.C93_rational,
  @PropPy.C93_algebraic,
  @PropPy.C93_is_square_ZZ,
  @PropPy.C93_is_square_QQ).
Print Assumptions all_PropPy.
Definition all_PropPyBall := (@PropPyBall.C97_comparison,
  @PropPyBall.C97_raises,
  @PropPyBall.C97_program,
  @PropPyBall.C97_reals_unique,
  @PropPyBall.C97_agree).
Print Assumptions all_PropPyBall.
Definition all_PropPyYap := (@PropPyYap.C94_collector,
  @PropPyYap.C94_variables,
  @PropPyYap.C94_balls,
  @PropPyYap.C94_floats,
  @PropPyYap.C94_negation_refuted).
Print Assumptions all_PropPyYap.
Definition all_PropRandom := (@PropRandom.C42_throws,
  @PropRandom.C42_returns,
  @PropRandom.C42_range,
  @PropRandom.C42_approximations,
  @PropRandom.C42_approximation_range,
  @PropRandom.C43_returns,
  @PropRandom.C43_closest,
  @PropRandom.C43_double,
  @PropRandom.C43_double_returns,
  @PropRandom.C43_largest_unspecified).
Print Assumptions all_PropRandom.
Definition all_PropRationalCmp := (@PropRationalCmp.C59_rational_exactly_partial,
  @PropRationalCmp.C59_number_zero_partial).
Print Assumptions all_PropRationalCmp.
Definition all_PropRawRational := (@PropRawRational.C113_load_partial,
  @PropRawRational.C113_rejected,
  @PropRawRational.C113_equality_partial,
  @PropRawRational.C113_equality_rational_partial,
  @PropRawRational.C113_saved_partial,
  @PropRawRational.C113_order,
  @PropRawRational.C113_less_partial,
  @PropRawRational.C113_same_number_refuted,
  @PropRawRational.C113_archive_refuted,
  @PropRawRational.C113_zero_denominator_refuted).
Print Assumptions all_PropRawRational.
Definition all_PropReal := (@PropReal.C06_value_unique,
  @PropReal.C06_arf_returns,
  @PropReal.C06_rational_accurate,
  @PropReal.C06_rational_nearest,
  @PropReal.C06_random_accurate,
  @PropReal.C06_product_accurate,
  @PropReal.C57_product_accurate_refuted,
  @PropReal.C07_relative_accuracy,
  @PropReal.C07_rational_zero,
  @PropReal.C07_refine_keeps,
  @PropReal.C07_twice_radius,
  @PropReal.C07_product_radius,
  @PropReal.C58_contains_rational_refuted,
  @PropReal.C58_contains_random_refuted,
  @PropReal.C08_cmp_below,
  @PropReal.C08_cmp_above,
  @PropReal.C08_cmp_below_rational,
  @PropReal.C59_cmp_product_refuted,
  @PropReal.C59_cmp_zero_refuted,
  @PropReal.C09_double_faithful,
  @PropReal.C09_double_error,
  @PropReal.C60_double_random_refuted,
  @PropReal.C60_double_rational_refuted,
  @PropReal.C11_lt_terminates,
  @PropReal.C11_lt_arf_terminates,
  @PropReal.C11_lt_rational_terminates,
  @PropReal.C11_gt_arf_terminates,
  @PropReal.C11_gt_rational_terminates,
  @PropReal.C11_rationals_right,
  @PropReal.C11_randoms_right,
  @PropReal.C11_rational_rational_right,
  @PropReal.C11_equality_with_arf_right,
  @PropReal.C11_sign_right,
  @PropReal.C61_sound_if_contained_partial,
  @PropReal.C11_wrong_only_if_close,
  @PropReal.C11_rational_wrong_only_if_close,
  @PropReal.C11_rational_gt_wrong_only_if_close,
  @PropReal.C11_arf_wrong_only_if_close,
  @PropReal.C61_lt_integer_refuted,
  @PropReal.C61_lt_arf_refuted,
  @PropReal.C61_lt_rational_random_refuted,
  @PropReal.C61_lt_product_refuted,
  @PropReal.C61_lt_q_refuted,
  @PropReal.C54_prefix,
  @PropReal.C54_range,
  @PropReal.C54_deterministic).
Print Assumptions all_PropReal.
Definition all_PropScale := (@PropScale.C71_throws_partial,
  @PropScale.C71_unchanged_partial,
  @PropScale.C71_changed_partial).
Print Assumptions all_PropScale.
Definition all_PropSerial := (@PropSerial.C40_elements,
  @PropSerial.C40_real_numbers,
  @PropSerial.C40_nothing_changes,
  @PropSerial.C41_generators_partial,
  @PropSerial.C41_same_order_partial,
  @PropSerial.C41_fresh_linear_partial,
  @PropSerial.C41_other_order_refuted,
  @PropSerial.C41_fresh_process_refuted).
Print Assumptions all_PropSerial.
Definition all_PropShared := (@PropShared.C81_threads_partial,
  @PropShared.C81_alone,
  @PropShared.C81_wait_free,
  @PropShared.C81_threads_refuted,
  @PropShared.C81_poisoned_refuted).
Print Assumptions all_PropShared.
Definition all_PropSharedMany := (@PropSharedMany.C81_digits,
  @PropSharedMany.C81_numbers_partial,
  @PropSharedMany.C81_numbers_alone).
Print Assumptions all_PropSharedMany.
Definition all_PropSharedSafe := (@PropSharedSafe.C81_no_crash,
  @PropSharedSafe.C81_possible,
  @PropSharedSafe.C81_usual_precisions,
  @PropSharedSafe.C81_returns).
Print Assumptions all_PropSharedSafe.
Definition all_PropSpecial := (@PropSpecial.C83_add,
  @PropSpecial.C83_sub,
  @PropSpecial.C83_mul,
  @PropSpecial.C83_div,
  @PropSpecial.C83_neg,
  @PropSpecial.C83_abs,
  @PropSpecial.C83_shift,
  @PropSpecial.C83_floor,
  @PropSpecial.C83_ceil,
  @PropSpecial.C83_of_double,
  @PropSpecial.C83_to_double,
  @PropSpecial.C83_double_roundtrip,
  @PropSpecial.C83_hash,
  @PropSpecial.C84_lt,
  @PropSpecial.C84_gt,
  @PropSpecial.C84_eq,
  @PropSpecial.C84_ne,
  @PropSpecial.C84_le_partial,
  @PropSpecial.C84_ge_partial,
  @PropSpecial.C84_nan_refuted,
  @PropSpecial.C84_weak_order_refuted,
  @PropSpecial.C84_long,
  @PropSpecial.C84_long_value,
  @PropSpecial.C85_lt,
  @PropSpecial.C85_gt,
  @PropSpecial.C85_le,
  @PropSpecial.C85_ge,
  @PropSpecial.C85_eq,
  @PropSpecial.C85_ne,
  @PropSpecial.C85_add,
  @PropSpecial.C85_sub,
  @PropSpecial.C85_mul,
  @PropSpecial.C85_neg,
  @PropSpecial.C85_rational,
  @PropSpecial.C85_constants,
  @PropSpecial.C85_indeterminate,
  @PropSpecial.C85_is_finite,
  @PropSpecial.C85_is_exact,
  @PropSpecial.C85_interval,
  @PropSpecial.C85_conservative).
Print Assumptions all_PropSpecial.
Definition all_PropStore := (@PropStore.C95_programs,
  @PropStore.C95_objects,
  @PropStore.C95_frame,
  @PropStore.C95_alias,
  @PropStore.C95_nothing_thrown).
Print Assumptions all_PropStore.
Definition all_PropStuck := (@PropStuck.C109_arb,
  @PropStuck.C109_order,
  @PropStuck.C109_integer_parts,
  @PropStuck.C109_floordiv,
  @PropStuck.C109_exists).
Print Assumptions all_PropStuck.
Definition all_PropText := (@PropText.C79_set_str,
  @PropText.C79_get_str,
  @PropText.C79_mpz,
  @PropText.C79_mpq,
  @PropText.C79_arf,
  @PropText.C79_arf_texts,
  @PropText.C79_arf_injective,
  @PropText.C79_arb,
  @PropText.C79_arb_any,
  @PropText.C79_arb_finite,
  @PropText.C79_of_string,
  @PropText.C79_of_mantissa).
Print Assumptions all_PropText.
Definition all_PropThreads := (@PropThreads.C100_values,
  @PropThreads.C100_outcome_partial,
  @PropThreads.C100_returns_partial,
  @PropThreads.C100_no_crash,
  @PropThreads.C100_single,
  @PropThreads.C100_balls,
  @PropThreads.C100_elements,
  @PropThreads.C100_threads_refuted).
Print Assumptions all_PropThreads.
Definition all_PropThreadsNumbers := (@PropThreadsNumbers.C110_comparisons,
  @PropThreadsNumbers.C110_not_delayed,
  @PropThreadsNumbers.C110_single,
  @PropThreadsNumbers.C110_operations,
  @PropThreadsNumbers.C100_greater).
Print Assumptions all_PropThreadsNumbers.
Definition all_PropUnits := (@PropUnits.C70_field_partial,
  @PropUnits.C70_exactly_partial,
  @PropUnits.C70_integers_partial).
Print Assumptions all_PropUnits.
Definition all_PropYap := (@PropYap.C48_assign_float,
  @PropYap.C48_inplace_float,
  @PropYap.C48_innermost_annotation,
  @PropYap.C48_assign_ball,
  @PropYap.C48_assign_ball_defined,
  @PropYap.C48_inplace_ball).
Print Assumptions all_PropYap.
