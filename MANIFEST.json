{
 "claims": [
  {
   "property": "C01",
   "status": "proved",
   "theorems": [
    "C01_atoms_unique",
    "C01_calls_agree"
   ],
   "note": ""
  },
  {
   "property": "C02",
   "status": "proved",
   "theorems": [
    "C02_objects_have_terms",
    "C02_trees_unique"
   ],
   "note": ""
  },
  {
   "property": "C03",
   "status": "proved",
   "theorems": [
    "C03_syms_unique"
   ],
   "note": ""
  },
  {
   "property": "C04",
   "status": "proved",
   "theorems": [
    "C04_single_thread_unique",
    "C04_two_threads_refuted"
   ],
   "note": ""
  },
  {
   "property": "C05",
   "status": "proved",
   "theorems": [
    "C05_calls_return_what_was_asked",
    "C05_calls_raise_for_wrong_arguments",
    "C05_same_value_refuted"
   ],
   "note": ""
  },
  {
   "property": "C06",
   "status": "proved",
   "theorems": [
    "C06_held_objects_stay",
    "C06_nothing_dangles"
   ],
   "note": ""
  },
  {
   "property": "C07",
   "status": "proved",
   "theorems": [
    "C07_topological_sort_is_topological"
   ],
   "note": ""
  },
  {
   "property": "C08",
   "status": "proved",
   "theorems": [
    "C08_topological_sort_is_first_visit_postorder"
   ],
   "note": ""
  },
  {
   "property": "C09",
   "status": "proved",
   "theorems": [
    "C09_exclude_prunes"
   ],
   "note": ""
  },
  {
   "property": "C10",
   "status": "proved",
   "theorems": [
    "C10_split_partitions"
   ],
   "note": ""
  },
  {
   "property": "C11",
   "status": "proved",
   "theorems": [
    "C11_forward_graph_rebuilds"
   ],
   "note": ""
  },
  {
   "property": "C12",
   "status": "proved",
   "theorems": [
    "C12_rebuilt_stack_is_a_topological_order",
    "C12_rebuilt_stack_differs",
    "C12_docstring_claim_refuted"
   ],
   "note": ""
  },
  {
   "property": "C13",
   "status": "proved",
   "theorems": [
    "C13_subs_is_substitution"
   ],
   "note": ""
  },
  {
   "property": "C14",
   "status": "proved",
   "theorems": [
    "C14_subs_of_root_is_last_value",
    "C14_subs_correct_iff",
    "C14_subs_of_root_refuted"
   ],
   "note": ""
  },
  {
   "property": "C15",
   "status": "proved",
   "theorems": [
    "C15_subs_arity",
    "C15_subs_minimal_work"
   ],
   "note": ""
  },
  {
   "property": "C16",
   "status": "proved",
   "theorems": [
    "C16_forward_is_recursive"
   ],
   "note": ""
  },
  {
   "property": "C17",
   "status": "proved",
   "theorems": [
    "C17_only_atom_values_matter",
    "C17_compound_values_ignored",
    "C17_none_values_ignored",
    "C17_no_values",
    "C17_forward_recursive_disagree_refuted"
   ],
   "note": ""
  },
  {
   "property": "C18",
   "status": "proved",
   "theorems": [
    "C18_missing_rules",
    "C18_errors_come_from_rules"
   ],
   "note": ""
  },
  {
   "property": "C19",
   "status": "proved",
   "theorems": [
    "C19_each_subexpression_once"
   ],
   "note": ""
  },
  {
   "property": "C20",
   "status": "proved",
   "theorems": [
    "C20_operation_rule",
    "C20_last_rule_wins",
    "C20_atom_rule",
    "C20_wrong_number_of_arguments"
   ],
   "note": ""
  },
  {
   "property": "C21",
   "status": "proved",
   "theorems": [
    "C21_transformer_identity"
   ],
   "note": ""
  },
  {
   "property": "C22",
   "status": "proved",
   "theorems": [
    "C22_evaluation_commutes_with_substitution"
   ],
   "note": ""
  },
  {
   "property": "C23",
   "status": "proved",
   "theorems": [
    "C23_diff_forward_is_the_recursion",
    "C23_same_outcome"
   ],
   "note": ""
  },
  {
   "property": "C24",
   "status": "proved",
   "theorems": [
    "C24_diff_is_the_derivative",
    "C24_diff_may_be_undefined_refuted"
   ],
   "note": ""
  },
  {
   "property": "C25",
   "status": "proved",
   "theorems": [
    "C25_absent_symbol_gives_zero"
   ],
   "note": ""
  },
  {
   "property": "C26",
   "status": "proved",
   "theorems": [
    "C26_when_diff_succeeds",
    "C26_zero_iff_absent",
    "C26_missing_rule_raises",
    "C26_which_exception"
   ],
   "note": ""
  },
  {
   "property": "C27",
   "status": "proved",
   "theorems": [
    "C27_diff_method",
    "C27_ntimes_is_iteration",
    "C27_nonpositive_ntimes"
   ],
   "note": ""
  },
  {
   "property": "C28",
   "status": "proved",
   "theorems": [
    "C28_distributive",
    "C28_distributive_outcome"
   ],
   "note": ""
  },
  {
   "property": "C29",
   "status": "proved",
   "theorems": [
    "C29_rule_contributes",
    "C29_rule_fires",
    "C29_rule_with_argument_as_rhs_refuted"
   ],
   "note": ""
  },
  {
   "property": "C30",
   "status": "proved",
   "theorems": [
    "C30_bad_rules_rejected",
    "C30_rule_scope",
    "C30_rule_scope_outcome"
   ],
   "note": ""
  },
  {
   "property": "C31",
   "status": "proved",
   "theorems": [
    "C31_rules_valid_or_rejected",
    "C31_non_calls_rejected",
    "C31_call_arity"
   ],
   "note": ""
  },
  {
   "property": "C32",
   "status": "proved",
   "theorems": [
    "C32_matched_by_head_only"
   ],
   "note": ""
  },
  {
   "property": "C33",
   "status": "proved",
   "theorems": [
    "C33_head_and_args"
   ],
   "note": ""
  },
  {
   "property": "C34",
   "status": "proved",
   "theorems": [
    "C34_expressify",
    "C34_operators",
    "C34_call"
   ],
   "note": ""
  },
  {
   "property": "C35",
   "status": "proved",
   "theorems": [
    "C35_operators_mean_arithmetic",
    "C35_negation"
   ],
   "note": ""
  },
  {
   "property": "C36",
   "status": "proved",
   "theorems": [
    "C36_xreplace_is_substitution_of_values"
   ],
   "note": ""
  },
  {
   "property": "C37",
   "status": "proved",
   "theorems": [
    "C37_counts"
   ],
   "note": ""
  },
  {
   "property": "C38",
   "status": "proved",
   "theorems": [
    "C38_documented_growth",
    "C38_graph_formula_at_zero_refuted"
   ],
   "note": ""
  },
  {
   "property": "C39",
   "status": "proved",
   "theorems": [
    "C39_bin_expand",
    "C39_when_bin_expand_succeeds",
    "C39_binary_unchanged"
   ],
   "note": ""
  },
  {
   "property": "C40",
   "status": "proved",
   "theorems": [
    "C40_text",
    "C40_when_str_succeeds",
    "C40_str_injective",
    "C40_printable_succeeds",
    "C40_str_ambiguous_refuted"
   ],
   "note": ""
  },
  {
   "property": "C41",
   "status": "proved",
   "theorems": [
    "C41_latex_text",
    "C41_when_latex_succeeds"
   ],
   "note": ""
  },
  {
   "property": "C42",
   "status": "proved",
   "theorems": [
    "C42_construction_round_trip",
    "C42_construction_rejected",
    "C42_getitem"
   ],
   "note": ""
  },
  {
   "property": "C43",
   "status": "proved",
   "theorems": [
    "C43_addition_is_entrywise",
    "C43_addition_adds_values",
    "C43_matrices_never_change",
    "C43_shape_mismatch"
   ],
   "note": ""
  },
  {
   "property": "C44",
   "status": "proved",
   "theorems": [
    "C44_binop_entries",
    "C44_binop_mul_refuted"
   ],
   "note": ""
  },
  {
   "property": "C45",
   "status": "proved",
   "theorems": [
    "C45_diff_is_entrywise",
    "C45_which_exception",
    "C45_diff_by_zero_refuted"
   ],
   "note": ""
  },
  {
   "property": "C46",
   "status": "proved",
   "theorems": [
    "C46_code_computes_the_expression",
    "C46_accepted"
   ],
   "note": ""
  },
  {
   "property": "C47",
   "status": "proved",
   "theorems": [
    "C47_scalar_ssa",
    "C47_matrix_ssa",
    "C47_names_clash_refuted",
    "C47_injection_refuted"
   ],
   "note": ""
  },
  {
   "property": "C48",
   "status": "proved",
   "theorems": [
    "C48_code_fills_the_output",
    "C48_zeros",
    "C48_accepted",
    "C48_stores_in_order"
   ],
   "note": ""
  },
  {
   "property": "C49",
   "status": "proved",
   "theorems": [
    "C49_code_agrees_with_eval_f64",
    "C49_surplus_arguments_refuted"
   ],
   "note": ""
  },
  {
   "property": "C50",
   "status": "proved",
   "theorems": [
    "C50_constants_exact",
    "C50_constants_nearest"
   ],
   "note": ""
  },
  {
   "property": "C51",
   "status": "proved",
   "theorems": [
    "C51_sums_differ_refuted"
   ],
   "note": ""
  },
  {
   "property": "C52",
   "status": "proved",
   "theorems": [
    "C52_cache_is_transparent",
    "C52_what_converts"
   ],
   "note": ""
  },
  {
   "property": "C53",
   "status": "proved",
   "theorems": [
    "C53_round_trip",
    "C53_round_trip_exists",
    "C53_assumptions_lost_refuted",
    "C53_name_clash_refuted",
    "C53_matrix_to_sympy",
    "C53_matrix_round_trip"
   ],
   "note": ""
  },
  {
   "property": "C54",
   "status": "proved",
   "theorems": [
    "C54_empty_applications",
    "C54_zero_matrices",
    "C54_only_zero_matrices"
   ],
   "note": ""
  },
  {
   "property": "C55",
   "status": "proved",
   "theorems": [
    "C55_no_leaks",
    "C55_all_is_freed"
   ],
   "note": ""
  },
  {
   "property": "C56",
   "status": "proved",
   "theorems": [
    "C56_calls_are_short",
    "C56_calls_never_block"
   ],
   "note": ""
  },
  {
   "property": "C57",
   "status": "proved",
   "theorems": [
    "C57_repr_reads_back",
    "C57_when_repr_succeeds",
    "C57_repr_injective",
    "C57_same_type_name_refuted",
    "C57_known_names"
   ],
   "note": ""
  },
  {
   "property": "C58",
   "status": "proved",
   "theorems": [
    "C58_sort_takes_linear_time",
    "C58_documented_family"
   ],
   "note": ""
  },
  {
   "property": "C59",
   "status": "proved",
   "theorems": [
    "C59_derivatives_stay_small",
    "C59_binary_expressions"
   ],
   "note": ""
  },
  {
   "property": "C60",
   "status": "proved",
   "theorems": [
    "C60_identity",
    "C60_absent",
    "C60_order_irrelevant",
    "C60_sequence",
    "C60_commute",
    "C60_undo"
   ],
   "note": ""
  },
  {
   "property": "C61",
   "status": "proved",
   "theorems": [
    "C61_diff_commutes_with_xreplace",
    "C61_diff_commutes_with_renaming"
   ],
   "note": ""
  },
  {
   "property": "C62",
   "status": "proved",
   "theorems": [
    "C62_user_rules_give_the_derivative",
    "C62_one_argument"
   ],
   "note": ""
  },
  {
   "property": "C63",
   "status": "proved",
   "theorems": [
    "C63_sums_are_rounded_once",
    "C63_order_of_terms_irrelevant",
    "C63_two_terms_agree",
    "C63_code_depends_on_order_refuted"
   ],
   "note": ""
  },
  {
   "property": "C64",
   "status": "proved",
   "theorems": [
    "C64_repeated_derivatives_exist",
    "C64_mixed_derivatives_agree"
   ],
   "note": ""
  },
  {
   "property": "C65",
   "status": "proved",
   "theorems": [
    "C65_lambdify_expression",
    "C65_lambdify_matrix",
    "C65_lambdify_matrix_accepts",
    "C65_lambdify_rejects"
   ],
   "note": ""
  },
  {
   "property": "C66",
   "status": "proved",
   "theorems": [
    "C66_expressions",
    "C66_matrices",
    "C66_rejected",
    "C66_diff_variable"
   ],
   "note": ""
  },
  {
   "property": "C67",
   "status": "proved",
   "theorems": [
    "C67_matrix_text",
    "C67_when_repr_succeeds",
    "C67_matrix_repr_injective"
   ],
   "note": ""
  },
  {
   "property": "C68",
   "status": "proved",
   "theorems": [
    "C68_within_a_call",
    "C68_between_calls"
   ],
   "note": ""
  },
  {
   "property": "C69",
   "status": "proved",
   "theorems": [
    "C69_text_is_python",
    "C69_text_rebuilds",
    "C69_binary_text_reads_back",
    "C69_integers_fold_refuted",
    "C69_negative_base_refuted"
   ],
   "note": ""
  },
  {
   "property": "C70",
   "status": "proved",
   "theorems": [
    "C70_objects_are_trees",
    "C70_identity_is_equality",
    "C70_topological_sort",
    "C70_topological_sort_of_objects",
    "C70_rebuild_is_the_same_object",
    "C70_subs"
   ],
   "note": ""
  },
  {
   "property": "C71",
   "status": "proved",
   "theorems": [
    "C71_evaluation",
    "C71_values",
    "C71_transformer_identity",
    "C71_new_transformer",
    "C71_diff_forward",
    "C71_diff_again"
   ],
   "note": ""
  },
  {
   "property": "C72",
   "status": "proved",
   "theorems": [
    "C72_user_programs",
    "C72_comparison",
    "C72_variables",
    "C72_again",
    "C72_head_args",
    "C72_count_ops_graph"
   ],
   "note": ""
  },
  {
   "property": "C73",
   "status": "proved",
   "theorems": [
    "C73_one_instruction_per_operation",
    "C73_linear",
    "C73_binary",
    "C73_derivative",
    "C73_documented_family",
    "C73_matrix"
   ],
   "note": ""
  },
  {
   "property": "C74",
   "status": "proved",
   "theorems": [
    "C74_code_exact",
    "C74_eval_exact"
   ],
   "note": ""
  },
  {
   "property": "C75",
   "status": "proved",
   "theorems": [
    "C75_same_classes",
    "C75_mixed_classes_rejected",
    "C75_evaluation_ignores_classes",
    "C75_derivatives",
    "C75_parts"
   ],
   "note": ""
  },
  {
   "property": "C76",
   "status": "proved",
   "theorems": [
    "C76_sums_of_values",
    "C76_rearranged_sums",
    "C76_same_entries_refuted",
    "C76_zero_matrix",
    "C76_derivative_of_a_sum",
    "C76_sum_is_differentiable"
   ],
   "note": ""
  },
  {
   "property": "C77",
   "status": "proved",
   "theorems": [
    "C77_recursive_evaluation_works_per_occurrence",
    "C77_recursive_evaluation_is_exponential",
    "C77_from_sympy_works_once"
   ],
   "note": ""
  },
  {
   "property": "C78",
   "status": "proved",
   "theorems": [
    "C78_latex_injective",
    "C78_latexable_succeeds",
    "C78_latex_ambiguous_refuted"
   ],
   "note": ""
  },
  {
   "property": "C79",
   "status": "proved",
   "theorems": [
    "C79_repr_limit",
    "C79_str_limit",
    "C79_recursive_evaluation_limit",
    "C79_from_sympy_limit",
    "C79_deep_expressions",
    "C79_deep_sympy_objects"
   ],
   "note": ""
  },
  {
   "property": "C80",
   "status": "proved",
   "theorems": [
    "C80_eval_error",
    "C80_lambdify_error",
    "C80_lambdify_matrix_error",
    "C80_growth",
    "C80_without_signs",
    "C80_derivative",
    "C80_relative_error_refuted"
   ],
   "note": ""
  },
  {
   "property": "C81",
   "status": "proved",
   "theorems": [
    "C81_side_effects",
    "C81_number_of_calls",
    "C81_without_effects",
    "C81_determined",
    "C81_adding_rules"
   ],
   "note": ""
  },
  {
   "property": "C82",
   "status": "proved",
   "theorems": [
    "C82_copy_overwrites",
    "C82_atoms_and_syms_raise",
    "C82_copies_are_one_object",
    "C82_copy_keeps_trees_refuted"
   ],
   "note": ""
  },
  {
   "property": "C83",
   "status": "proved",
   "theorems": [
    "C83_rule_programs",
    "C83_same_output",
    "C83_str",
    "C83_latex",
    "C83_floats"
   ],
   "note": ""
  },
  {
   "property": "C84",
   "status": "proved",
   "theorems": [
    "C84_diff_commutes_with_xreplace",
    "C84_diff_commutes_with_renaming",
    "C84_projecting_rules_refuted",
    "C84_distributive_refuted"
   ],
   "note": ""
  },
  {
   "property": "C85",
   "status": "proved",
   "theorems": [
    "C85_other_functions",
    "C85_rules_added",
    "C85_adding",
    "C85_other_derivatives",
    "C85_derivatives_added",
    "C85_adding_derivatives",
    "C85_diff",
    "C85_replaced_rules_refuted",
    "C85_replaced_derivatives_refuted"
   ],
   "note": ""
  },
  {
   "property": "C86",
   "status": "proved",
   "theorems": [
    "C86_nothing_is_lost",
    "C86_uniqueness_survives",
    "C86_call_again",
    "C86_same_object_again",
    "C86_leftovers_are_collected"
   ],
   "note": ""
  },
  {
   "property": "C87",
   "status": "proved",
   "theorems": [
    "C87_latex_is_well_formed",
    "C87_double_superscript_refuted"
   ],
   "note": ""
  },
  {
   "property": "C88",
   "status": "proved",
   "theorems": [
    "C88_atoms_first",
    "C88_compound",
    "C88_same_exception_refuted",
    "C88_str",
    "C88_latex",
    "C88_f64"
   ],
   "note": ""
  },
  {
   "property": "C89",
   "status": "proved",
   "theorems": [
    "C89_str",
    "C89_latex",
    "C89_repr"
   ],
   "note": ""
  },
  {
   "property": "C90",
   "status": "proved",
   "theorems": [
    "C90_matrices_keep_their_entries",
    "C90_constructor_copies",
    "C90_tolist_makes_new_lists",
    "C90_calls_change_no_list",
    "C90_same_as_contents",
    "C90_attributes",
    "C90_entrymap_shared_refuted"
   ],
   "note": ""
  },
  {
   "property": "C91",
   "status": "proved",
   "theorems": [
    "C91_calls_return_the_values",
    "C91_lambdify",
    "C91_never_crashes",
    "C91_calls_end",
    "C91_arrays_change_only_by_the_program",
    "C91_returned_arrays_are_new",
    "C91_code_stays_loaded",
    "C91_code_is_freed_refuted",
    "C91_shape_is_fixed_refuted"
   ],
   "note": ""
  },
  {
   "property": "C92",
   "status": "proved",
   "theorems": [
    "C92_exact_value",
    "C92_eval_error",
    "C92_lambdify_error",
    "C92_lambdify_matrix_error",
    "C92_derivative",
    "C92_eval_and_code"
   ],
   "note": ""
  },
  {
   "property": "C93",
   "status": "proved",
   "theorems": [
    "C93_from_sympy",
    "C93_to_sympy",
    "C93_there_and_back",
    "C93_derivative",
    "C93_matrix",
    "C93_confused_names_refuted"
   ],
   "note": ""
  },
  {
   "property": "C94",
   "status": "proved",
   "theorems": [
    "C94_text",
    "C94_when_str_succeeds",
    "C94_str_determines_tree",
    "C94_types_do_not_show",
    "C94_ambiguous_refuted"
   ],
   "note": ""
  },
  {
   "property": "C95",
   "status": "proved",
   "theorems": [
    "C95_substitution",
    "C95_one_replacement",
    "C95_tree_growth",
    "C95_repeated_derivative"
   ],
   "note": ""
  },
  {
   "property": "C96",
   "status": "proved",
   "theorems": [
    "C96_repeated_derivative",
    "C96_without_powers",
    "C96_tree_is_exponential",
    "C96_documented_example"
   ],
   "note": ""
  },
  {
   "property": "C97",
   "status": "proved",
   "theorems": [
    "C97_same_derivative",
    "C97_linear_work",
    "C97_binary_work",
    "C97_repeated_work",
    "C97_record_is_complete"
   ],
   "note": ""
  },
  {
   "property": "C98",
   "status": "proved",
   "theorems": [
    "C98_wide_products_refuted",
    "C98_bin_expand_size",
    "C98_expand_then_differentiate",
    "C98_same_values",
    "C98_expanded_derivatives"
   ],
   "note": ""
  },
  {
   "property": "C99",
   "status": "proved",
   "theorems": [
    "C99_chain_rule",
    "C99_one_replacement",
    "C99_same_symbol"
   ],
   "note": ""
  },
  {
   "property": "C100",
   "status": "proved",
   "theorems": [
    "C100_derivatives_compile",
    "C100_code_size",
    "C100_expand_first",
    "C100_lambdify"
   ],
   "note": ""
  },
  {
   "property": "C101",
   "status": "proved",
   "theorems": [
    "C101_kth_derivative",
    "C101_taylor",
    "C101_monotone",
    "C101_zero_derivative",
    "C101_without_powers"
   ],
   "note": ""
  },
  {
   "property": "C102",
   "status": "proved",
   "theorems": [
    "C102_total_derivative",
    "C102_directional",
    "C102_mean_value",
    "C102_level_curves"
   ],
   "note": ""
  },
  {
   "property": "C103",
   "status": "proved",
   "theorems": [
    "C103_compile_after_substitution",
    "C103_arguments",
    "C103_evaluate_after_substitution"
   ],
   "note": ""
  },
  {
   "property": "C104",
   "status": "proved",
   "theorems": [
    "C104_syms_and_atoms_raise",
    "C104_expressions_raise",
    "C104_trees_with_atoms_raise",
    "C104_atomless_trees",
    "C104_deepcopy_copies_refuted"
   ],
   "note": ""
  },
  {
   "property": "C105",
   "status": "proved",
   "theorems": [
    "C105_texts",
    "C105_operations",
    "C105_diff",
    "C105_eval_f64",
    "C105_lambdify",
    "C105_to_sympy"
   ],
   "note": ""
  },
  {
   "property": "C106",
   "status": "proved",
   "theorems": [
    "C106_numbers",
    "C106_expressions",
    "C106_start",
    "C106_values",
    "C106_lambdify_accepts",
    "C106_lambdify",
    "C106_same_as_Add",
    "C106_eval",
    "C106_rounding_refuted",
    "C106_matrices_refuted",
    "C106_matrices"
   ],
   "note": ""
  },
  {
   "property": "C107",
   "status": "proved",
   "theorems": [
    "C107_expression",
    "C107_matrix",
    "C107_lambdify",
    "C107_lambdify_matrix",
    "C107_only_these"
   ],
   "note": ""
  },
  {
   "property": "C108",
   "status": "proved",
   "theorems": [
    "C108_means_what_it_says",
    "C108_accepted",
    "C108_derivative",
    "C108_compiled",
    "C108_compiled_derivative"
   ],
   "note": ""
  },
  {
   "property": "C109",
   "status": "proved",
   "theorems": [
    "C109_eval_f64",
    "C109_lambdify",
    "C109_lambdify_matrix",
    "C109_derivative",
    "C109_eval_and_code"
   ],
   "note": ""
  },
  {
   "property": "C110",
   "status": "proved",
   "theorems": [
    "C110_jacobian",
    "C110_velocity"
   ],
   "note": ""
  },
  {
   "property": "C111",
   "status": "proved",
   "theorems": [
    "C111_descent",
    "C111_computed_descent",
    "C111_extremum",
    "C111_computed_not_extremum",
    "C111_second_derivative",
    "C111_root",
    "C111_at_most_one_root",
    "C111_bracket"
   ],
   "note": ""
  },
  {
   "property": "C112",
   "status": "proved",
   "theorems": [
    "C112_prompt",
    "C112_identity",
    "C112_freed"
   ],
   "note": ""
  },
  {
   "property": "C113",
   "status": "proved",
   "theorems": [
    "C113_matrix_programs",
    "C113_entries",
    "C113_graph",
    "C113_meaning"
   ],
   "note": ""
  },
  {
   "property": "C114",
   "status": "proved",
   "theorems": [
    "C114_lambdify_programs",
    "C114_code_computes",
    "C114_matrix_meaning",
    "C114_matrix_code"
   ],
   "note": ""
  },
  {
   "property": "C115",
   "status": "proved",
   "theorems": [
    "C115_to_matrix_meaning",
    "C115_from_matrix_meaning",
    "C115_sympy_programs",
    "C115_from_to_from",
    "C115_to_from",
    "C115_matrix_round_trip"
   ],
   "note": ""
  },
  {
   "property": "C116",
   "status": "proved",
   "theorems": [
    "C116_prompt",
    "C116_identity",
    "C116_freed"
   ],
   "note": ""
  },
  {
   "property": "C117",
   "status": "proved",
   "theorems": [
    "C117_derivatives",
    "C117_exponential",
    "C117_str",
    "C117_latex",
    "C117_family"
   ],
   "note": ""
  },
  {
   "property": "C118",
   "status": "proved",
   "theorems": [
    "C118_rules",
    "C118_simplecas",
    "C118_symbols"
   ],
   "note": ""
  },
  {
   "property": "C119",
   "status": "proved",
   "theorems": [
    "C119_powers",
    "C119_beyond_refuted",
    "C119_eval_refuted"
   ],
   "note": ""
  },
  {
   "property": "C120",
   "status": "proved",
   "theorems": [
    "C120_linear",
    "C120_leibniz",
    "C120_calculus"
   ],
   "note": ""
  },
  {
   "property": "C121",
   "status": "proved",
   "theorems": [
    "C121_derivatives",
    "C121_zero",
    "C121_constant",
    "C121_powers_refuted"
   ],
   "note": ""
  },
  {
   "property": "C122",
   "status": "proved",
   "theorems": [
    "C122_waves",
    "C122_sine"
   ],
   "note": ""
  },
  {
   "property": "C123",
   "status": "proved",
   "theorems": [
    "C123_exact",
    "C123_determined"
   ],
   "note": ""
  },
  {
   "property": "C124",
   "status": "proved",
   "theorems": [
    "C124_entries",
    "C124_when",
    "C124_polynomials"
   ],
   "note": ""
  },
  {
   "property": "C125",
   "status": "proved",
   "theorems": [
    "C125_by_number",
    "C125_by_compound",
    "C125_by_itself_refuted"
   ],
   "note": ""
  },
  {
   "property": "C126",
   "status": "proved",
   "theorems": [
    "C126_euler",
    "C126_products",
    "C126_sums",
    "C126_symbols"
   ],
   "note": ""
  }
 ]
}