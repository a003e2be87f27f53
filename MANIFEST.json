{
 "claims": [
  {
   "property": "C01",
   "status": "proved",
   "theorems": [
    "c01_parse_returns",
    "c01_panic_only_if_misread",
    "c01_no_panic",
    "c01_no_panic_without_brackets",
    "c01_no_panic_on_ascii",
    "c01_panic_on_non_ascii_literal",
    "c01_panic_on_non_ascii_call"
   ],
   "note": "termination for every string; misread (SpellSpec.v) describes the texts that can panic, two witnesses proved"
  },
  {
   "property": "C02",
   "status": "proved",
   "theorems": [
    "c02_blank_anywhere",
    "c02_same_without_blanks",
    "c02_white_space_around"
   ],
   "note": ""
  },
  {
   "property": "C03",
   "status": "proved",
   "theorems": [
    "c03_operator_trees",
    "c03_grammar",
    "c03_unambiguous",
    "c03_division_groups_right",
    "c03_division_groups_right_value",
    "c03_sign_after_operator_rejected",
    "c03_leading_operator_accepted",
    "c03_adjacent_calls_misread"
   ],
   "note": "whole grammar, not only operators; division groups to the right (8/4/2 = 4, finding)"
  },
  {
   "property": "C04",
   "status": "proved",
   "theorems": [
    "c04_parenthesised",
    "c04_same_meaning",
    "c04_unbalanced_name"
   ],
   "note": "for every text in which each ')' closes an earlier '('; the exception is exhibited"
  },
  {
   "property": "C05",
   "status": "proved",
   "theorems": [
    "c05_unmatched_open",
    "c05_unmatched_close",
    "c05_empty"
   ],
   "note": ""
  },
  {
   "property": "C06",
   "status": "proved",
   "theorems": [
    "c06_matrices_rectangular",
    "c06_vectors_non_empty",
    "c06_vector_literal",
    "c06_matrix_literal",
    "c06_ragged_literal"
   ],
   "note": ""
  },
  {
   "property": "C07",
   "status": "proved",
   "theorems": [
    "c07_variable_names",
    "c07_function_names",
    "c07_names_accepted",
    "c07_derivative_variable_unchecked"
   ],
   "note": "the variables of D, I and eq are not checked (finding)"
  },
  {
   "property": "C08",
   "status": "proved",
   "theorems": [
    "c08_split_of_join",
    "c08_join_of_split",
    "c08_call",
    "c08_list",
    "c08_extra_equals_dropped"
   ],
   "note": ""
  },
  {
   "property": "C09",
   "status": "proved",
   "theorems": [
    "c09_root_arguments",
    "c09_derivative_arguments",
    "c09_integral_arguments"
   ],
   "note": ""
  },
  {
   "property": "C10",
   "status": "proved",
   "theorems": [
    "c10_outcome_unique",
    "c10_depth_irrelevant",
    "c10_outcome_at_any_depth"
   ],
   "note": "eval modelled on recursion-depth fuel; any two sufficient depths agree"
  },
  {
   "property": "C11",
   "status": "proved",
   "theorems": [
    "c11_terminates"
   ],
   "note": "includes derivatives and equations"
  },
  {
   "property": "C12",
   "status": "proved",
   "theorems": [
    "c12_direct_recursion_reported",
    "c12_mutual_recursion_diverges",
    "c12_recursion_in_derivative_diverges"
   ],
   "note": "mutual recursion and recursion inside D(...) never return (finding)"
  },
  {
   "property": "C13",
   "status": "proved",
   "theorems": [
    "c13_operation_table",
    "c13_first_failure_decides",
    "c13_operand_errors"
   ],
   "note": ""
  },
  {
   "property": "C14",
   "status": "proved",
   "theorems": [
    "c14_vector_literal",
    "c14_matrix_literal",
    "c14_vector_of_non_scalar",
    "c14_matrix_of_non_scalar",
    "c14_combinations"
   ],
   "note": ""
  },
  {
   "property": "C15",
   "status": "proved",
   "theorems": [
    "c15_variable",
    "c15_unknown_variable",
    "c15_list",
    "c15_list_error"
   ],
   "note": ""
  },
  {
   "property": "C16",
   "status": "proved",
   "theorems": [
    "c16_call",
    "c16_unknown_function",
    "c16_wrong_number_of_arguments",
    "c16_argument_error"
   ],
   "note": ""
  },
  {
   "property": "C17",
   "status": "proved",
   "theorems": [
    "c17_only_bindings_matter"
   ],
   "note": ""
  },
  {
   "property": "C18",
   "status": "proved",
   "theorems": [
    "c18_context_is_a_map",
    "c18_constructors"
   ],
   "note": ""
  },
  {
   "property": "C19",
   "status": "proved",
   "theorems": [
    "c19_table",
    "c19_power_scalar",
    "c19_power_matrix",
    "c19_power_other",
    "c19_index",
    "c19_index_other",
    "c19_inverse"
   ],
   "note": "every operator, every pair of kinds"
  },
  {
   "property": "C20",
   "status": "proved",
   "theorems": [
    "c19_table",
    "c20_well_formed",
    "c20_never_panics",
    "c20_matrix_product"
   ],
   "note": ""
  },
  {
   "property": "C21",
   "status": "proved",
   "theorems": [
    "c21_addition",
    "c21_subtraction",
    "c21_negation",
    "c21_negation_flips_the_sign",
    "c21_addition_commutes",
    "c21_double_negation",
    "c21_ieee_addition"
   ],
   "note": "Over all binary64 values including infinities and NaN (Flocq)."
  },
  {
   "property": "C22",
   "status": "proved",
   "theorems": [
    "c22_matrix_product",
    "c22_matrix_vector",
    "c22_dot_product",
    "c22_scaling",
    "c22_division",
    "c22_sums"
   ],
   "note": "Over every Archimedean field, any dimensions; specification = mathcomp's *m and sums."
  },
  {
   "property": "C23",
   "status": "proved",
   "theorems": [
    "c23_determinant",
    "c23_non_square"
   ],
   "note": "mathcomp's determinant, any size, any Archimedean field"
  },
  {
   "property": "C24",
   "status": "proved",
   "theorems": [
    "c24_inverse",
    "c24_product_is_identity",
    "c24_singular",
    "c24_non_square",
    "c24_zero_pivot",
    "c24_regular",
    "c24_finite_is_inverse"
   ],
   "note": "c24_regular: finite if and only if every leading minor is non-zero; c24_zero_pivot exhibits the finding (NaN entries for an invertible matrix)"
  },
  {
   "property": "C25",
   "status": "proved",
   "theorems": [
    "c25_power",
    "c25_negative_power",
    "c25_non_integer",
    "c25_binary64"
   ],
   "note": "negative powers silently give the identity (finding)"
  },
  {
   "property": "C26",
   "status": "proved",
   "theorems": [
    "c26_cross",
    "c26_too_long"
   ],
   "note": ""
  },
  {
   "property": "C27",
   "status": "proved",
   "theorems": [
    "c27_indexing",
    "c27_other_indices_are_errors",
    "c27_only_vectors_by_scalars"
   ],
   "note": ""
  },
  {
   "property": "C28",
   "status": "proved",
   "theorems": [
    "c28_equal_bounds",
    "c28_swapped_bounds",
    "c28_non_scalar_bound",
    "c28_outer_variable_hidden"
   ],
   "note": "Swapping is proved in binary64 for all bounds including NaN and infinities."
  },
  {
   "property": "C29",
   "status": "proved",
   "theorems": [
    "c29_sum_of_samples",
    "c29_exact_sum",
    "c29_constant",
    "c29_linear"
   ],
   "note": "any arithmetic: sum of samples times width; exact arithmetic: number and place of samples, exact for constants, off by -m(b-a)dx for linear integrands"
  },
  {
   "property": "C30",
   "status": "proved",
   "theorems": [
    "c30_terminates_iff_every_step_counts",
    "c30_terminates_if_every_step_counts",
    "c30_terminates_if_upper_bound_reached",
    "c30_vanishing_step_diverges"
   ],
   "note": "binary64: an integral terminates iff no visited point p below the upper bound has p + dx == p; Examples.never_returns_text exhibits divergence."
  },
  {
   "property": "C31",
   "status": "proved",
   "theorems": [
    "c31_difference_quotient",
    "c31_scalar_function",
    "c31_non_scalar_point",
    "c31_different_counts",
    "c31_outer_variable_hidden",
    "c31_callers_context",
    "c31_step_is_ten_to_the_minus_prec",
    "c31_exact_quotient",
    "c31_linear",
    "c31_square"
   ],
   "note": ""
  },
  {
   "property": "C32",
   "status": "proved",
   "theorems": [
    "c32_solutions_satisfy",
    "c32_every_equation"
   ],
   "note": "binary64; every single residual is below 10^-PREC (not only the Euclidean length). Only the first value of a multi-valued equation counts (Examples.second_value_ignored)."
  },
  {
   "property": "C33",
   "status": "proved",
   "theorems": [
    "c33_at_most_ten_distinct",
    "c69_answer",
    "c33_selection"
   ],
   "note": "c69_answer states the selection in terms of the search specification alone, for distinct unknowns; c33_selection also covers repeated unknowns, in terms of the model's search loop."
  },
  {
   "property": "C34",
   "status": "proved",
   "theorems": [
    "c34_form",
    "c34_no_variables"
   ],
   "note": "without search variables the answer is the empty vector (finding)"
  },
  {
   "property": "C35",
   "status": "proved",
   "theorems": [
    "c35_no_equation",
    "c35_defined_variable",
    "c35_underdetermined",
    "c35_vector",
    "c35_matrix",
    "c35_evaluation_error",
    "c35_no_value_panics",
    "c35_ok_only_if"
   ],
   "note": "later equations are not tried out: a vector there panics (Examples.vector_in_second_panics)"
  },
  {
   "property": "C36",
   "status": "proved",
   "theorems": [
    "c36_internal_errors_do_not_escape"
   ],
   "note": ""
  },
  {
   "property": "C37",
   "status": "proved",
   "theorems": [
    "c69_answer",
    "c69_nothing_found",
    "c69_something_found",
    "c37_choices_enumerated",
    "c37_first_success"
   ],
   "note": "The c69 theorems state it in terms of the search specification alone (is_choice, lex, finds), for distinct unknowns; the c37 theorems also cover repeated unknowns, in terms of the model's combinations and attempts."
  },
  {
   "property": "C38",
   "status": "proved",
   "theorems": [
    "c38_solution",
    "c38_infinite_solutions",
    "c38_finite_answers_are_solutions",
    "c38_regular_systems",
    "c38_singular_systems"
   ],
   "note": ""
  },
  {
   "property": "C39",
   "status": "proved",
   "theorems": [
    "c39_solve_is_eq"
   ],
   "note": "eval and solve take the context by shared reference; the model has no other access to it"
  },
  {
   "property": "C40",
   "status": "proved",
   "theorems": [
    "c40_quick_eval"
   ],
   "note": ""
  },
  {
   "property": "C41",
   "status": "proved",
   "theorems": [
    "c41_scalar",
    "c41_vector",
    "c41_value",
    "c41_values",
    "c41_no_values",
    "c41_infinity_is_a_name"
   ],
   "note": "every finite binary64 (through the shortest decimal text), any sizes; the empty set, infinities and NaN do not read back"
  },
  {
   "property": "C42",
   "status": "proved",
   "theorems": [
    "c42_too_long",
    "c42_padded"
   ],
   "note": ""
  },
  {
   "property": "C43",
   "status": "proved",
   "theorems": [
    "c43_vector_layout",
    "c43_matrix_layout",
    "c43_widths",
    "c43_as_unicode",
    "c43_as_unicode_at_var",
    "c43_symbol_misaligned",
    "c43_scalar",
    "c43_empty"
   ],
   "note": "binary64; the misalignment for Greek names and the panics for empty values are proved as findings"
  },
  {
   "property": "C44",
   "status": "proved",
   "theorems": [
    "c44_nearest",
    "c44_reads",
    "c44_scientific",
    "c44_zero",
    "c44_never_minus_zero"
   ],
   "note": "c44_nearest: for |x|*10^(PREC-2) < 10^15 the text is the decimal with at most PREC-2 decimals nearest to x up to the error of one multiplication (shortest-digits printing is proved, not assumed); larger numbers: c44_reads and the findings Examples.integer_altered, large_is_inf"
  },
  {
   "property": "C45",
   "status": "proved",
   "theorems": [
    "c45_no_value",
    "c45_one_value",
    "c45_values",
    "c45_at_variable",
    "c45_no_value_at_variable"
   ],
   "note": ""
  },
  {
   "property": "C46",
   "status": "proved",
   "theorems": [
    "c46_value",
    "c46_values",
    "c46_variable",
    "c46_tree",
    "c46_function",
    "c46_step",
    "c46_inline",
    "c46_export",
    "c46_plain_name",
    "c46_greek_name",
    "c46_subscript_name"
   ],
   "note": "binary64; balanced = accepted by the TeX-like automaton of LatexSpec.v; the hypothesis on names is shown to be needed (Examples.bad_name)"
  },
  {
   "property": "C47",
   "status": "proved",
   "theorems": [
    "c47_export",
    "c47_append",
    "c47_labels_differ"
   ],
   "note": ""
  },
  {
   "property": "C48",
   "status": "proved",
   "theorems": [
    "c48_no_panic",
    "c48_no_panic_parsed"
   ],
   "note": "index operator included"
  },
  {
   "property": "C49",
   "status": "proved",
   "theorems": [
    "c49_nearest",
    "c49_idempotent",
    "c49_components",
    "c49_overflow"
   ],
   "note": ""
  },
  {
   "property": "C50",
   "status": "proved",
   "theorems": [
    "c50_literal_value"
   ],
   "note": ""
  },
  {
   "property": "C51",
   "status": "proved",
   "theorems": [
    "c51_function",
    "c51_not_a_number",
    "c51_abs_vector",
    "c51_root",
    "c51_power",
    "c51_sqrt_rounded",
    "c51_sqrt_negative",
    "c51_abs_exact"
   ],
   "note": "sin, cos, tan, ln, arcsin, arccos, arctan and powf are parameters (libm): the theorem says which of them is applied to what"
  },
  {
   "property": "C52",
   "status": "proved",
   "theorems": [
    "c52_literal",
    "c52_value"
   ],
   "note": "binary64; nearest_double in PropNumber.v is the specification"
  },
  {
   "property": "C53",
   "status": "proved",
   "theorems": [
    "c53_same_outcome",
    "c53_same_termination",
    "c53_texts"
   ],
   "note": "alike (PropNotation.v) is the specification"
  },
  {
   "property": "C54",
   "status": "proved",
   "theorems": [
    "c54_reads_back",
    "c54_same_meaning",
    "c54_numbers",
    "c54_equations",
    "c54_equations_as_printed"
   ],
   "note": "printable (PropString.v) lists what is excluded; that the exclusions are needed is shown in PropStringFloat.Examples"
  },
  {
   "property": "C55",
   "status": "proved",
   "theorems": [
    "c55_integral",
    "c55_derivative"
   ],
   "note": "exact arithmetic over any archimedean field; antiderivative (PropAccuracy.v) is the specification"
  },
  {
   "property": "C56",
   "status": "proved",
   "theorems": [
    "c56_integral",
    "c56_derivative"
   ],
   "note": "exact arithmetic; combined is the tree of p*e1 + q*e2"
  },
  {
   "property": "C57",
   "status": "proved",
   "theorems": [
    "c57_reads",
    "c57_reading_groups",
    "c57_numbers"
   ],
   "note": "LatexGrammar.v is the reader's grammar; legible (PropLatexReads.v) lists what is excluded; that the exclusions are needed is shown in PropLatexReads.Examples. The grammar gives a reading, that it is the only one is not claimed (x_{1} can be a name or an index)"
  },
  {
   "property": "C58",
   "status": "proved",
   "theorems": [
    "c58_accepted",
    "c58_every_node",
    "c58_names",
    "c58_numbers",
    "c58_well_read"
   ],
   "note": "SpellSpec.v is the specification (spells, root_at, operator_at, misread)"
  },
  {
   "property": "C59",
   "status": "proved",
   "theorems": [
    "c59_evaluation",
    "c59_reading",
    "c59_quick",
    "c59_messages"
   ],
   "note": "ErrorSpec.v is the specification (truthful, quotes, math_messages)"
  },
  {
   "property": "C60",
   "status": "proved",
   "theorems": [
    "c60_solutions",
    "c60_unique",
    "c60_dependent"
   ],
   "note": "exact arithmetic over any archimedean field; the hypotheses on the leading minors (no pivoting, C24) and on start points close to satisfying the system are stated in the property"
  },
  {
   "property": "C61",
   "status": "proved",
   "theorems": [
    "c61_calculation",
    "c61_function",
    "c61_tagged",
    "c61_one_mark",
    "c61_no_mark"
   ],
   "note": "chain and chain_marked (PropSteps.v) are the specification; neutral is that of LatexSpec.v"
  },
  {
   "property": "C62",
   "status": "proved",
   "theorems": [
    "c62_letters",
    "c62_pi",
    "c62_others",
    "c62_distinct",
    "c62_exceptions"
   ],
   "note": "alphabet, italic_small and italic_capital (PropSteps.v) are the specification"
  },
  {
   "property": "C63",
   "status": "proved",
   "theorems": [
    "c63_operation",
    "c63_negation",
    "c63_division_by_zero"
   ],
   "note": "nearest_double (PropNumber.v) is the specification of rounding, fR the real number a double stands for"
  },
  {
   "property": "C64",
   "status": "proved",
   "theorems": [
    "c64_dot_product",
    "c64_matrix_vector",
    "c64_matrix_product"
   ],
   "note": "accurate_sum (PropRounding.v) is the specification"
  },
  {
   "property": "C65",
   "status": "proved",
   "theorems": [
    "c65_results_are_doubles",
    "c65_variables_are_doubles",
    "c65_results_read_back",
    "c65_value_reads_back"
   ],
   "note": "session (PropResults.v), well_formed (ShapeSpec.v), floats (PropFloat.v), reread and reads_as (PropRoundTrip.v) are the specification"
  },
  {
   "property": "C66",
   "status": "proved",
   "theorems": [
    "c66_equal_parts",
    "c66_variable",
    "c66_fill",
    "c66_call"
   ],
   "note": "ReplaceSpec.v (rp, fill, bound, written) and outcome/diverges (SpecEval.v) are the specification"
  },
  {
   "property": "C67",
   "status": "proved",
   "theorems": [
    "c67_accessors",
    "c67_value_macro",
    "c67_sets",
    "c67_variable",
    "c67_nonfinite",
    "c67_equality",
    "c67_nan_differs",
    "c67_conversions",
    "c67_latex_messages"
   ],
   "note": ""
  },
  {
   "property": "C68",
   "status": "proved",
   "theorems": [
    "c68_rename",
    "c68_same_values",
    "c68_function_definitions",
    "c68_unknowns",
    "c68_integral_variable",
    "c68_derivative_variable"
   ],
   "note": "RenameSpec.v (ren, alpha, swap, forget), shared (PropRename.v) and mentions (ContextProofs.v) are the specification; caller_seen is a finding: functions are dynamically scoped"
  },
  {
   "property": "C69",
   "status": "proved",
   "theorems": [
    "c69_answer",
    "c69_nothing_found",
    "c69_something_found",
    "c69_search_determined",
    "c69_newton_step"
   ],
   "note": "SearchSpec.v (run, searched, finds) and SolveSpec.v (representatives, selection) are the specification; gauss_algorithm occurs in it and is specified by C38 and C60, and c69_newton_step says what a step is in exact arithmetic. Where errors and panics come from is C83"
  },
  {
   "property": "C70",
   "status": "proved",
   "theorems": [
    "c70_points",
    "c70_bounds",
    "c70_sums",
    "c70_vector_integral",
    "c70_matrix_integral",
    "c70_vector_derivative",
    "c70_matrix_derivative",
    "c70_exact_vector_integral",
    "c70_exact_matrix_integral",
    "c70_exact_vector_derivative"
   ],
   "note": "The specification is total/column in PropMulti.v and visits/sample/width/set_num in CalcSpec.v; visits says which sample points are taken, C30 when they are finitely many. In binary64 the component of the derivative of a vector, (yh-y)*(1/h), may differ from the derivative of the component, (yh-y)/h."
  },
  {
   "property": "C71",
   "status": "proved",
   "theorems": [
    "c71_checked_expressions_evaluate",
    "c71_other_values",
    "c71_mismatch",
    "c71_depth"
   ],
   "note": ""
  },
  {
   "property": "C72",
   "status": "proved",
   "theorems": [
    "c72_always_an_answer",
    "c72_kind_of_answers",
    "c72_checked_equations"
   ],
   "note": ""
  },
  {
   "property": "C73",
   "status": "proved",
   "theorems": [
    "c73_value",
    "c73_unique",
    "c73_interchangeable",
    "c73_sum_commutative",
    "c73_sum_associative",
    "c73_difference",
    "c73_product_associative",
    "c73_product_distributes",
    "c73_product_commutes",
    "c73_det_product",
    "c73_det_inverse",
    "c73_inverse",
    "c73_solve_by_inverse",
    "c73_powers",
    "c73_cross"
   ],
   "note": ""
  },
  {
   "property": "C74",
   "status": "proved",
   "theorems": [
    "c74_nothing_to_do",
    "c74_defined_variable",
    "c74_underdetermined",
    "c74_evaluation_error",
    "c74_vector",
    "c74_matrix",
    "c74_panics",
    "c74_new",
    "c74_equations",
    "c74_equations_error",
    "c74_roots"
   ],
   "note": "c74_roots is about binary64; the rest holds for every number type"
  },
  {
   "property": "C75",
   "status": "proved",
   "theorems": [
    "c75_accuracy",
    "c75_estimate_unique",
    "c75_exact"
   ],
   "note": "EstimateSpec.v is the specification: measured c a e gives the exact value and the bound by recursion on the expression; c75_exact: the exact part is the value over the reals (over_reals)"
  },
  {
   "property": "C76",
   "status": "proved",
   "theorems": [
    "c76_real_equations",
    "c76_over_reals",
    "c76_linear_equation"
   ],
   "note": "c76_real_equations assumes that the text parses to the equation (session, parse), that every eq in it names an unknown, and that variables other than the unknowns hold numbers"
  },
  {
   "property": "C77",
   "status": "proved",
   "theorems": [
    "c77_derivative",
    "c77_differentiable",
    "c77_difference_quotient"
   ],
   "note": "SlopeSpec.v and EstimateSpec.v are the specification; the real derivative is derivable_pt_lim of Coq's Reals. Powers (powf is the platform's) and calls are not covered by polynomial"
  },
  {
   "property": "C78",
   "status": "proved",
   "theorems": [
    "c78_integral"
   ],
   "note": "SlopeSpec.v, EstimateSpec.v and AreaSpec.v are the specification; the real integral is G(b)-G(a) with derivable_pt_lim G t (f t) of Coq's Reals. Powers (powf is the platform's) and calls are not covered by polynomial"
  },
  {
   "property": "C79",
   "status": "proved",
   "theorems": [
    "c79_pi",
    "c79_e",
    "c79_nothing_else"
   ],
   "note": "nearest_double is the specification of rounding used for C52 and C63; PI and exp of Coq's Reals"
  },
  {
   "property": "C80",
   "status": "proved",
   "theorems": [
    "c80_propagation",
    "c80_number",
    "c80_sin",
    "c80_cos",
    "c80_constants"
   ],
   "note": "PropagateSpec.v is the specification (rules); inv, ln, tan, roots and powers of matrices only via the platform rule or not at all; multi-valued expressions not covered"
  },
  {
   "property": "C81",
   "status": "proved",
   "theorems": [
    "c81_no_solution",
    "c81_converges",
    "c81_quadratic"
   ],
   "note": "exact arithmetic (any Archimedean field), the square root assumed exact on squares; convergence in binary64 is not claimed"
  },
  {
   "property": "C82",
   "status": "proved",
   "theorems": [
    "c82_addition_commutes",
    "c82_multiplication_commutes",
    "c82_double_minus",
    "c82_one_times",
    "c82_over_one",
    "c82_minus_is_plus_minus",
    "c82_twice",
    "c82_difference_with_itself",
    "c82_quotient_by_itself",
    "c82_signs_of_products",
    "c82_signs_of_quotients",
    "c82_absolute_value_of_minus",
    "c82_cross_product_antisymmetric",
    "c82_root_of_square",
    "c82_laws_that_fail"
   ],
   "note": "binary64 as in C65"
  },
  {
   "property": "C83",
   "status": "proved",
   "theorems": [
    "c83_errors",
    "c83_panics"
   ],
   "note": "closes the gap noted in C69; the converse for the first equation is C35"
  },
  {
   "property": "C84",
   "status": "proved",
   "theorems": [
    "c84_nearest",
    "c84_error",
    "c84_fixed",
    "c84_idempotent",
    "c84_whole",
    "c84_whole_idempotent",
    "c84_odd",
    "c84_monotone",
    "c84_components",
    "c84_not_idempotent"
   ],
   "note": "10^p is exact for p <= 22; the real value of the product, the quotient and the rounding are related by Flocq's round_NE"
  },
  {
   "property": "C85",
   "status": "proved",
   "theorems": [
    "c85_panics",
    "c85_panics_parsed",
    "c85_no_panic",
    "c85_well_formed"
   ],
   "note": "extends C48 to expressions with equations; the innermost equation is found, however deeply they are nested"
  },
  {
   "property": "C86",
   "status": "proved",
   "theorems": [
    "c86_holds",
    "c86_fails",
    "c86_only",
    "c86_later_error",
    "c86_later_panic",
    "c86_later_no_number",
    "c86_get_panics"
   ],
   "note": "the text that panics is in PropNoUnknowns.v: Examples.c86_text"
  },
  {
   "property": "C87",
   "status": "proved",
   "theorems": [
    "c87_derivative",
    "c87_true_root"
   ],
   "note": "the polynomial sides and the bound D are those of C76; the roots are real numbers, not doubles"
  },
  {
   "property": "C88",
   "status": "proved",
   "theorems": [
    "c88_integers",
    "c88_exact_integers",
    "c88_solvable",
    "c88_close"
   ],
   "note": "one unknown; evaluation and the search are those of the code, in binary64"
  },
  {
   "property": "C89",
   "status": "proved",
   "theorems": [
    "c89_no_answer",
    "c89_no_square",
    "c89_contradiction"
   ],
   "note": ""
  }
 ]
}