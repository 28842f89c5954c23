{
 "claims": [
  {
   "property": "C01",
   "status": "proved",
   "theorems": [
    "C01_make_exact_canonical",
    "C01_make_zero_denominator"
   ],
   "note": ""
  },
  {
   "property": "C02",
   "status": "proved",
   "theorems": [
    "C02_arith_exact",
    "C02_expr_eq_iff_value"
   ],
   "note": ""
  },
  {
   "property": "C03",
   "status": "proved",
   "theorems": [
    "C03_div_exact",
    "C03_expr_exact"
   ],
   "note": ""
  },
  {
   "property": "C04",
   "status": "proved",
   "theorems": [
    "C04_div_eq_refuted",
    "C04_div_eq_pos",
    "C04_div_self_refuted"
   ],
   "note": "The natural claim (always ==) is false of the code; the exact boundary is proved (C04_div_eq_pos) with refutations."
  },
  {
   "property": "C05",
   "status": "proved",
   "theorems": [
    "C05_checked_sound",
    "C05_small_operands_exact",
    "C05_add_overflow_iff",
    "C05_overflow_iff"
   ],
   "note": ""
  },
  {
   "property": "C06",
   "status": "proved",
   "theorems": [
    "C06_roundtrip",
    "C06_accepts",
    "C06_rejects",
    "C06_injective"
   ],
   "note": ""
  },
  {
   "property": "C07",
   "status": "proved",
   "theorems": [
    "C07_factorial",
    "C07_binomial",
    "C07_binomial_division_exact",
    "C07_factorial64",
    "C07_binomial64"
   ],
   "note": ""
  },
  {
   "property": "C08",
   "status": "proved",
   "theorems": [
    "C08_sign_alternating",
    "C08_sign_unique",
    "C08_sign_is_parity",
    "C08_sign_multiplicative"
   ],
   "note": ""
  },
  {
   "property": "C09",
   "status": "proved",
   "theorems": [
    "C09_partitions_exact",
    "C09_partitions_negative"
   ],
   "note": ""
  },
  {
   "property": "C10",
   "status": "proved",
   "theorems": [
    "C10_registry_consistent"
   ],
   "note": ""
  },
  {
   "property": "C11",
   "status": "proved",
   "theorems": [
    "C11_duplicate_label_safe",
    "C11_rejected_call_refuted",
    "C11_label_alias_refuted"
   ],
   "note": "Holds for a duplicate label; refuted by witness for the other rejected calls."
  },
  {
   "property": "C12",
   "status": "proved",
   "theorems": [
    "C12_expression_sum",
    "C12_opexpr_sum",
    "C12_expression_programs",
    "C12_opexpr_programs"
   ],
   "note": ""
  },
  {
   "property": "C13",
   "status": "proved",
   "theorems": [
    "C13_expression_equality",
    "C13_opexpr_equality",
    "C13_wf_equality"
   ],
   "note": ""
  },
  {
   "property": "C14",
   "status": "proved",
   "theorems": [
    "C14_scale_nonzero",
    "C14_scale_zero_refuted",
    "C14_division"
   ],
   "note": "Exact for nonzero scalars; the claim for zero is false of the code (C14_scale_zero_refuted)."
  },
  {
   "property": "C15",
   "status": "proved",
   "theorems": [
    "C15_dot_value",
    "C15_dot_linear",
    "C15_dot_positive"
   ],
   "note": ""
  },
  {
   "property": "C16",
   "status": "proved",
   "theorems": [
    "C16_product_coefficient",
    "C16_opexpr_product_coefficient",
    "C16_distributes_left",
    "C16_distributes_right",
    "C16_associative",
    "C16_opexpr_associative",
    "C16_product_throws"
   ],
   "note": ""
  },
  {
   "property": "C17",
   "status": "proved",
   "theorems": [
    "C17_term_equality",
    "C17_flags_merged_refuted"
   ],
   "note": "Equality characterised; the claim is false of the code (flags ignored): C17_flags_merged_refuted."
  },
  {
   "property": "C18",
   "status": "proved",
   "theorems": [
    "C18_index",
    "C18_sqop",
    "C18_tensor",
    "C18_term",
    "C18_graph_matrix",
    "C18_operator",
    "C18_operator_product"
   ],
   "note": ""
  },
  {
   "property": "C19",
   "status": "proved",
   "theorems": [
    "C19_canonicalize_indices",
    "C19_sign_is_parity",
    "C19_sort_deterministic"
   ],
   "note": ""
  },
  {
   "property": "C20",
   "status": "proved",
   "theorems": [
    "C20_tensor_element",
    "C20_tensor_form",
    "C20_nonsymmetric_throws"
   ],
   "note": ""
  },
  {
   "property": "C21",
   "status": "proved",
   "theorems": [
    "C21_terminates_normal_ordered",
    "C21_throws_iff",
    "C21_normal_ordered_meaning",
    "C21_result_terms"
   ],
   "note": ""
  },
  {
   "property": "C22",
   "status": "proved",
   "theorems": [
    "C22_operator_preserved",
    "C22_term_preserved"
   ],
   "note": ""
  },
  {
   "property": "C23",
   "status": "proved",
   "theorems": [
    "C23_same_index_only"
   ],
   "note": ""
  },
  {
   "property": "C24",
   "status": "proved",
   "theorems": [
    "C24_idempotent",
    "C24_fixed_points"
   ],
   "note": ""
  },
  {
   "property": "C25",
   "status": "proved",
   "theorems": [
    "C25_term_involution",
    "C25_expression_involution",
    "C25_expression_coefficients",
    "C25_expression_additive",
    "C25_term_product",
    "C25_expression_product_refuted",
    "C25_operator_involution",
    "C25_oprod_reverses",
    "C25_opexpr_involution",
    "C25_opexpr_product",
    "C25_opexpr_additive",
    "C25_expression_meaning",
    "C25_term_meaning"
   ],
   "note": "All involution, product and sum laws; the product law fails for Expression (tensors keep their order): C25_expression_product_refuted."
  },
  {
   "property": "C26",
   "status": "proved",
   "theorems": [
    "C26_term_value",
    "C26_any_summation_order",
    "C26_expression_value",
    "C26_anticommuting_product"
   ],
   "note": ""
  },
  {
   "property": "C27",
   "status": "proved",
   "theorems": [
    "C27_canonicalize_renames",
    "C27_canonicalize_total",
    "C27_no_collision_refuted"
   ],
   "note": "Characterises every outcome; the natural safety claim is refuted by C27_no_collision_refuted."
  },
  {
   "property": "C28",
   "status": "proved",
   "theorems": [
    "C28_injective",
    "C28_labels"
   ],
   "note": ""
  },
  {
   "property": "C29",
   "status": "proved",
   "theorems": [
    "C29_canonical_order",
    "C29_idempotent_refuted",
    "C29_idempotent_if_sorted",
    "C29_idempotent_single",
    "C29_unique_form_refuted",
    "C29_deterministic"
   ],
   "note": "Proved under the stated condition; idempotence and uniqueness in general are refuted."
  },
  {
   "property": "C30",
   "status": "proved",
   "theorems": [
    "C30_component_term",
    "C30_coefficient_ignored",
    "C30_coefficient_refuted"
   ],
   "note": "Terms as requested; the coefficient is dropped by the code: C30_coefficient_ignored, C30_coefficient_refuted."
  },
  {
   "property": "C31",
   "status": "proved",
   "theorems": [
    "C31_reindex_identity",
    "C31_reindex_refuted",
    "C31_term_reindex"
   ],
   "note": "Expression::reindex returns its argument for every map (C31_reindex_identity), so the claim is refuted; the term-level function is correct."
  },
  {
   "property": "C32",
   "status": "proved",
   "theorems": [
    "C32_add_sub",
    "C32_add_counts",
    "C32_num_ops_additive",
    "C32_adjoint",
    "C32_make",
    "C32_nine_spaces"
   ],
   "note": ""
  },
  {
   "property": "C33",
   "status": "proved",
   "theorems": [
    "C33_commute_meaning",
    "C33_exchanges",
    "C33_product_meaning",
    "C33_expression_meaning",
    "C33_fermions_commute",
    "C33_boson_sign_refuted"
   ],
   "note": "Fermionic operators in full; the sign for bosonic operators is refuted."
  },
  {
   "property": "C34",
   "status": "proved",
   "theorems": [
    "C34_commuting_products",
    "C34_confluence_refuted"
   ],
   "note": "True for products of mutually commuting operators, refuted in general."
  },
  {
   "property": "C35",
   "status": "proved",
   "theorems": [
    "C35_commutator",
    "C35_commutator_args",
    "C35_bch_series",
    "C35_bch_order",
    "C35_bch_exact"
   ],
   "note": ""
  },
  {
   "property": "C36",
   "status": "proved",
   "theorems": [
    "C36_component",
    "C36_sum",
    "C36_sum_unique",
    "C36_throws"
   ],
   "note": ""
  },
  {
   "property": "C37",
   "status": "proved",
   "theorems": [
    "C37_next_is_successor",
    "C37_enumeration_exact"
   ],
   "note": ""
  },
  {
   "property": "C38",
   "status": "proved",
   "theorems": [
    "C38_elementary_exact"
   ],
   "note": ""
  },
  {
   "property": "C39",
   "status": "proved",
   "theorems": [
    "C39_search_exact"
   ],
   "note": ""
  },
  {
   "property": "C40",
   "status": "proved",
   "theorems": [
    "C40_overflow_iff",
    "C40_safe_up_to_201",
    "C40_overflow_refuted"
   ],
   "note": ""
  },
  {
   "property": "C41",
   "status": "proved",
   "theorems": [
    "C41_weight_counts_ways",
    "C41_weight_general",
    "C41_ways_well_defined",
    "C41_multiplicity_refuted"
   ],
   "note": "Exact iff no contraction occurs more than twice; general ratio proved; refuted otherwise."
  },
  {
   "property": "C42",
   "status": "proved",
   "theorems": [
    "C42_symmetry",
    "C42_defined",
    "C42_comparison",
    "C42_canonical"
   ],
   "note": ""
  },
  {
   "property": "C43",
   "status": "proved",
   "theorems": [
    "C43_sign_unique",
    "C43_equal_odd_operators_refuted"
   ],
   "note": "Sign unique unless an odd operator is repeated, then refuted."
  },
  {
   "property": "C44",
   "status": "proved",
   "theorems": [
    "C44_evaluation",
    "C44_generated",
    "C44_canonicalization_allowed",
    "C44_each_leg_once"
   ],
   "note": ""
  },
  {
   "property": "C45",
   "status": "proved",
   "theorems": [
    "C45_every_schedule",
    "C45_same_results",
    "C45_no_deadlock",
    "C45_terminates",
    "C45_completes"
   ],
   "note": ""
  },
  {
   "property": "C46",
   "status": "proved",
   "theorems": [
    "C46_single_threaded",
    "C46_bounds",
    "C46_exact_if_atomic",
    "C46_lost_update_refuted",
    "C46_data_race_refuted"
   ],
   "note": "Bounds for every schedule; lost update and data race shown reachable."
  },
  {
   "property": "C47",
   "status": "proved",
   "theorems": [
    "C47_factor",
    "C47_sum",
    "C47_coefficients",
    "C47_additive",
    "C47_history",
    "C47_same_options",
    "C47_options_kept"
   ],
   "note": ""
  },
  {
   "property": "C48",
   "status": "proved",
   "theorems": [
    "C48_product",
    "C48_ranks",
    "C48_expectation_value",
    "C48_expression",
    "C48_fock_space"
   ],
   "note": "Fermionic occupied/unoccupied spaces, multiplicities at most two (beyond that the weight of C41 is wrong)."
  },
  {
   "property": "C49",
   "status": "proved",
   "theorems": [
    "C49_manybody",
    "C49_key",
    "C49_determines",
    "C49_rhs_expression",
    "C49_order_lost_refuted",
    "C49_separator_refuted"
   ],
   "note": "Nothing lost up to the operator order and the key separator, both refuted in general."
  },
  {
   "property": "C50",
   "status": "proved",
   "theorems": [
    "C50_letters",
    "C50_limit"
   ],
   "note": ""
  },
  {
   "property": "C51",
   "status": "proved",
   "theorems": [
    "C51_roundtrip",
    "C51_accepts",
    "C51_rejects"
   ],
   "note": ""
  },
  {
   "property": "C52",
   "status": "proved",
   "theorems": [
    "C52_roundtrip"
   ],
   "note": ""
  },
  {
   "property": "C53",
   "status": "proved",
   "theorems": [
    "C53_remap_avoids",
    "C53_remap_injective",
    "C53_remap_defined",
    "C53_clash_refuted"
   ],
   "note": "Holds for different positions; the clash inside B is refuted by witness."
  },
  {
   "property": "C54",
   "status": "proved",
   "theorems": [
    "C54_injective",
    "C54_defined",
    "C54_clash_refuted"
   ],
   "note": "Holds if no registered name has the generic form; refuted otherwise."
  },
  {
   "property": "C55",
   "status": "proved",
   "theorems": [
    "C55_factor"
   ],
   "note": ""
  },
  {
   "property": "C56",
   "status": "proved",
   "theorems": [
    "C56_outcome",
    "C56_returns"
   ],
   "note": ""
  },
  {
   "property": "C57",
   "status": "proved",
   "theorems": [
    "C57_roundtrip",
    "C57_equal",
    "C57_term",
    "C57_glued_misread",
    "C57_glued_refuted",
    "C57_garbage_refuted",
    "C57_flag_refuted"
   ],
   "note": "Round trip with the boundary characterised: every glued first coefficient is misread."
  },
  {
   "property": "C58",
   "status": "proved",
   "theorems": [
    "C58_gen_op",
    "C58_unknown_label",
    "C58_diagonal_refuted"
   ],
   "note": "diagonal=False drops only components with all legs in one space (C58_diagonal_refuted)."
  },
  {
   "property": "C59",
   "status": "proved",
   "theorems": [
    "C59_einsum_value",
    "C59_compiles",
    "C59_accepted_refuted"
   ],
   "note": "The natural claim (numpy accepts every statement) is false (C59_accepted_refuted); exact condition proved. The decimal text of the factor is a parameter."
  },
  {
   "property": "C60",
   "status": "proved",
   "theorems": [
    "C60_nonscalar_refuted",
    "C60_scalar",
    "C60_value",
    "C60_long_names_refuted"
   ],
   "note": "The natural claim (every equation compiles) is false of the code: C60_nonscalar_refuted; exact success condition for scalars."
  },
  {
   "property": "C61",
   "status": "proved",
   "theorems": [
    "C61_product",
    "C61_ranks",
    "C61_expectation_value",
    "C61_expression",
    "C61_normal_product",
    "C61_determinant",
    "C61_states",
    "C61_one_active_space",
    "C61_active_space",
    "C61_few_legs",
    "C61_fock_space"
   ],
   "note": "Fermionic spaces, multiplicities at most two (beyond that the weight of C41 is wrong); the cumulants have no limit on their order."
  },
  {
   "property": "C62",
   "status": "proved",
   "theorems": [
    "C62_meaning",
    "C62_term_meaning",
    "C62_term_unambiguous",
    "C62_unambiguous",
    "C62_faithful",
    "C62_equal",
    "C62_defined",
    "C62_throws",
    "C62_greek_refuted",
    "C62_underscore_refuted",
    "C62_boson_refuted",
    "C62_unit_refuted",
    "C62_plus_refuted",
    "C62_names_refuted"
   ],
   "note": "Faithful up to the listed losses, each shown by a refutation."
  },
  {
   "property": "C63",
   "status": "proved",
   "theorems": [
    "C63_einsum",
    "C63_shape",
    "C63_shape_expression",
    "C63_well_formed",
    "C63_latex",
    "C63_print_parse",
    "C63_manybody"
   ],
   "note": "Operators with Greek names are excluded from the LaTeX claim only (C62 shows they clash with the density matrices)."
  },
  {
   "property": "C64",
   "status": "proved",
   "theorems": [
    "C64_str",
    "C64_str_defined",
    "C64_ambit_throws",
    "C64_ambit",
    "C64_ambit_unambiguous",
    "C64_ambit_names",
    "C64_ambit_value",
    "C64_contract",
    "C64_formats",
    "C64_ambit_positions_refuted",
    "C64_ambit_empty_refuted",
    "C64_symmetry_refuted"
   ],
   "note": "The statement does not show which indices are upper and which lower (C64_ambit_positions_refuted); without right-hand tensors it is not a statement (C64_ambit_empty_refuted). The decimal text of the factor is C65."
  },
  {
   "property": "C65",
   "status": "proved",
   "theorems": [
    "C65_to_double",
    "C65_to_double_error",
    "C65_einsum_error",
    "C65_ambit_error",
    "C65_einsum_exact",
    "C65_ambit_exact",
    "C65_einsum_vanishes",
    "C65_ambit_vanishes",
    "C65_unambiguous",
    "C65_einsum_order",
    "C65_ambit_order",
    "C65_einsum_negation",
    "C65_ambit_negation",
    "C65_contract_ambit",
    "C65_zero_refuted",
    "C65_distinct_refuted",
    "C65_to_double_refuted",
    "C65_order_refuted"
   ],
   "note": "Refuted expectations: C65_zero_refuted (1/13! is compiled to 0.000000000 by einsum and -1/10! to -0.000000 by ambit), C65_distinct_refuted, C65_to_double_refuted (numerators above 2^53)."
  },
  {
   "property": "C66",
   "status": "proved",
   "theorems": [
    "C66_operator",
    "C66_sum",
    "C66_reread",
    "C66_sum_defined",
    "C66_repr",
    "C66_repr_reads",
    "C66_negative_refuted",
    "C66_label_refuted"
   ],
   "note": "Negative counts (accepted by the constructor) are not shown (C66_negative_refuted); a label with braces can imitate a product (C66_label_refuted)."
  },
  {
   "property": "C67",
   "status": "proved",
   "theorems": [
    "C67_add_space",
    "C67_add_space_other",
    "C67_str",
    "C67_dict",
    "C67_replay",
    "C67_content",
    "C67_elementary_refuted",
    "C67_names_refuted"
   ],
   "note": "The text does not show the elementary spaces (C67_elementary_refuted) and a name with a comma looks like two (C67_names_refuted). After a rejected call the label is left behind: C11."
  },
  {
   "property": "C68",
   "status": "proved",
   "theorems": [
    "C68_error",
    "C68_zero",
    "C68_integers",
    "C68_integer_root",
    "C68_negate",
    "C68_adjoint_refuted"
   ],
   "note": "The range of the exponent of double is not modelled (no overflow, no subnormal numbers). std::sqrt is taken to be correctly rounded (IEEE 754)."
  },
  {
   "property": "C69",
   "status": "proved",
   "theorems": [
    "C69_add2",
    "C69_add2_refuted",
    "C69_plus",
    "C69_plus_operators",
    "C69_minus_refuted",
    "C69_times",
    "C69_times_operators",
    "C69_rational"
   ],
   "note": "Undefined cases are theorems with the suffix _refuted (they hold for every non-empty object, not only one witness). In Python `e -= e` is safe because __sub__ copies its left operand; add2 is the call that passes one object twice."
  },
  {
   "property": "C70",
   "status": "proved",
   "theorems": [
    "C70_repeated",
    "C70_expectation_value",
    "C70_general",
    "C70_general_expectation_value",
    "C70_no_triple",
    "C70_triple_refuted"
   ],
   "note": "C70_triple_refuted shows the claim 'contract(f, ops, 0, 0) is the expectation value' to be false without the bound of C48."
  },
  {
   "property": "C71",
   "status": "proved",
   "theorems": [
    "C71_result",
    "C71_none",
    "C71_levels",
    "C71_basic",
    "C71_summary",
    "C71_term_refuted",
    "C71_numbering_refuted"
   ],
   "note": "Output of the multi-threaded mode (interleaving) and the content of the levels Detailed and All beyond 'computed without failure, inserted into the lower level' are not specified. C71_term_refuted and C71_numbering_refuted record two defects of the printed text."
  },
  {
   "property": "C72",
   "status": "proved",
   "theorems": [
    "C72_sorted",
    "C72_frame",
    "C72_new_object",
    "C72_iadd_expression",
    "C72_value_semantics",
    "C72_undefined",
    "C72_iteration",
    "C72_iteration_growing",
    "C72_alias_refuted",
    "C72_canonicalize_refuted",
    "C72_canonicalize_in_loop_refuted",
    "C72_coefficient_refuted",
    "C72_endless_refuted"
   ],
   "note": "Assumed of pybind11 and the C++ library, which are not part of /repo: an argument taken by value is a copy; returning a reference to an object Python already holds returns that Python object; py::make_iterator hands out references to map nodes and keeps the expression alive; changing the key of a std::map is undefined; the end iterator of a map survives assignment. Reading a dangling operand is taken to be undefined also where the bindings would raise a type error first. C72_alias_refuted, C72_canonicalize_refuted, C72_canonicalize_in_loop_refuted, C72_coefficient_refuted and C72_endless_refuted record what fails."
  },
  {
   "property": "C73",
   "status": "proved",
   "theorems": [
    "C73_runs",
    "C73_deterministic",
    "C73_program",
    "C73_product",
    "C73_general_product",
    "C73_expectation_value",
    "C73_general_expectation_value",
    "C73_rounding",
    "C73_reader",
    "C73_names",
    "C73_names_refuted"
   ],
   "note": "C73 composes the models end to end. Modelled: the text of the statements, numpy's einsum on arrays over an arbitrary field (EinsumSpec.v), += on named arrays. Not modelled: floating-point arithmetic of numpy and the optimize argument. program_data (the arrays hold the tensors' elements) and reads_numbers (decimals are read as they are) are the assumptions about the environment; C73_reader and C73_nonvacuous meet them. C73_names_refuted: array names of different keys can coincide, so the keys' programs have to be run separately."
  },
  {
   "property": "C74",
   "status": "proved",
   "theorems": [
    "C74_commutators",
    "C74_bch",
    "C74_general_bch",
    "C74_correlated_energy",
    "C74_pairs",
    "C74_nilpotent",
    "C74_exact",
    "C74_similarity_transform",
    "C74_energy",
    "C74_program",
    "C74_returns"
   ],
   "note": "wf is what every operator expression built through the API satisfies (sorted, canonical non-zero coefficients, C12). twice_at_most / never_thrice exclude operators that can be contracted three times in the same way (see the C48 findings); C74_pairs: two-body operators and arbitrary excitations satisfy it. The multireference statement needs at most two legs of a kind in each space also for B. C74_exact is about the series itself; C74_similarity_transform about its contraction."
  },
  {
   "property": "C75",
   "status": "proved",
   "theorems": [
    "C75_runs",
    "C75_deterministic",
    "C75_program",
    "C75_product",
    "C75_general_product",
    "C75_expectation_value",
    "C75_general_expectation_value",
    "C75_rounding",
    "C75_reader",
    "C75_agreement"
   ],
   "note": "The text has no quotes around index names; it is read as the labeled-tensor notation it stands for (EqTextSpec.v), not as C++. As in C73 the statements of each key run on their own block; keys of one expression can share a block name (C73_names_refuted). The contraction theorem's conditions on the input are those of C48/C61."
  },
  {
   "property": "C76",
   "status": "proved",
   "theorems": [
    "C76_part",
    "C76_part_expression",
    "C76_extends",
    "C76_extends_expression",
    "C76_split",
    "C76_split_expression",
    "C76_all",
    "C76_all_expression"
   ],
   "note": "Results are compared as outcomes of a relation, because std::sort may leave a choice between equivalent graphs or tensors: the converse direction gives some outcome on the larger range with the given part."
  },
  {
   "property": "C77",
   "status": "proved",
   "theorems": [
    "C77_normal_product",
    "C77_operator_product",
    "C77_product",
    "C77_expression_adjoint",
    "C77_ranks",
    "C77_expression",
    "C77_expectation_value",
    "C77_self_adjoint",
    "C77_general_normal_product",
    "C77_general_product",
    "C77_general_expression_adjoint",
    "C77_general_ranks",
    "C77_general_expression",
    "C77_general_expectation_value",
    "C77_general_self_adjoint",
    "C77_general_operator_product",
    "C77_fock_space"
   ],
   "note": "Values are compared, not terms: the terms of the two results correspond only up to the antisymmetry of the tensors and the names of the indices. General spaces: no contraction can be carried out three times (as in C61), for the product and for its adjoint."
  },
  {
   "property": "C78",
   "status": "proved",
   "theorems": [
    "C78_operators",
    "C78_operator_sums",
    "C78_algebra",
    "C78_representation",
    "C78_normal_product",
    "C78_general_normal_product",
    "C78_operator_product",
    "C78_product",
    "C78_ranks",
    "C78_expression",
    "C78_expectation_value",
    "C78_general_operator_product",
    "C78_general_product",
    "C78_general_ranks",
    "C78_general_expression",
    "C78_general_expectation_value"
   ],
   "note": "Values are compared, not terms. Names enter only through op. General spaces: no contraction can be carried out three times in either registry (as in C61)."
  },
  {
   "property": "C79",
   "status": "proved",
   "theorems": [
    "C79_well_formed",
    "C79_frame",
    "C79_new_object",
    "C79_exception",
    "C79_value_semantics",
    "C79_undefined",
    "C79_defined",
    "C79_valid",
    "C79_alias_refuted",
    "C79_alias_shared_refuted",
    "C79_self_cancel_refuted"
   ],
   "note": "Facts about pybind11 used: by-value arguments are copies, results by value are new objects, x += y falls back on __add__. Scalars and operator products are constants (C72 has rationals as objects). Names bound to other Python types count as unbound."
  },
  {
   "property": "C80",
   "status": "proved",
   "theorems": [
    "C80_exchanges",
    "C80_value",
    "C80_contract",
    "C80_same_form",
    "C80_returns",
    "C80_general_exchanges",
    "C80_general_value",
    "C80_general_contract",
    "C80_general_same_form"
   ],
   "note": "Fermionic spaces only; for bosons the recorded sign is wrong (C33_boson_sign_refuted). Contractions that can be repeated three or more times are excluded as in C74 (see C70)."
  }
 ]
}