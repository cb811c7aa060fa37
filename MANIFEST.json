{"claims": [
{"property": "C01", "status": "proved", "theorems": ["C01_indexes_grade_k", "C01_indexes_grade_k_order", "C01_blades", "C01_blades_grade"], "note": ""},
{"property": "C02", "status": "proved", "theorems": ["C02_lookup_bijection", "C02_lookup_total", "C02_grade_is_length", "C02_lookup_bijection_bases"], "note": ""},
{"property": "C03", "status": "proved", "theorems": ["C03_blade_reduce"], "note": ""},
{"property": "C04", "status": "proved", "theorems": ["C04_orthogonal_product"], "note": ""},
{"property": "C05", "status": "proved", "theorems": ["C05_reduce_basis_total", "C05_reduce_basis_value"], "note": ""},
{"property": "C06", "status": "proved", "theorems": ["C06_product_exists_unique", "C06_geometric_product", "C06_meaning_of_blade_expr"], "note": ""},
{"property": "C07", "status": "proved", "theorems": ["C07_expressions", "C07_equality", "C07_associative", "C07_distributive_left", "C07_distributive_right", "C07_one", "C07_scalars_commute", "C07_scalars_move", "C07_representation"], "note": ""},
{"property": "C08", "status": "proved", "theorems": ["C08_vector_product", "C08_metric_form", "C08_vector_square", "C08_vector_times_anything"], "note": ""},
{"property": "C09", "status": "proved", "theorems": ["C09_base_to_blade", "C09_blade_to_base"], "note": ""},
{"property": "C10", "status": "proved", "theorems": ["C10_wedge", "C10_wedge_metric_free", "C10_wedge_is_grade_selection", "C10_associative", "C10_bilinear", "C10_graded_commutative", "C10_dependent_vectors"], "note": ""},
{"property": "C11", "status": "proved", "theorems": ["C11_left_contraction", "C11_right_contraction", "C11_hestenes_dot", "C11_scalar_product", "C11_orthogonal_loop"], "note": ""},
{"property": "C12", "status": "proved", "theorems": ["C12_transparent", "C12_history", "C12_entries", "C12_once", "C12_cached_property"], "note": ""},
{"property": "C13", "status": "proved", "theorems": ["C13_rev_rev", "C13_rev_product", "C13_rev_linear", "C13_rev_grade", "C13_rev_vectors"], "note": ""},
{"property": "C14", "status": "proved", "theorems": ["C14_invol", "C14_ccon", "C14_even_odd"], "note": ""},
{"property": "C15", "status": "partial", "theorems": ["C15_grades_sum", "C15_grade_grade", "C15_grade_out_of_range", "C15_grade_coefficients", "C15_scalar", "C15_grades", "C15_base_rep_grade_refuted", "C15_base_rep_scalar_refuted"], "note": "Holds for blade representations; for base representations grade/even/odd raise and scalar() is wrong (C15_base_rep_*_refuted)."},
{"property": "C16", "status": "partial", "theorems": ["C16_expand", "C16_components", "C16_components_raises", "C16_get_coefs", "C16_get_coefs_range", "C16_blade_coefs", "C16_set_coef", "C16_blade_coefs_list", "C16_proj", "C16_base_rep_refuted"], "note": "Holds for blade representations; blade_coefs() on a base representation returns other values (C16_base_rep_refuted)."},
{"property": "C17", "status": "proved", "theorems": ["C17_pseudoscalar", "C17_square", "C17_square_symbolic", "C17_unit_pseudoscalar", "C17_defined", "C17_degenerate", "C17_real"], "note": ""},
{"property": "C18", "status": "proved", "theorems": ["C18_documented", "C18_rejected", "C18_undual_dual", "C18_grade", "C18_linear", "C18_real"], "note": ""},
{"property": "C19", "status": "proved", "theorems": ["C19_inverse", "C19_inverse_succeeds", "C19_inverse_unique", "C19_division"], "note": ""},
{"property": "C20", "status": "partial", "theorems": ["C20_hitzer", "C20_hitzer_dimension", "C20_shirokov_partial", "C20_shirokov_low_dimension", "C20_hitzer_succeeds", "C20_shirokov_succeeds_partial", "C20_shirokov_dim0_refuted", "C20_shirokov_base_rep_refuted", "C20_shirokov_double_refuted"], "note": "hitzer_inverse: proved (a two-sided inverse whenever it returns, dimensions 0-5; over a field of characteristic 0 it returns on every invertible multivector). shirokov_inverse: proved in dimensions 1 and 2, and in every dimension when the quotients N/k are exact; Python computes them as doubles, and with any double for 4/3 the result is not the inverse (C20_shirokov_double_refuted). It raises on every scalar in dimension 0 and is wrong on base representations (C20_*_refuted)."},
{"property": "C21", "status": "proved", "theorems": ["C21_null", "C21_trig", "C21_hyp", "C21_hint", "C21_group", "C21_inverse", "C21_reverse", "C21_raises", "C21_case"], "note": "sqrt, cos, sin, cosh, sinh are parameters satisfying the identities of Spec_Exp.v; the complex functions satisfy them (complex_laws). SymPy simplification of the result is not modelled."},
{"property": "C22", "status": "proved", "theorems": ["C22_qform", "C22_invariance", "C22_multiplicative", "C22_square_root", "C22_positive", "C22_norm2", "C22_norm", "C22_hint_raises", "C22_mag2", "C22_mag", "C22_norm_scale", "C22_norm_product", "C22_triangle", "C22_case", "C22_root_sign_refuted"], "note": "norm2, norm, mag2, mag over any ordered field, at real values of the symbols; the hint must not state a false sign. Further: positivity in a positive definite metric, mag >= norm, scaling, products with versors, triangle inequality. C22_root_sign_refuted is a finding about square_root_of_expr, which norm() repairs."},
{"property": "C23", "status": "partial", "theorems": ["C23_versor_sound", "C23_versor_complete", "C23_blade_sound", "C23_blade_complete", "C23_wedge_square", "C23_blade_bivector", "C23_blade_refuted"], "note": "Versor test sound, and complete for products of invertible vectors; is_blade accepts every outer product of vectors and is exact in grade 2; the claim that it accepts only multivectors with scalar square is false (C23_blade_refuted)."},
{"property": "C24", "status": "partial", "theorems": ["C24_project_linear", "C24_project_idempotent", "C24_project_grades", "C24_project_outer", "C24_project_inside", "C24_project_vector", "C24_project_orthogonal", "C24_reflect_involution", "C24_reflect_linear", "C24_reflect_product", "C24_reflect_grades", "C24_reflect_qform", "C24_reflect_vector", "C24_raises", "C24_not_a_blade_refuted", "C24_base_rep_refuted", "C24_rotate_linear", "C24_rotate_product", "C24_rotate_scalar", "C24_rotate_inverse", "C24_rotate_fixed", "C24_rotate_plane", "C24_rotate_grades", "C24_rotate_products", "C24_rotate_qform", "C24_rotate_raises"], "note": "project_in_blade and reflect_in_blade for every invertible outer product of vectors; rotate_multivector for every angle multivector whose square is a scalar (grades, inner and outer products and quadratic form: bivector angles). Partial only because the English claim fails in two cases: is_blade() wrongly accepts some multivectors (C24_not_a_blade_refuted) and reflect_in_blade raises for base representations (C24_base_rep_refuted)."},
{"property": "C25", "status": "proved", "theorems": ["C25_reciprocal_basis", "C25_inverse_metric", "C25_mvr"], "note": ""},
{"property": "C26", "status": "proved", "theorems": ["C26_square", "C26_append", "C26_norm", "C26_degenerate"], "note": ""},
{"property": "C27", "status": "proved", "theorems": ["C27_total", "C27_vectors_to_vectors", "C27_linear", "C27_extensional", "C27_matrix", "C27_matrix_rejected", "C27_round_trip", "C27_entries", "C27_lists", "C27_vectors", "C27_function", "C27_sandwich", "C27_versor", "C27_function_call", "C27_lists_refuted", "C27_function_refuted"], "note": "C27_function_refuted and C27_lists_refuted: the constructors accept additive functions that are not linear, and lists of the wrong length."},
{"property": "C28", "status": "proved", "theorems": ["C28_add", "C28_sub", "C28_scale", "C28_compose", "C28_matrix", "C28_matrix_linear", "C28_missing_key_refuted"], "note": "For transformations whose dictionary has every basis vector as key, as all constructors except the one from a dictionary (and from too short lists) produce; C28_missing_key_refuted shows the failure otherwise."},
{"property": "C29", "status": "partial", "theorems": ["C29_one", "C29_wedge", "C29_grade", "C29_det_defined", "C29_pseudoscalar", "C29_det_matrix", "C29_det_compose", "C29_base_rep_refuted"], "note": "Proved for blade representations; L applied to a base representation leaves the base symbols unchanged (C29_base_rep_refuted); det() exists exactly for non-degenerate metrics."},
{"property": "C30", "status": "proved", "theorems": ["C30_adjoint", "C30_involutive", "C30_compose"], "note": ""},
{"property": "C31", "status": "proved", "theorems": ["C31_singular", "C31_inverse", "C31_complete", "C31_field"], "note": ""},
{"property": "C32", "status": "partial", "theorems": ["C32_value", "C32_trace_partial", "C32_normalised_refuted", "C32_variable_refuted"], "note": "tr() is the trace of the matrix for unnormalised metrics and entries that do not depend on the coordinates; its exact value in general is C32_value; false for normalised metrics and for variable entries (C32_*_refuted)."},
{"property": "C33", "status": "partial", "theorems": ["C33_components_scaled", "C33_value", "C33_multilinear", "C33_add", "C33_sub", "C33_scale", "C33_mul_scaled", "C33_vector_scaled", "C33_lt_scaled", "C33_name_scaled", "C33_components_partial", "C33_mul_partial", "C33_vector_partial", "C33_lt_partial", "C33_name_partial", "C33_slots", "C33_remove_slot", "C33_contract_zero", "C33_oblique_refuted", "C33_oblique_mul_refuted", "C33_name_refuted", "C33_contract_refuted"], "note": "multilinearity, sums, differences and multiples are proved for every non-degenerate metric, and the exact value in components; T(e_i..e_j) = component and the product law hold for orthogonal metrics, and are refuted for oblique ones, where a power of the square of the pseudoscalar appears; contract() is refuted: it returns 0 for every tensor with constant coefficients; the name constructor is refuted after a tensor of higher rank was made. cderiv is C64, comps is C74, tensors given by Python functions are C75. Not modelled: pdiff beyond C38, ^ and | of tensors."},
{"property": "C34", "status": "proved", "theorems": ["C34_pdop", "C34_add", "C34_neg", "C34_scale", "C34_sub", "C34_function", "C34_terms", "C34_derivative", "C34_consolidate", "C34_compose", "C34_equal", "C34_additive", "C34_zero_order_refuted"], "note": "The converse of the equality clause (not claimed) is false: a zero order is remembered (C34_zero_order_refuted)."},
{"property": "C35", "status": "partial", "theorems": ["C35_products", "C35_total", "C35_additive", "C35_neg", "C35_divide", "C35_add", "C35_add_sides", "C35_multivector", "C35_equal", "C35_scale_right", "C35_scale_left", "C35_compose_right", "C35_compose_left", "C35_no_connection", "C35_curved_refuted", "C35_inner_refuted", "C35_TSimplify_refuted"], "note": "Proved for operators acting to the right and to the left whenever the coordinate derivatives commute on basis vectors (flat space, any coordinates), for every product law that holds for multivectors: *, ^, and the mixed laws of < and > (C35_products). False for | (C35_inner_refuted) and, for every product, in curved algebras, where equal operators act differently (C35_curved_refuted)."},
{"property": "C36", "status": "partial", "theorems": ["C36_no_coordinates", "C36_defined", "C36_first_kind", "C36_unique", "C36_second_kind", "C36_normalised_refuted", "C36_general_metric_refuted"], "note": "Proved for all symmetric metrics without normalisation; with norm=True the second kind is raised by the wrong inverse (C36_normalised_refuted) and g='g' builds an unsymmetric matrix (C36_general_metric_refuted)."},
{"property": "C37", "status": "partial", "theorems": ["C37_defined", "C37_total", "C37_additive", "C37_scalar", "C37_product", "C37_grade", "C37_basis", "C37_gradient", "C37_diff_refuted"], "note": "Ga.pDiff and grad are additive, extend the scalar derivative, satisfy the product rule and give the Christoffel derivatives of the basis, for every non-degenerate coordinate metric; Mv.diff raises whenever there is a connection (C37_diff_refuted); objects in base representation are outside the theorems."},
{"property": "C38", "status": "partial", "theorems": ["C38_independent_partial", "C38_multilinear_refuted", "C38_trace_refuted"], "note": "Proved for all histories without Mlt.pdiff/contract and without a raising Lt.tr; false after those calls (C38_multilinear_refuted, C38_trace_refuted)."},
{"property": "C39", "status": "partial", "theorems": ["C39_equivalence", "C39_coefficients", "C39_scalar", "C39_congruence", "C39_hash", "C39_hash_scalar", "C39_hash_refuted"], "note": "Equality proved; the hash part is false across representations (C39_hash_refuted)."},
{"property": "C40", "status": "partial", "theorems": ["C40_queries_partial", "C40_new", "C40_set_coef_refuted", "C40_base_rep_refuted", "C40_pure_grade_refuted"], "note": "Proved for all sequences of queries and representation changes; false after set_coef(), for objects made in the base representation, and for pure_grade() of mixed multivectors (C40_*_refuted)."},
{"property": "C41", "status": "proved", "theorems": ["C41_mixing", "C41_distinct", "C41_history", "C41_equivalence"], "note": ""},
{"property": "C42", "status": "partial", "theorems": ["C42_mode_in_force", "C42_always_valid", "C42_dual_mode", "C42_failed_construction_refuted"], "note": "Proved except that a failing Cl construction has already changed the mode (C42_failed_construction_refuted)."},
{"property": "C43", "status": "partial", "theorems": ["C43_interop", "C43_kingdon", "C43_names_distinct", "C43_empty", "C43_one_dimension_refuted"], "note": "Proved for n >= 2 names and all signatures; the one-dimensional name differs from the documentation (C43_one_dimension_refuted)."},
{"property": "C44", "status": "partial", "theorems": ["C44_indexed", "C44_counted", "C44_indices", "C44_distinct", "C44_commas", "C44_spaces", "C44_empty", "C44_superscript", "C44_rejects", "C44_rejects_count", "C44_single_index", "C44_single_index_refuted"], "note": "Proved except for a single subscript (C44_single_index_refuted)."},
{"property": "C45", "status": "partial", "theorems": ["C45_spaces", "C45_mismatched", "C45_def_prec", "C45_lowest_class_partial", "C45_group_partial", "C45_ends_refuted", "C45_nested_sum_refuted", "C45_inner_chain_refuted", "C45_left_assoc_refuted"], "note": "The string rewriting is modelled in full. Proved for all strings: spaces do not matter, mismatched parentheses raise, what def_prec accepts; for all sums of chains of the lowest class: exactly the chains are parenthesised; for a chain of any class with one such sum in parentheses among its factors: the chain and the products of the sum are parenthesised. The claim itself is false: C45_ends_refuted (a^b+c^d raises for all names), C45_nested_sum_refuted, C45_inner_chain_refuted, C45_left_assoc_refuted."},
{"property": "C46", "status": "partial", "theorems": ["C46_restored", "C46_captured", "C46_kept", "C46_twice_refuted", "C46_format_again_refuted", "C46_texts", "C46_repeat_refuted", "C46_notebook_refuted"], "note": "Proved for every orderly program; false for LatexFormat() during a capture, Format() after tex(), text returned twice by successive tex(), and the notebook flag during a capture (C46_*_refuted)."},
{"property": "C47", "status": "partial", "theorems": ["C47_total", "C47_lines", "C47_nonblank", "C47_block", "C47_operators", "C47_wedges", "C47_texify", "C47_texify_none", "C47_blank_refuted", "C47_align_refuted"], "note": "Proved for all texts up to the number of blank lines (C47_blank_refuted); an = inside an align environment breaks the environment (C47_align_refuted)."},
{"property": "C48", "status": "proved", "theorems": ["C48_symmetric", "C48_antisymmetric", "C48_general", "C48_raises"], "note": ""},
{"property": "C49", "status": "proved", "theorems": ["C49_orthogonality_flag", "C49_upper_triangle"], "note": ""},
{"property": "C50", "status": "proved", "theorems": ["C50_pullback", "C50_symmetric", "C50_defined", "C50_composition", "C50_vector_manifold"], "note": ""},
{"property": "C51", "status": "partial", "theorems": ["C51_orthogonal_partial", "C51_hint", "C51_degenerate_refuted", "C51_oblique_refuted"], "note": "Proved for orthogonal numeric metrics without null basis vectors, including independence of the orthogonal basis (Sylvester); null vectors are counted as negative (C51_degenerate_refuted) and an oblique metric just returns the hint (C51_hint, C51_oblique_refuted)."},
{"property": "C52", "status": "partial", "theorems": ["C52_first_call_partial", "C52_repeat_refuted", "C52_second_call_raises"], "note": "The first request returns the sum of products with the reciprocal vectors after every quiet history; the second equal request always raises (C52_second_call_raises, C52_repeat_refuted)."},
{"property": "C53", "status": "proved", "theorems": ["C53_group", "C53_scalar_operands", "C53_powers", "C53_negative_powers", "C53_commutator", "C53_jacobi_leibniz"], "note": ""},
{"property": "C54", "status": "proved", "theorems": ["C54_raises", "C54_cross"], "note": ""},
{"property": "C55", "status": "partial", "theorems": ["C55_sound", "C55_complete", "C55_zero", "C55_documentation_refuted", "C55_order_refuted"], "note": "The documented direction B == c*A is the inverse of the computed one (C55_documentation_refuted) and equal multiples with other term order give 0 (C55_order_refuted); the rest is proved."},
{"property": "C56", "status": "partial", "theorems": ["C56_named", "C56_grade", "C56_grade_range", "C56_rejects", "C56_list", "C56_equal_length", "C56_distinct_refuted", "C56_default_names_refuted"], "note": "Components and shapes proved; symbols are distinct for prefix-free superscripts and can collide otherwise (C56_distinct_refuted, C56_default_names_refuted)."},
{"property": "C57", "status": "proved", "theorems": ["C57_diagonal_string", "C57_matrix_string", "C57_default", "C57_manifold", "C57_diagonal_list", "C57_matrix", "C57_rejected", "C57_normalise"], "note": ""},
{"property": "C58", "status": "partial", "theorems": ["C58_text", "C58_text_bases", "C58_text_grades", "C58_text_single", "C58_text_order", "C58_latex", "C58_latex_bases", "C58_latex_grades", "C58_latex_scalar", "C58_latex_zero", "C58_latex_string_refuted", "C58_latex_format_refuted"], "note": "Text and LaTeX in all formats proved for every sum of terms and every way of writing a single term (nonempty, and without line break in text). False: the format as a string raises in LaTeX (C58_latex_string_refuted; in text it is ignored, C58_text), formats above 3 lose the multivector (C58_latex_format_refuted)."},
{"property": "C59", "status": "partial", "theorems": ["C59_row", "C59_column", "C59_single_refuted", "C59_empty_refuted", "C59_dict_refuted"], "note": "Exact layout of rows (at least one element) and columns (at least two). False for one element in a column (C59_single_refuted), for the empty row (C59_empty_refuted), for the values of a dict in a column (C59_dict_refuted). The notebook wrapper is not modelled."},
{"property": "C60", "status": "partial", "theorems": ["C60_reciprocal_blades", "C60_coefficients", "C60_grad_linear", "C60_grad_square", "C60_grad_vector", "C60_grad_dimension", "C60_grad_product", "C60_grad_self", "C60_grad_constant", "C60_grad_additive", "C60_apply", "C60_connected_refuted"], "note": "Proved: the operator on either side with any product mode is the sum over the blades of e^I times the partial derivative (C60_apply), duality of the reciprocal blades, reading off of coefficients, derivatives of <AB>, <AA>, A, A*B with a constant B (all parts; for these two, k! must be invertible for the grades k of A), constants, additivity. Not true, refuted: with a connection the operator raises for every field that is not a scalar (C60_connected_refuted)."},
{"property": "C61", "status": "proved", "theorems": ["C61_linear_expand", "C61_collect", "C61_func", "C61_mv_collect", "C61_collect_deep_refuted", "C61_simplify", "C61_simplify_value", "C61_subs", "C61_split", "C61_subs_metric_refuted"], "note": "Every clause of the statement is proved. Outside it: Mv.collect(deep=True) raises for every multivector (C61_collect_deep_refuted); a substitution that changes the square of a basis vector does not commute with the product (C61_subs_metric_refuted)."},
{"property": "C62", "status": "proved", "theorems": ["C62_wedge", "C62_base", "C62_wedgeless", "C62_wedgeless_distinct", "C62_wedgeless_raises", "C62_dict", "C62_no_digits_refuted", "C62_dict_numbered", "C62_dict_refuted", "C62_wedgeless_refuted"], "note": "Every clause of the statement is proved. Outside its conditions: wedgeless names collide for e_1,e_2,e_12 (C62_wedgeless_refuted); bases_dict collides for twelve numbered vectors (C62_dict_refuted) and keeps only the pseudoscalar when the names have no digits (C62_no_digits_refuted)."},
{"property": "C63", "status": "partial", "theorems": ["C63_components", "C63_factors_refuted", "C63_single_refuted", "C63_zero_refuted", "C63_latex", "C63_latex_one", "C63_trailing_refuted"], "note": "Proved for every sum of products (C63_components) and every line length (C63_latex). Refuted: a function with one non-zero component is listed as a number (C63_single_refuted, C63_factors_refuted), the zero function raises (C63_zero_refuted), and a full last line is followed by a line break when lcnt is neither 1 nor the number of components (C63_trailing_refuted)."},
{"property": "C64", "status": "partial", "theorems": ["C64_scalar", "C64_value", "C64_product_rule_partial", "C64_vector_partial", "C64_metric_partial", "C64_oblique_refuted"], "note": "The exact value of T.cderiv() is proved for every non-degenerate metric, curved or flat, with and without norm=True (C64_value, C64_scalar). In orthogonal frames it is the product rule of the claim (C64_product_rule_partial, C64_vector_partial, C64_metric_partial). In oblique frames a factor, the square of the pseudoscalar, remains, and the rule is false (C64_oblique_refuted). Missing: tensors given by a Python function."},
{"property": "C65", "status": "proved", "theorems": ["C65_gradient", "C65_divergence", "C65_laplacian", "C65_curl", "C65_split", "C65_flat_laplacian"], "note": "For calls on a new algebra, as C37 (later calls: C52, C38). Scalars form a commutative ring with commuting derivations in which 2 is invertible; with norm=True the factors are square roots of +-g_ii."},
{"property": "C66", "status": "partial", "theorems": ["C66_names", "C66_kinds", "C66_mismatch", "C66_functions", "C66_grade", "C66_list", "C66_value", "C66_keyword", "C66_integer_grade_refuted", "C66_scalar_keyword_refuted"], "note": "Missing: unknown keywords pass when a scalar value is given instead of a name (C66_scalar_keyword_refuted), several names cannot be combined with an integer grade (C66_integer_grade_refuted). The rest is proved; C66_keyword needs dimension at least 1."},
{"property": "C67", "status": "partial", "theorems": ["C67_name", "C67_escaped", "C67_symbol", "C67_ten_refuted", "C67_mixed_refuted", "C67_capital_refuted", "C67_runs", "C67_derivative", "C67_fraction", "C67_fraction_one", "C67_text"], "note": "Missing: ten or more different letters in one name (C67_ten_refuted), a letter escaped at one place only (C67_mixed_refuted), capital Greek letters and lambda (C67_capital_refuted). C67_name and C67_symbol need the words of the name to be letters of the alphabet or to contain none of them. sympy's split_super_sub is an input."},
{"property": "C68", "status": "partial", "theorems": ["C68_meaning", "C68_division", "C68_same", "C68_contraction_refuted"], "note": "Missing: X < c and c > X for X in base representation of a non-orthogonal algebra, where the claim is false (C68_contraction_refuted). Everything else is proved for all operands."},
{"property": "C69", "status": "partial", "theorems": ["C69_script", "C69_notebook", "C69_text", "C69_one_row", "C69_document", "C69_settings", "C69_heading", "C69_names", "C69_only_tex", "C69_percent_refuted", "C69_plain_text_refuted", "C69_at_refuted", "C69_import_refuted", "C69_remove_refuted"], "note": "Proved for strings without % (and, in a notebook, texts without @). Refuted: % in strings (C69_percent_refuted), a double backslash in text mode (C69_plain_text_refuted), @ in a notebook (C69_at_refuted), gFormat after an import that followed printer.Format() (C69_import_refuted), the removal of the auxiliary files (C69_remove_refuted)."},
{"property": "C70", "status": "partial", "theorems": ["C70_power", "C70_fold_partial", "C70_scripts", "C70_call", "C70_call_fold", "C70_call_omit", "C70_inverse", "C70_inverse_power", "C70_call_scripts", "C70_fold_refuted", "C70_scripts_refuted", "C70_call_refuted"], "note": "Proved for all bases and exponents with the default settings; with fold_frac_powers for bases that need no brackets. For 1/b the text of -1*expr printed by sympy is assumed to be a minus sign and the fraction. Refuted: sums with fold_frac_powers (C70_fold_refuted), names containing cdot with a superscript (C70_scripts_refuted), function names with % (C70_call_refuted)."},
{"property": "C71", "status": "partial", "theorems": ["C71_value", "C71_constant", "C71_symmetric", "C71_bound", "C71_affine", "C71_one", "C71_row_refuted"], "note": "Proved for column vectors (n x 1 matrices). False for row vectors, where only the first entry is centred (C71_row_refuted)."},
{"property": "C72", "status": "partial", "theorems": ["C72_refuse", "C72_refuse_norm", "C72_parts", "C72_undual_dual", "C72_sp", "C72_scalar", "C72_sp_switch", "C72_inverse", "C72_proj", "C72_refl", "C72_refl_sign", "C72_rot", "C72_exp", "C72_exp_number", "C72_norm", "C72_refl_formula_refuted"], "note": "Multivectors are in blade representation (or any, for dual, undual, rot, inv and proj). The documented sign of refl is false: the code uses (-1)^(r(s+1)) (C72_refl_sign), which differs from the documented (-1)^(s(r+1)) (C72_refl_formula_refuted). shirokov_inverse with exact quotients."},
{"property": "C73", "status": "partial", "theorems": ["C73_scalar", "C73_value", "C73_product_rule_partial", "C73_constant_partial", "C73_cderiv"], "note": "The exact value of T.dd() is proved for every non-degenerate metric (C73_value, C73_scalar), and the agreement with cderiv in a constant metric (C73_cderiv). In orthogonal frames the value is the product rule of the claim (C73_product_rule_partial, C73_constant_partial); in oblique frames a factor, the square of the pseudoscalar, remains, as for C64. Missing: tensors given by a Python function. The value is modelled by the coefficient of the scalar multivector which the code stores."},
{"property": "C74", "status": "partial", "theorems": ["C74_index", "C74_tuple", "C74_listing", "C74_components_partial", "C74_rank0_refuted"], "note": "The order, the numbers and the tuples are proved for every non-degenerate metric. The values are the components for orthogonal metrics (C74_components_partial); in oblique frames each has the factor E^2 for each argument (C74_listing, as in C33). A tensor of rank 0 raises (C74_rank0_refuted). The empty line before each group of n lines goes to the standard output and not into the result (C74_listing). str of a number is an input."},
{"property": "C75", "status": "partial", "theorems": ["C75_function", "C75_sum_scaled", "C75_product_scaled", "C75_add_partial", "C75_scale_partial", "C75_mul_partial", "C75_oblique_refuted"], "note": "T(x...) = f(x...) and the components are proved in every frame. Sums, differences, multiples and products are proved for orthogonal frames, for any mixture of tensors from functions and from components; in oblique frames the exact value is proved (a power of the square of the pseudoscalar appears) and the law is refuted. The body of the function is a sum of products of inner products of the arguments with constant vectors; other bodies (a|b of two arguments, multivector values) are not modelled."},
{"property": "C76", "status": "partial", "theorems": ["C76_text", "C76_latex", "C76_faithful", "C76_missing_refuted"], "note": "Proved for transformations with an image for each basis vector. A dictionary that lacks a basis vector is printed with the image 0, although the basis vector is its own image (C76_missing_refuted). The branches for self.versor, which is never set, are left out."},
{"property": "C77", "status": "partial", "theorems": ["C77_inverse_partial", "C77_algebra_partial", "C77_orthogonal_refuted"], "note": "Proved for non-orthogonal metrics, with and without gsym. For an orthogonal metric g_inv raises TypeError, because the matrix is called as self.g(i, i) (C77_orthogonal_refuted)."},
{"property": "C78", "status": "partial", "theorems": ["C78_leaves_partial", "C78_flat", "C78_cat", "C78_depth", "C78_values_refuted", "C78_python310_refuted"], "note": "Proved for nested lists of strings, up to Python 3.9. Any other value inside makes flatten raise (C78_values_refuted); from Python 3.10 on it raises for every list that is not empty (C78_python310_refuted)."},
{"property": "C79", "status": "proved", "theorems": ["C79_table", "C79_aligned", "C79_last_title_refuted", "C79_titles_refuted"], "note": "Proved for all tables with strings as titles. Two findings for other calls: a title at the end without a value is dropped (C79_last_title_refuted), and a first value that is a string is taken for a title (C79_titles_refuted)."}
]}
