{
 "claims": [
  {
   "property": "C01",
   "status": "proved",
   "theorems": [
    "C01_less_is_lexicographic",
    "C01_strict_total_order",
    "C01_outside_contract",
    "C01_map_history"
   ],
   "note": ""
  },
  {
   "property": "C02",
   "status": "proved",
   "theorems": [
    "C02_enumeration"
   ],
   "note": ""
  },
  {
   "property": "C03",
   "status": "proved",
   "theorems": [
    "C03_dictionary_inverts"
   ],
   "note": ""
  },
  {
   "property": "C04",
   "status": "proved",
   "theorems": [
    "C04_binomial",
    "C04_binomial_ZZ"
   ],
   "note": ""
  },
  {
   "property": "C05",
   "status": "proved",
   "theorems": [
    "C05_binomial_silently_wrong_refuted",
    "C05_binomial_right_iff"
   ],
   "note": "The property is false of the code; the theorems refute it and give the exact region where the value is right."
  },
  {
   "property": "C06",
   "status": "proved",
   "theorems": [
    "C06_legendre"
   ],
   "note": ""
  },
  {
   "property": "C07",
   "status": "proved",
   "theorems": [
    "C07_factorial_p_adic",
    "C07_diverges_at_zero"
   ],
   "note": ""
  },
  {
   "property": "C08",
   "status": "proved",
   "theorems": [
    "C08_tweak",
    "C08_tweak_add",
    "C08_tweak_negative_diverges",
    "C08_diff"
   ],
   "note": ""
  },
  {
   "property": "C09",
   "status": "proved",
   "theorems": [
    "C09_coefficients",
    "C09_change_of_variables"
   ],
   "note": "Values (C09_change_of_variables) and every coefficient (C09_coefficients)."
  },
  {
   "property": "C10",
   "status": "proved",
   "theorems": [
    "C10_change_of_variables_monomial"
   ],
   "note": ""
  },
  {
   "property": "C11",
   "status": "proved",
   "theorems": [
    "C11_conversion",
    "C11_round_trips"
   ],
   "note": ""
  },
  {
   "property": "C12",
   "status": "proved",
   "theorems": [
    "C12_product",
    "C12_product_transpose",
    "C12_scalar",
    "C12_mat_vec",
    "C12_conversion",
    "C12_vectors",
    "C12_non_square_refuted"
   ],
   "note": "The property is false of the code for rectangular matrices: proved when every matrix is square or has at most one row, refuted otherwise."
  },
  {
   "property": "C13",
   "status": "proved",
   "theorems": [
    "C13_charpoly",
    "C13_empty_refuted"
   ],
   "note": ""
  },
  {
   "property": "C14",
   "status": "proved",
   "theorems": [
    "C14_charpoly_frob"
   ],
   "note": ""
  },
  {
   "property": "C15",
   "status": "proved",
   "theorems": [
    "C15_sign_exactly_when",
    "C15_sign_refuted"
   ],
   "note": "The property is false of the code: proved that the answer is right exactly if the sign is +1 or visible in a middle coefficient; refuted by T^2-9."
  },
  {
   "property": "C16",
   "status": "proved",
   "theorems": [
    "C16_N_suffices",
    "C16_constant_refuted",
    "C16_table_consistent",
    "C16_supported",
    "C16_lift_unambiguous"
   ],
   "note": ""
  },
  {
   "property": "C17",
   "status": "proved",
   "theorems": [
    "C17_solve_system_zz_p",
    "C17_no_columns",
    "C17_oracles_exist"
   ],
   "note": "nmod_mat_lu, gauss and the inverse are arguments with their documented specification; C17_oracles_exist shows that it can be met."
  },
  {
   "property": "C18",
   "status": "proved",
   "theorems": [
    "C18_solve_system_padic",
    "C18_de_Rham_solver",
    "C18_old_matrix_refuted"
   ],
   "note": "False of the code for a matrix without columns when the output matrix already has the right size (C18_old_matrix_refuted); proved otherwise. No caller passes such a matrix."
  },
  {
   "property": "C19",
   "status": "proved",
   "theorems": [
    "C19_relation_matrix",
    "C19_low_degree"
   ],
   "note": ""
  },
  {
   "property": "C20",
   "status": "proved",
   "theorems": [
    "C20_reduce_vector_preserves_class",
    "C20_reduction_matrix_preserves_class"
   ],
   "note": ""
  },
  {
   "property": "C21",
   "status": "proved",
   "theorems": [
    "C21_poly_equals_steps"
   ],
   "note": ""
  },
  {
   "property": "C22",
   "status": "proved",
   "theorems": [
    "C22_inclusion_preserves_class",
    "C22_final_reduction_preserves_class",
    "C22_basis_wellformed"
   ],
   "note": ""
  },
  {
   "property": "C23",
   "status": "proved",
   "theorems": [
    "C23_monomial_to_basis"
   ],
   "note": ""
  },
  {
   "property": "C24",
   "status": "proved",
   "theorems": [
    "C24_ND_direction_exists",
    "C24_direction_exists",
    "C24_path_admissible"
   ],
   "note": "Jacobian routines here; non-degenerate ones in C24_ND_direction_exists and C38_direction, C38_reduce (frob_ND_*), C37 (monomial_to_basis_ND)."
  },
  {
   "property": "C25",
   "status": "proved",
   "theorems": [
    "C25_ND_factorial_bookkeeping",
    "C25_factorial_bookkeeping",
    "C25_breaks_below"
   ],
   "note": "Proved for frob_J_ZZ whenever n/p <= m+N-1 (in C26_frobenius_series; here for n < p); below that the routine never succeeds (C25_breaks_below), so the property is false there. For the non-degenerate routines it holds without restriction on p (C38_frobenius_series; here as long as the 64-bit coefficients fit)."
  },
  {
   "property": "C26",
   "status": "proved",
   "theorems": [
    "C26_frobenius_series",
    "C26_frobenius_value"
   ],
   "note": ""
  },
  {
   "property": "C27",
   "status": "proved",
   "theorems": [
    "C27_series_coefficients",
    "C27_code_computes_D",
    "C27_no_overflow"
   ],
   "note": ""
  },
  {
   "property": "C28",
   "status": "proved",
   "theorems": [
    "C28_factor",
    "C28_refuted"
   ],
   "note": "The property is false of the code: the factor is computed exactly, complete for n < p or m = 1, and refuted for n = p = 3."
  },
  {
   "property": "C29",
   "status": "proved",
   "theorems": [
    "C29_fpow_history"
   ],
   "note": ""
  },
  {
   "property": "C30",
   "status": "proved",
   "theorems": [
    "C30_history_independent",
    "C30_two_histories"
   ],
   "note": ""
  },
  {
   "property": "C31",
   "status": "proved",
   "theorems": [
    "C31_schedule_independent"
   ],
   "note": ""
  },
  {
   "property": "C32",
   "status": "proved",
   "theorems": [
    "C32_parallel_reduction_matrix"
   ],
   "note": ""
  },
  {
   "property": "C33",
   "status": "proved",
   "theorems": [
    "C33_finite_differences"
   ],
   "note": ""
  },
  {
   "property": "C34",
   "status": "proved",
   "theorems": [
    "C34_wrong_product_refuted",
    "C34_assertion_refuted",
    "C34_zero_polynomial_refuted"
   ],
   "note": ""
  },
  {
   "property": "C35",
   "status": "proved",
   "theorems": [
    "C35_reduce_vector_ND_preserves_class",
    "C35_reduce_vector_ND_ZZ_preserves_class",
    "C35_reduction_matrix_ND_preserves_class",
    "C35_log_functionals",
    "C35_points_refuted"
   ],
   "note": "n >= 1; for n = 0 the code returns the zero matrix (C35_points_refuted). Entries of u may be negative."
  },
  {
   "property": "C36",
   "status": "proved",
   "theorems": [
    "C36_poly_equals_steps",
    "C36_flint_equals_steps",
    "C36_flint_refuted"
   ],
   "note": "Proved for the NTL variants for all k. The FLINT variant is proved where the hypotheses of C33 hold (or no finite differences are used) and refuted otherwise: C36_flint_refuted gives a conic over Z/9 with a wrong result."
  },
  {
   "property": "C37",
   "status": "proved",
   "theorems": [
    "C37_coKernels_to_basis_preserves_class",
    "C37_monomial_to_basis_ND",
    "C37_same_class_as_J"
   ],
   "note": "get_inclusion_matrix_ND, get_coKernels_ND_to_basis and monomial_to_basis_ND (including termination of the direction search), for n >= 1 and every functional; C37_same_class_as_J compares with monomial_to_basis_J."
  },
  {
   "property": "C38",
   "status": "proved",
   "theorems": [
    "C38_direction",
    "C38_reduce",
    "C38_frobenius_series",
    "C38_frobenius_value",
    "C38_matrix"
   ],
   "note": "frob_ND_ZZ, frob_ND_ZZ_p, frob_ND_flint: directions, positivity, assertions, destinations, and the class and value returned. frob_ND_flint with a word-size modulus under the condition of C33/C36 (nested coefficients, or p <= n+1). The OpenMP branch is C39."
  },
  {
   "property": "C39",
   "status": "proved",
   "theorems": [
    "C39_safe_iff",
    "C39_refuted"
   ],
   "note": "The property is false of the code with several threads and a large modulus: safe exactly with one thread or a modulus below 2^62."
  },
  {
   "property": "C40",
   "status": "proved",
   "theorems": [
    "C40_short_names",
    "C40_long_names_refuted"
   ],
   "note": "The property is false of the code for names of 8 or more characters; proved for shorter ones."
  },
  {
   "property": "C41",
   "status": "proved",
   "theorems": [
    "C41_load",
    "C41_round_trip",
    "C41_refuted"
   ],
   "note": "Proved exactly what is loaded; equal to the saved object if the coefficients are in [1,p); refuted for other lifts. The hypothesis on the solver is discharged by C18_de_Rham_solver."
  },
  {
   "property": "C42",
   "status": "proved",
   "theorems": [
    "C42_marker",
    "C42_complete",
    "C42_refuted",
    "C42_no_marker_refuted"
   ],
   "note": "The first sentence is false of the code (C42_refuted); the statement about the marker is proved for every crash point when both files can be opened, and refuted when the marker cannot be created."
  },
  {
   "property": "C43",
   "status": "proved",
   "theorems": [
    "C43_precision_logic",
    "C43_default"
   ],
   "note": ""
  },
  {
   "property": "C44",
   "status": "proved",
   "theorems": [
    "C44_round_trip",
    "C44_last_wins",
    "C44_empty"
   ],
   "note": ""
  },
  {
   "property": "C45",
   "status": "proved",
   "theorems": [
    "C45_random_SL",
    "C45_find_change"
   ],
   "note": "For every sequence of random matrices in which an invertible one occurs (otherwise random_SL_matrix does not end) and every random row. gauss, nmod_mat_lu and determinant are arguments with their documented specification."
  },
  {
   "property": "C46",
   "status": "proved",
   "theorems": [
    "C46_exhaustive",
    "C46_in_bounds"
   ],
   "note": "The double k/(log2 k + 1) is specified by double_ok (exact at 1 and 2, right comparison when off by a factor 8/7); C69_picard proves it for IEEE double with a correctly rounded logarithm, PicardDouble.v gives an instance without real numbers."
  },
  {
   "property": "C47",
   "status": "proved",
   "theorems": [
    "C47_isND",
    "C47_isSmooth",
    "C47_isSmooth_linear_refuted"
   ],
   "note": "isSmooth for degree >= 2 (degree 1 indexes out of range: C47_isSmooth_linear_refuted), isND for degree >= 1. nmod_mat_lu is an argument with its documented specification."
  },
  {
   "property": "C48",
   "status": "proved",
   "theorems": [
    "C48_inputs_agree",
    "C48_lengths"
   ],
   "note": ""
  },
  {
   "property": "C49",
   "status": "proved",
   "theorems": [
    "C49_count",
    "C49_assertion"
   ],
   "note": "fmpz_poly_factor_zassenhaus and fmpz_poly_cyclotomic are arguments with a specification; the double as in C46. Without the Weil bound the assertion can fail (C49_ex_assert)."
  },
  {
   "property": "C50",
   "status": "proved",
   "theorems": [
    "C50_history_independent",
    "C50_monomial_to_basis",
    "C50_reduce_vector_poly"
   ],
   "note": ""
  },
  {
   "property": "C51",
   "status": "proved",
   "theorems": [
    "C51_schedule_independent"
   ],
   "note": ""
  },
  {
   "property": "C52",
   "status": "proved",
   "theorems": [
    "C52_threads_branch",
    "C52_slices",
    "C52_parallel_columns"
   ],
   "note": ""
  },
  {
   "property": "C53",
   "status": "proved",
   "theorems": [
    "C53_constructor",
    "C53_constructor_cubic",
    "C53_dimension",
    "C53_constructor_ND",
    "C53_nd_smooth",
    "C53_table_length",
    "C53_quadric_char2_refuted"
   ],
   "note": "The claim that isSmooth suffices is false for quadrics in characteristic 2 (C53_quadric_char2_refuted); the exact condition is proved."
  },
  {
   "property": "C54",
   "status": "proved",
   "theorems": [
    "C54_arguments",
    "C54_zeta_function",
    "C54_words",
    "C54_result",
    "C54_not_lifted",
    "C54_prime_divides_degree",
    "C54_smooth_cubic_refuted"
   ],
   "note": "The claim that every smooth f is accepted is false when p divides d (C54_smooth_cubic_refuted)."
  },
  {
   "property": "C55",
   "status": "proved",
   "theorems": [
    "C55_functionals_exist",
    "C55_coordinates_unique",
    "C55_functionals_unique",
    "C55_basis_independent",
    "C55_J_and_ND_agree",
    "C55_frobenius_modes_agree",
    "C55_frobenius_methods_agree"
   ],
   "note": "q a power of the prime p, n >= 1."
  },
  {
   "property": "C56",
   "status": "proved",
   "theorems": [
    "C56_test_paths_J",
    "C56_test_paths_ND",
    "C56_test_paths_arguments",
    "C56_test_monomial_to_basis_J",
    "C56_test_monomial_to_basis_ND",
    "C56_test_monomial_to_basis_negative",
    "C56_test_always_true_refuted"
   ],
   "note": "q a power of the prime p, n >= 1; the tables of matrices are left out (see C30, C50). The claim without the bound on N is refuted (overflow of the factorial)."
  },
  {
   "property": "C57",
   "status": "proved",
   "theorems": [
    "C57_vector",
    "C57_lift",
    "C57_zero_terms",
    "C57_random",
    "C57_random_ND",
    "C57_random_returns",
    "C57_random_hangs",
    "C57_random_small_degree",
    "C57_random_returns_char2_refuted"
   ],
   "note": "random numbers are an arbitrary list; the memory limit of the enumeration is a hypothesis (init_tuples n d = OK). For p = 2, d = 2 the random constructor of de_Rham_local can fail an assertion of init: refuted by example."
  },
  {
   "property": "C58",
   "status": "proved",
   "theorems": [
    "C58_load",
    "C58_resume",
    "C58_resume_J",
    "C58_other_lift_refuted"
   ],
   "note": "a failed stream extraction is an error of the model; the claim without the condition on the coefficients is refuted (C58_other_lift_refuted), as in C41."
  },
  {
   "property": "C59",
   "status": "proved",
   "theorems": [
    "C59_paths_J_compared",
    "C59_paths_ND_compared",
    "C59_start_any",
    "C59_path_J_value",
    "C59_path_ND_value",
    "C59_mtb_compared"
   ],
   "note": "The values of paths and the powers of f need an object built by a constructor, q a power of the prime p, n >= 1; the comparisons hold for any object."
  },
  {
   "property": "C60",
   "status": "proved",
   "theorems": [
    "C60_modes",
    "C60_ZZ_p",
    "C60_methods",
    "C60_matrices",
    "C60_zeta_matrix",
    "C60_column_unique"
   ],
   "note": "q a power of the prime p, n >= 1; the int64_t numbers must fit (J_fits, coef_fits) and the word-size FLINT arithmetic be harmless (flint_fine, see C38); both hold for the parameters of zeta_function when q >= 2^64 or p <= n+1 or the coefficients are nested."
  },
  {
   "property": "C61",
   "status": "proved",
   "theorems": [
    "C61_full_subtraction",
    "C61_joined_rectangles",
    "C61_nested_same",
    "C61_flint_equals_steps",
    "C61_fermat_cubic_refuted",
    "C61_wrong_value_refuted",
    "C61_branches_refuted"
   ],
   "note": "The positive theorems are about two variants of finitediff_flint_nmod that are not in the source (k <= q, M not zero); the theorems named _refuted are about the code as it is, on concrete polynomials with the deterministic instances of the linear algebra."
  },
  {
   "property": "C62",
   "status": "proved",
   "theorems": [
    "C62_invariance_J",
    "C62_invariance_ND",
    "C62_invariance_detects_refuted",
    "C62_main_J",
    "C62_main_ND",
    "C62_main_all",
    "C62_JND_all",
    "C62_JND_ignores_J",
    "C62_JND_detects_refuted",
    "C62_main_JND",
    "C62_K3p3",
    "C62_K3p3_detects_refuted",
    "C62_zeta_main",
    "C62_zeta_detects_refuted",
    "C62_JND_compares",
    "C62_JND_right",
    "C62_transform"
   ],
   "note": "The runs of the test of invariance are evaluated for a plane cubic over F_17; C62_JND_detects_refuted uses given 6 x 6 matrices instead of an object, C62_K3p3 an arbitrary function instead of frob_J. GenPrime_long takes one random number and returns an arbitrary function of it; the random matrices of each run are arguments. C62_JND_right has the hypothesis flint_fine of C60 on the random object; its example shows that it holds for p = 3."
  },
  {
   "property": "C63",
   "status": "proved",
   "theorems": [
    "C63_reads_general",
    "C63_reads_short",
    "C63_short_even_refuted",
    "C63_last_newline_refuted",
    "C63_empty_lines_refuted",
    "C63_default_tries",
    "C63_output_is_input",
    "C63_general",
    "C63_zero_refuted",
    "C63_result",
    "C63_precision_refuted"
   ],
   "note": "A column can still end in a failed division (matrix_result), and the words of FLINT are assumed to suffice in the non-degenerate case (words_fine, C54_words). That the matrix determines the characteristic polynomial to the precisions of the table is a hypothesis of C63_result. Malformed input (not a number, not a vector) is an error in the model; the program goes on with a failed stream."
  },
  {
   "property": "C64",
   "status": "proved",
   "theorems": [
    "C64_polynomial",
    "C64_smooth",
    "C64_K3_dwork",
    "C64_same_output",
    "C64_result"
   ],
   "note": "A column can still end in a failed division (matrix_result) and the words of FLINT are assumed to suffice (words_fine, C54_words). That the matrix determines the characteristic polynomial to the precisions of the table is a hypothesis of C64_result. p is prime; the programs go on with a p that is not. For lambda outside [0, p) K3_dwork2 uses another lift than K3_dwork; that the result does not depend on the lift is not proved."
  },
  {
   "property": "C65",
   "status": "proved",
   "theorems": [
    "C65_smooth",
    "C65_nd",
    "C65_isSmooth",
    "C65_isND",
    "C65_euler",
    "C65_constructor",
    "C65_zeta_function",
    "C65_witness",
    "C65_dwork"
   ],
   "note": "Fields are given with their own equality and with inverses up to double negation, so that the theorems need no axiom; with the law of excluded middle as an explicit hypothesis C65_witness gives a point over a field in the usual sense. For p | d a common zero of the derivatives need not be a zero of f; for d >= 3 there then always is one (C53), so that isSmooth answers false for smooth hypersurfaces too."
  },
  {
   "property": "C66",
   "status": "proved",
   "theorems": [
    "C66_basis",
    "C66_sums",
    "C66_digits",
    "C66_range",
    "C66_matrix",
    "C66_matrix_ND"
   ],
   "note": "The statement is about the ZZ path (and, for the non-degenerate method, the agreement with it under the conditions of C60). Both runs use the same elimination and inversion routines and the same number of terms. The examples on test_K3p3 check that the transcribed expected table lies in the ranges given by C66_range; the test itself is not run."
  },
  {
   "property": "C67",
   "status": "proved",
   "theorems": [
    "C67_mul",
    "C67_sub",
    "C67_products",
    "C67_UXU",
    "C67_word_loop",
    "C67_finitediff",
    "C67_aliased_refuted"
   ],
   "note": "C67_aliased_refuted gives calls with the result as operand that are wrong; no such call occurs in the source. C67_finitediff starts from the table of values in memory: that table is filled by FLINT (nmod_mat_scalar_addmul_ui), which is not modelled at this level. The two calls of C67_UXU are commented out in the source."
  },
  {
   "property": "C68",
   "status": "proved",
   "theorems": [
    "C68_functional_equation",
    "C68_divisible",
    "C68_middle_refuted",
    "C68_constant_term",
    "C68_expected_divisible",
    "C68_dwork_expected_refuted"
   ],
   "note": "C68_middle_refuted: for even degree and sign -1 the equation may fail for the middle coefficient. C68_dwork_expected_refuted: the recorded polynomial is that of p = 11 as far as the functional equation can tell (C68_recorded_ex); that it is the zeta function of the Dwork quartic over F_11 was observed by running the extracted model outside of this development, not proved. The comparison in these theorems is the repaired one; the one in the source is that of C62."
  },
  {
   "property": "C69",
   "status": "proved",
   "theorems": [
    "C69_test",
    "C69_charpoly_frob",
    "C69_default",
    "C69_ieee",
    "C69_picard",
    "C69_tie_refuted"
   ],
   "note": "A double is represented by its real value; overflow does not occur in the stated ranges and is not modelled. The real numbers of the standard library bring in its axioms (listed in DESIGN.md); Flocq, used for the IEEE instance, adds none. C69_tie_refuted: p = 3, degree 9, dimension 2, k = 2, precision 4, with two arithmetics that both meet the bound; no such tie occurs with the built-in tables (C69_default). In C69_picard the conversion (double)k is taken to be exact (it is below 2^53)."
  },
  {
   "property": "C70",
   "status": "proved",
   "theorems": [
    "C70_reports",
    "C70_paths_J",
    "C70_basis_J",
    "C70_paths_ND",
    "C70_basis_ND"
   ],
   "note": "GenPrime_long takes one random number and returns an arbitrary function of it that is prime and sometimes at least 43. The objects are built by the constructors of C57, the tests are those of C56."
  },
  {
   "property": "C71",
   "status": "proved",
   "theorems": [
    "C71_timeval",
    "C71_timespec",
    "C71_parts",
    "C71_parts_all_refuted"
   ],
   "note": "Rounding of the double result is left out. The branch for Apple uses timevaldiff_in_seconds for both times."
  },
  {
   "property": "C72",
   "status": "proved",
   "theorems": [
    "C72_genus3",
    "C72_K3",
    "C72_curve",
    "C72_curve_modp",
    "C72_surface",
    "C72_dwork"
   ],
   "note": "The verbose output of the two wrapper examples is left out. Smoothness of the surfaces is shown through C65 with identities that express fifth powers of the coordinates by the derivatives."
  }
 ]
}