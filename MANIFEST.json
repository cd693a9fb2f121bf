{
 "claims": [
  {
   "property": "C01",
   "status": "proved",
   "theorems": [
    "C01_canonical_form_sound",
    "C01_canonical_form_complete"
   ],
   "note": "all words, any symmetric table"
  },
  {
   "property": "C02",
   "status": "proved",
   "theorems": [
    "C02_canonical_form_lex_least"
   ],
   "note": ""
  },
  {
   "property": "C03",
   "status": "proved",
   "theorems": [
    "C03_equal_iff_same_canonical_form",
    "C03_zero_iff_forced_zero",
    "C03_result_is_equal",
    "C03_commuting_fast_path",
    "C03_scenario_tables_well_formed",
    "C03_scenario_equal_iff_same_canonical_form",
    "C03_scenario_orthogonality"
   ],
   "note": ""
  },
  {
   "property": "C04",
   "status": "proved",
   "theorems": [
    "C04_idempotent",
    "C04_shape"
   ],
   "note": ""
  },
  {
   "property": "C05",
   "status": "proved",
   "theorems": [
    "C05_moment_matrix"
   ],
   "note": ""
  },
  {
   "property": "C06",
   "status": "proved",
   "theorems": [
    "C06_symmetrised_matrix_is_orbits",
    "C06_labels_consecutive",
    "C06_no_symmetries",
    "C06_scenario_moment_matrix"
   ],
   "note": ""
  },
  {
   "property": "C07",
   "status": "proved",
   "theorems": [
    "C07_commutation_rule",
    "C07_symmetric",
    "C07_reflexive",
    "C07_independent_of_outcomes",
    "C07_same_measurement_commutes",
    "C07_different_parties_commute",
    "C07_all_classical_commutes"
   ],
   "note": ""
  },
  {
   "property": "C08",
   "status": "proved",
   "theorems": [
    "C08_source_permutation_preserves",
    "C08_symmetries_preserve_commutation",
    "C08_shared_source_meaning"
   ],
   "note": ""
  },
  {
   "property": "C09",
   "status": "proved",
   "theorems": [
    "C09_operator_list_exact",
    "C09_operator_list_sorted_no_repetition",
    "C09_conversion_roundtrip",
    "C09_conversion_roundtrip_indices",
    "C09_unknown_operator_rejected"
   ],
   "note": ""
  },
  {
   "property": "C10",
   "status": "proved",
   "theorems": [
    "C10_symmetries_are_all_relabellings",
    "C10_every_relabelling_found",
    "C10_identity_first",
    "C10_group"
   ],
   "note": ""
  },
  {
   "property": "C11",
   "status": "proved",
   "theorems": [
    "C11_pieces_are_the_linked_classes",
    "C11_no_operator_lost",
    "C11_refuted_beyond_255"
   ],
   "note": "The bound 255 is necessary: beyond it the claim is refuted (C11_refuted_beyond_255), because the component labels are 8-bit."
  },
  {
   "property": "C12",
   "status": "proved",
   "theorems": [
    "C12_never_factorizes_sound",
    "C12_never_factorizes_all_linked"
   ],
   "note": ""
  },
  {
   "property": "C13",
   "status": "proved",
   "theorems": [
    "C13_effective_settings_bijection"
   ],
   "note": ""
  },
  {
   "property": "C14",
   "status": "proved",
   "theorems": [
    "C14_knowable_iff"
   ],
   "note": ""
  },
  {
   "property": "C15",
   "status": "proved",
   "theorems": [
    "C15_private_setting",
    "C15_networks_unchanged",
    "C15_injective_on_knowable"
   ],
   "note": ""
  },
  {
   "property": "C16",
   "status": "proved",
   "theorems": [
    "C16_compute_marginal",
    "C16_knowable_moment_value",
    "C16_canonical_knowable_sorted"
   ],
   "note": ""
  },
  {
   "property": "C17",
   "status": "proved",
   "theorems": [
    "C17_evaluate_exact",
    "C17_known_report_exact",
    "C17_known_report_error",
    "C17_knowability_status",
    "C17_compound_marginal"
   ],
   "note": ""
  },
  {
   "property": "C18",
   "status": "proved",
   "theorems": [
    "C18_all_cliques",
    "C18_maximal_cliques",
    "C18_maximal_below_cutoff",
    "C18_maximal_at_cutoff_refuted",
    "C18_flag_off"
   ],
   "note": "At the cutoff size the code marks wrongly: C18_maximal_at_cutoff_refuted. Without vertices the empty clique is not reported as maximal."
  },
  {
   "property": "C19",
   "status": "proved",
   "theorems": [
    "C19_programme_exact",
    "C19_inequalities_are_event_probabilities",
    "C19_behaviours_exist"
   ],
   "note": "Exactness: the solutions are exactly the relabelling-invariant behaviours of the inflated scenario. Numerical tolerance and float coefficients are not modelled (rationals). The programme is before known values, bounds and non-negativity of other columns are added."
  },
  {
   "property": "C20",
   "status": "proved",
   "theorems": [
    "C20_programme_is_generated"
   ],
   "note": ""
  },
  {
   "property": "C21",
   "status": "proved",
   "theorems": [
    "C21_orbits_are_classes",
    "C21_atomic_same_for_images",
    "C21_atomic_is_an_image",
    "C21_atomic_without_symmetry"
   ],
   "note": "Without symmetries (one symmetry) the order of operators can be that of an earlier call; the set is the same."
  },
  {
   "property": "C22",
   "status": "proved",
   "theorems": [
    "C22_never_both",
    "C22_known_exactly",
    "C22_semiknown_exactly",
    "C22_only_specified",
    "C22_without_values",
    "C22_values_are_correct",
    "C22_target_is_not_semiknown",
    "C22_supports",
    "C22_update_values_refuted"
   ],
   "note": "Atoms are numbers in sorting order, values exact rationals (no symbolic values); a failing call is None. update_values leaves stale semi-known entries: C22_update_values_refuted."
  },
  {
   "property": "C23",
   "status": "proved",
   "theorems": [
    "C23_values_afresh",
    "C23_everything_afresh",
    "C23_bounds_only_shrink",
    "C23_bounds_refuted"
   ],
   "note": "As C22. The bounds after set_values alone depend on the history: C23_bounds_refuted."
  },
  {
   "property": "C24",
   "status": "proved",
   "theorems": [
    "C24_answers_independent_of_history",
    "C24_internal_calls_are_good",
    "C24_flag_not_in_key_refuted"
   ],
   "note": "For well-behaved calls (which the package's own calls are: C24_internal_calls_are_good); in general refuted: C24_flag_not_in_key_refuted."
  },
  {
   "property": "C25",
   "status": "proved",
   "theorems": [
    "C25_lp_constraints_reach_the_solver",
    "C25_lp_task_is_built",
    "C25_extra_constraints_are_the_users",
    "C25_extra_inequalities_are_the_users",
    "C25_sdp_ignores_extra_constraints_refuted",
    "C25_discarded_by_set_values_refuted"
   ],
   "note": "Linear programmes, without relaxation, extra constraints with at least one term. Semidefinite programmes ignore extra constraints (C25_sdp_ignores_extra_constraints_refuted) and set_values discards them (C25_discarded_by_set_values_refuted)."
  },
  {
   "property": "C26",
   "status": "proved",
   "theorems": [
    "C26_tasks_are_built",
    "C26_primal_task_is_the_problem",
    "C26_dual_bounds_primal",
    "C26_dual_is_tight",
    "C26_infeasibility_is_detected",
    "C26_certificate_is_valid",
    "C26_certificate_at_known",
    "C26_certificate_from_primal_is_valid",
    "C26_bound_rows",
    "C26_semiknown_rows",
    "C26_example_args",
    "C26_example_solution",
    "C26_known_objective_certificate_refuted",
    "C26_bounds_certificate_refuted",
    "C26_negative_lower_bound_refuted"
   ],
   "note": "Rationals instead of floats; MOSEK itself is not modelled (a solution is any feasible point of the task). Refuted outside the stated conditions: C26_known_objective_certificate_refuted, C26_bounds_certificate_refuted, C26_negative_lower_bound_refuted."
  },
  {
   "property": "C27",
   "status": "proved",
   "theorems": [
    "C27_same_programme",
    "C27_same_programme_relaxed",
    "C27_total",
    "C27_dual_bound",
    "C27_dual_bound_relaxed",
    "C27_certificate",
    "C27_certificate_relaxed",
    "C27_certificate_infeasible",
    "C27_ray_infeasible",
    "C27_clean",
    "C27_certificate_objective_refuted",
    "C27_returned_matrix_refuted",
    "C27_known_target_refuted"
   ],
   "note": "Over exact rationals; for the certificate after solving the dual. Refuted: C27_certificate_objective_refuted (line 516 overwrites the objective's contribution), C27_returned_matrix_refuted (F in the solution is only F0), C27_known_target_refuted (semi-known relative to a known moment). Strong duality is not claimed (false for SDPs in general); MOSEK's dual values in the primal formulation are not modelled."
  },
  {
   "property": "C28",
   "status": "proved",
   "theorems": [
    "C28_same_programme",
    "C28_bounds",
    "C28_number_of_variables",
    "C28_total",
    "C28_sense_refuted",
    "C28_negative_known_refuted",
    "C28_semiknown_bound_refuted",
    "C28_two_inequalities_refuted",
    "C28_negative_upperbound_refuted",
    "C28_known_moments_refuted"
   ],
   "note": "Main theorem C28_same_programme (equivalence of the file, read by the SDPA format, with the programme), C28_bounds, C28_number_of_variables, C28_total; the _refuted theorems show that each excluded situation is indeed exported wrongly (objective sense, negative known values, bounds of semi-known moments, two inequalities, negative upper bounds, known moments in objective/equalities)."
  },
  {
   "property": "C29",
   "status": "proved",
   "theorems": [
    "C29_lp",
    "C29_lp_optimum",
    "C29_mps",
    "C29_mps_optimum",
    "C29_lp_bounds_refuted",
    "C29_lp_known_objective_refuted",
    "C29_case",
    "C29_known_constraint_refuted",
    "C29_default_non_negative_refuted",
    "C29_mps_rounding_refuted"
   ],
   "note": "C29_lp/C29_lp_optimum and C29_mps/C29_mps_optimum prove the equivalence; the LP file is modelled as text and read by an independent reader of the format, the MPS file by its fields. C29_*_refuted prove what the export gets wrong (bounds, known objective, violated known constraints, default_non_negative=False, rounding)."
  },
  {
   "property": "C30",
   "status": "proved",
   "theorems": [
    "C30_equalities_hold",
    "C30_assignment_exists",
    "C30_functional_exists",
    "C30_no_repetition",
    "C30_columns_complete",
    "C30_columns_sound",
    "C30_rows_complete",
    "C30_dictionary",
    "C30_break_refuted",
    "C30_single_outcome_refuted"
   ],
   "note": "Soundness, no repetition, exact coefficients, completeness of columns and rows. C30_break_refuted: the search in a column stops at the first missing word, so valid equalities are lost; C30_single_outcome_refuted: one-outcome parties raise. Not shown: if two rows have the same summands and different totals only the first is kept; that the dropped relation 'total = total' follows from the rest. C30_dictionary assumes that different variables of the equality have different moment objects."
  },
  {
   "property": "C31",
   "status": "proved",
   "theorems": [
    "C31_cleaning",
    "C31_fails_exactly",
    "C31_scale_invariant",
    "C31_documented_threshold_refuted"
   ],
   "note": "Rationals instead of floats. The documented reading of the threshold is refuted: C31_documented_threshold_refuted."
  },
  {
   "property": "C32",
   "status": "proved",
   "theorems": [
    "C32_bisect_bracket",
    "C32_bisect_finds",
    "C32_bisect_upper_bound",
    "C32_bisect_returns",
    "C32_bisect_certificate",
    "C32_bisect_checks_insufficient_refuted",
    "C32_dual_terminates",
    "C32_dual_descends",
    "C32_dual_sound",
    "C32_dual_failure"
   ],
   "note": "Solver, SLSQP and symbolic evaluation are parameters; scipy's bisect is modelled. The checks made before the bisection do not suffice: C32_bisect_checks_insufficient_refuted."
  },
  {
   "property": "C33",
   "status": "proved",
   "theorems": [
    "C33_npa",
    "C33_local",
    "C33_physical",
    "C33_blocks",
    "C33_symmetric",
    "C33_text",
    "C33_duplicate_identity_refuted",
    "C33_explicit_refuted",
    "C33_explicit",
    "C33_single_column_refuted",
    "C33_npa_latents_refuted",
    "C33_capital_local_refuted"
   ],
   "note": "Specification in ColsSpec.v (columns_for). npa/local need separate_parties: without it the statement is refuted (C33_npa_latents_refuted). Repeated identity blocks and explicit columns are not deduplicated (C33_duplicate_identity_refuted, C33_explicit_refuted); one explicit column raises; 'Local1' is read as physical. The memoised canonicaliser is replaced by the canonicaliser (C24)."
  },
  {
   "property": "C34",
   "status": "proved",
   "theorems": [
    "C34_column_symmetries",
    "C34_symmetry_used",
    "C34_acts_on_moment_matrix"
   ],
   "note": ""
  },
  {
   "property": "C35",
   "status": "proved",
   "theorems": [
    "C35_representative",
    "C35_representative_is_first",
    "C35_symmetries_are_relabellings",
    "C35_unreduced_word_refuted"
   ],
   "note": "For reduced words, after any history; for unreduced words refuted: C35_unreduced_word_refuted."
  },
  {
   "property": "C36",
   "status": "proved",
   "theorems": [
    "C36_linear",
    "C36_value_changes_little"
   ],
   "note": "The interpretation of a key (_sanitise_moment) is a parameter."
  },
  {
   "property": "C37",
   "status": "proved",
   "theorems": [
    "C37_physical_iff",
    "C37_physical_is_nonnegative",
    "C37_converse_refuted",
    "C37_latents_refuted"
   ],
   "note": "Converse refuted (C37_converse_refuted: the test does not commute operators inside a factor) and, with non-classical latents shared by parties, soundness refuted (C37_latents_refuted). In the package the function is called only by tests."
  },
  {
   "property": "C38",
   "status": "proved",
   "theorems": [
    "C38_operator_names",
    "C38_atom_names",
    "C38_conjugation",
    "C38_dictionary",
    "C38_same_moment",
    "C38_parse",
    "C38_representatives_are_atoms",
    "C38_name_depends_on_history_refuted",
    "C38_reading_names_refuted",
    "C38_underscore_refuted",
    "C38_prefix_refuted"
   ],
   "note": "Refuted parts kept as theorems: the name of a moment depends on the history of constructions (C38_name_depends_on_history_refuted), names of the form P[..] with several operators, with do(..) or with powers are not read back before the moment exists and P[A=0]*P[C=0] is read as the joint moment (C38_reading_names_refuted); the conditions on party names are needed (C38_underscore_refuted, C38_prefix_refuted)."
  },
  {
   "property": "C39",
   "status": "proved",
   "theorems": [
    "C39_bounds_reach_the_solver",
    "C39_requested_bounds_hold",
    "C39_known_have_no_bounds",
    "C39_set_upper",
    "C39_set_lower",
    "C39_contradiction_is_detected"
   ],
   "note": "As C22."
  },
  {
   "property": "C40",
   "status": "proved",
   "theorems": [
    "C40_same_value",
    "C40_no_known_moments",
    "C40_fails_exactly"
   ],
   "note": "As C22. The substitution of semi-known moments (lines 2035-2040) always raises."
  },
  {
   "property": "C41",
   "status": "proved",
   "theorems": [
    "C41_which_moments",
    "C41_self_conjugate_nonnegative",
    "C41_commuting_nonnegative",
    "C41_no_inflation_nonnegative",
    "C41_symmetric_bound_refuted"
   ],
   "note": "With at least two copies of two quantum sources the bound is not valid: C41_symmetric_bound_refuted gives a projective measurement on two qubits with a negative value for a moment that gets lower bound 0, so the relaxation can exclude correlations that exist."
  },
  {
   "property": "C42",
   "status": "proved",
   "theorems": [
    "C42_accepts",
    "C42_describes",
    "C42_order",
    "C42_sources_have_no_parents",
    "C42_well_formed",
    "C42_default_dag",
    "C42_acyclic_refuted",
    "C42_latent_without_parents_refuted",
    "C42_level_zero_refuted"
   ],
   "note": "The constructor does not check three things it should: cycles of observed nodes are accepted (C42_acyclic_refuted), a classical intermediate latent without parents is dropped although it is a common cause (C42_latent_without_parents_refuted), and a level 0 in a list is accepted and gives an ill-formed scenario (C42_level_zero_refuted)."
  },
  {
   "property": "C43",
   "status": "proved",
   "theorems": [
    "C43_problem_is_built",
    "C43_compatible_distributions_have_inflations",
    "C43_compatible_distributions_are_feasible",
    "C43_infeasible_means_incompatible",
    "C43_negative_optimum_means_incompatible",
    "C43_mixtures_are_feasible_with_shared_randomness",
    "C43_certificates_hold_for_compatible_distributions",
    "C43_certificates_hold_for_mixtures",
    "C43_negative_certificate_means_incompatible",
    "C43_optimum_bounds_compatible_distributions",
    "C43_tiny_products_refuted"
   ],
   "note": "Classical causal models with finitely many rational probabilities (CausalSpec.v); the certificate theorems are for runs without linearised constraints or with shared randomness. The 1e-8 condition is necessary: a compatible distribution with P(A=0)=1e-9 is declared incompatible with linearised constraints (C43_tiny_products_refuted). C43_pr_box_is_excluded runs the model end to end on the Bell scenario. The solver itself is not modelled: the theorems are about every feasible point of the tasks it is given."
  },
  {
   "property": "C44",
   "status": "proved",
   "theorems": [
    "C44_compatible_distributions_have_moments",
    "C44_mixtures_have_moments",
    "C44_commuting_moments_are_nonnegative",
    "C44_one_copy_moments_are_nonnegative",
    "C44_quantum_distributions_have_moments",
    "C44_quantum_mixtures_have_moments",
    "C44_programmes_are_built",
    "C44_names",
    "C44_moments_are_a_point",
    "C44_mixtures_are_feasible_with_shared_randomness",
    "C44_exclusion_is_right",
    "C44_exclusion_is_right_with_shared_randomness",
    "C44_quantum_distributions_are_not_excluded",
    "C44_quantum_mixtures_are_not_excluded_with_shared_randomness",
    "C44_bounds_hold",
    "C44_certificates_hold",
    "C44_certificates_hold_for_mixtures",
    "C44_negative_certificate_excludes",
    "C44_certificates_hold_for_quantum_distributions"
   ],
   "note": "Realisations are given by the laws of their moments (QInflationSpec.v); classical causal models and finite-dimensional quantum models with rational numbers (QModelSpec.v; latents hand systems on unchanged) are proved to have such moments. The default bounds of Hermitian moments are an extra hypothesis (nonnegative_hermitian, for products as long as those in the matrix) that holds for classical models, for quantum models with products of up to two operators, for commuting operators and with one copy of every source, and can fail otherwise (C41). Columns: good_columns (different canonical non-zero products). Linearised constraints without shared randomness need no_tiny_values as in C43. End to end on the quantum Bell scenario: C44_pr_box_is_excluded, C44_tsirelson_bound, C44_coin_is_accepted, C44_entangled_box(_inflated): correlations of two entangled qubits, which no classical model gives, are accepted, also with two copies of the source. The solver is not modelled: theorems are about every point of its tasks."
  },
  {
   "property": "C45",
   "status": "proved",
   "theorems": [
    "C45_problem_is_built",
    "C45_possible_supports_are_feasible",
    "C45_possible_mixtures_are_feasible",
    "C45_tables_have_no_small_values",
    "C45_infeasible_means_impossible",
    "C45_negative_optimum_means_impossible",
    "C45_small_probabilities_refuted",
    "C45_second_support_refuted",
    "C45_sdp_possible_supports_are_feasible",
    "C45_sdp_exclusion_is_right",
    "C45_sdp_tables_have_no_small_values",
    "C45_sdp_names"
   ],
   "note": "Linear and semidefinite programmes; classical causal models, quantum models (semidefinite only, with C44's conditions on columns) and mixtures. small_is_zero is proved for tables with entries 0 or >= 1 and is necessary otherwise (C45_small_probabilities_refuted); a second set_distribution keeps the lower bounds of the first (C45_second_support_refuted). C45_pr_support_is_excluded and C45_sdp_pr_support_is_excluded run the models end to end on the Bell scenario. That a semidefinite programme is built for every table is not shown (a run is assumed)."
  },
  {
   "property": "C46",
   "status": "proved",
   "theorems": [
    "C46_dictionary_is_the_certificate",
    "C46_cleaned_dictionary",
    "C46_dictionary_exists",
    "C46_evaluation_at_compatible_distributions",
    "C46_evaluation_at_mixtures",
    "C46_negative_evaluation_means_incompatible",
    "C46_text_says_the_dictionary",
    "C46_text_exists",
    "C46_negative_evaluation_refuted",
    "C46_constant_lost_refuted",
    "C46_empty_text_refuted",
    "C46_near_one_refuted",
    "C46_sdp_evaluation_is_the_certificate",
    "C46_sdp_evaluation",
    "C46_sdp_negative_evaluation",
    "C46_sdp_certificate_in_moments"
   ],
   "note": "Evaluation is proved for linear programmes (C46_evaluation*) and for semidefinite ones (C46_sdp_*; the distribution is an array of non-negative numbers with sums 1, and linear-product constraints need shared randomness, as in C44). Numbers are rationals; how they are printed is a parameter that can be read back (sum_numbers; fractions_are_numbers is an instance). Refuted by the code: a negative evaluate_certificate does not mean incompatible because of the rounding (C46_negative_evaluation_refuted); C46_constant_lost_refuted; C46_empty_text_refuted (IndexError); C46_near_one_refuted."
  },
  {
   "property": "C47",
   "status": "proved",
   "theorems": [
    "C47_inferred_variables",
    "C47_same_problem",
    "C47_task_is_the_problem",
    "C47_dual_bounds",
    "C47_certificate",
    "C47_omitted_arguments_refuted",
    "C47_bounds_declare_nothing_refuted",
    "C47_replaced_equalities_refuted"
   ],
   "note": "The tasks and MOSEK's part are those of C26. Refuted by the code: omitted arguments raise although documented as optional (C47_omitted_arguments_refuted); a bound on a variable that occurs nowhere else raises (C47_bounds_declare_nothing_refuted); sparse equalities are replaced by the equalities of semi-known variables (C47_replaced_equalities_refuted)."
  },
  {
   "property": "C48",
   "status": "proved",
   "theorems": [
    "C48_same_programme",
    "C48_names",
    "C48_objective_refuted",
    "C48_zero_refuted"
   ],
   "note": "Coefficients of at most 1e-8 in the objective are left out (C48_objective_refuted). If the zero moment is used in a constraint but is not in the matrix, the file has an index 0 (C48_zero_refuted)."
  },
  {
   "property": "C49",
   "status": "proved",
   "theorems": [
    "C49_matrix",
    "C49_objective",
    "C49_constraints",
    "C49_bounds",
    "C49_total",
    "C49_integer_value_refuted",
    "C49_coefficient_refuted"
   ],
   "note": "A known value that is an integer k >= 2 is printed as the name of moment k (C49_integer_value_refuted); coefficients within 1e-5 of 1 are printed as 1 (C49_coefficient_refuted). Numbers are assumed to be written without exponents."
  },
  {
   "property": "C50",
   "status": "proved",
   "theorems": [
    "C50_conditions_exist",
    "C50_equivalent",
    "C50_exact",
    "C50_compatible_distributions_satisfy_them"
   ],
   "note": "Moments are lists of factor numbers; the dictionaries by name are C51. Scenarios with too many copies for the factorisation (C11) are excluded by ready."
  },
  {
   "property": "C51",
   "status": "proved",
   "theorems": [
    "C51_atoms_of_programmes",
    "C51_representatives_are_atoms",
    "C51_atom_names",
    "C51_moments",
    "C51_columns",
    "C51_conditions_by_name",
    "C51_prefix_refuted"
   ],
   "note": "Refuted part kept as a theorem: with party names AB, A, BA two different moments share a legacy name and only the second is found under it (C51_prefix_refuted). Texts are lists of bytes; atoms are compared by their words and not by hashes. User-given names of moments (symbols) are not modelled."
  },
  {
   "property": "C52",
   "status": "proved",
   "theorems": [
    "C52_arguments",
    "C52_mps_file",
    "C52_lp_file",
    "C52_stale_constraints_refuted",
    "C52_generated_programmes",
    "C52_new_constraints_lost_refuted"
   ],
   "note": "Refuted part kept as theorems: moment_equalities_by_name and moment_inequalities_by_name are cached, so that constraints set after the first export are missing in later exports (C52_stale_constraints_refuted, C52_new_constraints_lost_refuted). C52_arguments is about the first export. Extra constraints are assumed not to be empty after sanitising. The unused variable \"constant_term\" is among the variables."
  },
  {
   "property": "C53",
   "status": "proved",
   "theorems": [
    "C53_all_is_new",
    "C53_nothing_remains",
    "C53_values",
    "C53_objective",
    "C53_bounds",
    "C53_names",
    "C53_succeeds",
    "C53_never_both",
    "C53_known_have_no_bounds",
    "C53_direction",
    "C53_objective_after_reset_refuted",
    "C53_order_refuted",
    "C53_supports_refuted"
   ],
   "note": "Refuted parts kept as theorems: C53_objective_after_reset_refuted, C53_order_refuted, C53_supports_refuted. Lists of names inside lists are not modelled."
  },
  {
   "property": "C54",
   "status": "proved",
   "theorems": [
    "C54_sdp_solution_is_current",
    "C54_lp_solution_is_current",
    "C54_lp_extra_refuted"
   ],
   "note": "Refuted part kept as theorem: C54_lp_extra_refuted. A solution is represented by the state it was computed for."
  },
  {
   "property": "C55",
   "status": "proved",
   "theorems": [
    "C55_values_in_steps",
    "C55_lp_succeeds",
    "C55_not_a_column_refuted",
    "C55_lpi_refuted"
   ],
   "note": "Both ways of giving the values are assumed to succeed (for linear programmes they do, C55_lp_succeeds). Refuted parts kept as theorems: C55_not_a_column_refuted, C55_lpi_refuted."
  },
  {
   "property": "C56",
   "status": "proved",
   "theorems": [
    "C56_any_order",
    "C56_bounds_in_the_end",
    "C56_acceptance_refuted"
   ],
   "note": "Both histories are assumed to succeed; success itself depends on the order (C56_acceptance_refuted)."
  },
  {
   "property": "C57",
   "status": "proved",
   "theorems": [
    "C57_reported_value",
    "C57_sdp_passes_it",
    "C57_only_if_feasible",
    "C57_small_coefficients_refuted"
   ],
   "note": "The solver is a parameter (what it returns is a hypothesis; see C26, C27 for the tasks). Small coefficients: C57_small_coefficients_refuted."
  },
  {
   "property": "C58",
   "status": "proved",
   "theorems": [
    "C58_two_modes",
    "C58_plain",
    "C58_relaxed",
    "C58_negative_value_means_infeasible",
    "C58_feas_as_optim_ignores_the_objective_refuted",
    "C58_nonnegativity_is_lost_refuted",
    "C58_sdp_objective"
   ],
   "note": "Refuted parts kept as theorems: C58_nonnegativity_is_lost_refuted, C58_feas_as_optim_ignores_the_objective_refuted. Hypothesis as in C25: lower bounds are not negative when the default non-negativity is on."
  },
  {
   "property": "C59",
   "status": "proved",
   "theorems": [
    "C59_lp",
    "C59_sdp",
    "C59_directories_refuted"
   ],
   "note": "Names without extension whose directory has a dot raise instead of using the documented default (C59_directories_refuted)."
  },
  {
   "property": "C60",
   "status": "proved",
   "theorems": [
    "C60_renaming",
    "C60_as_small_as_possible",
    "C60_same_pattern",
    "C60_shared_copies",
    "C60_only_same_pattern",
    "C60_idempotent",
    "C60_not_a_representative_refuted"
   ],
   "note": "The monomial is given by its columns, as the code transposes it. Not a representative of all renamings (C60_not_a_representative_refuted)."
  }
 ]
}