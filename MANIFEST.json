{
 "claims": [
  {
   "property": "C01",
   "status": "partial",
   "theorems": [
    "C01_marginal_counts_exact",
    "C01_marginal_counts_default",
    "C01_pad_zeros_full_refuted"
   ],
   "note": "Exact marginals and conservation proved for every valid dictionary and subset. Refuted part: pad_zeros=True is ignored when every qubit is kept (C01_pad_zeros_full_refuted)."
  },
  {
   "property": "C02",
   "status": "proved",
   "theorems": [
    "C02_marginal_counts_compose"
   ],
   "note": ""
  },
  {
   "property": "C03",
   "status": "partial",
   "theorems": [
    "C03_count_keys_enumerates_partial",
    "C03_count_keys_zero_refuted"
   ],
   "note": "Proved for every n >= 1. Refuted at n = 0: the only key is '0' (C03_count_keys_zero_refuted)."
  },
  {
   "property": "C04",
   "status": "partial",
   "theorems": [
    "C04_combine_counts_pointwise",
    "C04_combine_counts_comm_assoc",
    "C04_build_counts_sum",
    "C04_build_counts_order_irrelevant",
    "C04_combine_counts_effect",
    "C04_combine_counts_modifies_argument_refuted"
   ],
   "note": "All algebraic laws proved. Refuted part: combine_counts overwrites its first argument (C04_combine_counts_modifies_argument_refuted); C04_combine_counts_effect gives the exact effect."
  },
  {
   "property": "C05",
   "status": "partial",
   "theorems": [
    "C05_expectation_counts_reversed_partial",
    "C05_expectation_counts_key_order_refuted",
    "C05_expectation_counts_identity_key_refuted"
   ],
   "note": "Refuted: keys are bit-reversed and the identity key is always '00'. C05_expectation_counts_reversed_partial states exactly what is returned."
  },
  {
   "property": "C06",
   "status": "proved",
   "theorems": [
    "C06_circuits_read_back_label",
    "C06_tensored_succeeds",
    "C06_default_register",
    "C06_whole_register",
    "C06_complete_read_back"
   ],
   "note": ""
  },
  {
   "property": "C07",
   "status": "proved",
   "theorems": [
    "C07_labels_complete",
    "C07_repeated_qubit_rejected",
    "C07_no_input_rejected"
   ],
   "note": ""
  },
  {
   "property": "C08",
   "status": "partial",
   "theorems": [
    "C08_matrices_are_frequencies",
    "C08_no_error",
    "C08_columns_stochastic_or_zero",
    "C08_order_and_batching_irrelevant",
    "C08_noiseless_calibration_is_identity",
    "C08_wide_register_refuted",
    "C08_repeated_name_refuted"
   ],
   "note": "Proved for every history and data set with distinct circuit names per result and classical register of exactly the calibrated qubits. Refuted outside that: a larger classical register makes noiseless data fit to a wrong matrix; a circuit name repeated in one result is counted twice from its first occurrence."
  },
  {
   "property": "C09",
   "status": "proved",
   "theorems": [
    "C09_filter_undoes_noise",
    "C09_filter_keeps_shots",
    "C09_tensored_undoes_noise",
    "C09_tensored_keeps_shots"
   ],
   "note": ""
  },
  {
   "property": "C10",
   "status": "partial",
   "theorems": [
    "C10_unknown_label_rejected",
    "C10_bad_length_rejected",
    "C10_unknown_method_rejected",
    "C10_unknown_method_empty_list_refuted",
    "C10_blocks_independent",
    "C10_dict_matches_list"
   ],
   "note": "All rejections, block independence and dict/list agreement proved; refuted: an unknown method is not rejected for an empty list."
  },
  {
   "property": "C11",
   "status": "partial",
   "theorems": [
    "C11_subset_calibrates_mirrored_qubits",
    "C11_subset_symmetric_partial",
    "C11_subset_refuted"
   ],
   "note": "Refuted: subset_fitter returns the calibration of the qubits in mirrored positions. C11_subset_calibrates_mirrored_qubits states what is returned; C11_subset_symmetric_partial gives the condition under which it is right."
  },
  {
   "property": "C12",
   "status": "proved",
   "theorems": [
    "C12_fidelity_is_mean_diagonal",
    "C12_fidelity_in_unit_interval",
    "C12_noiseless_fidelity_is_one",
    "C12_no_calibration_rejected"
   ],
   "note": ""
  },
  {
   "property": "C13",
   "status": "proved",
   "theorems": [
    "C13_noiseless_code_is_trivial"
   ],
   "note": "All distances and rounds. The simulator is modelled as exact basis-state execution (BasisSem.v)."
  },
  {
   "property": "C14",
   "status": "proved",
   "theorems": [
    "C14_single_fault_zero_or_two_nodes",
    "C14_graph_construction_succeeds",
    "C14_graph_connected",
    "C14_logical_nodes_distance_d"
   ],
   "note": "All distances and rounds. Also: the graph constructor never hits its assertion, the graph is connected, and its logical nodes are exactly d edges apart."
  },
  {
   "property": "C15",
   "status": "proved",
   "theorems": [
    "C15_matching_corrects_few_faults",
    "C15_no_logical_errors",
    "C15_contracts_satisfiable"
   ],
   "note": "All distances, rounds and sets of fewer than d/2 Pauli faults, for every shortest-path and maximum-weight-matching routine that meets its contract; both contracts are shown satisfiable. weight_syndrome_graph is not modelled."
  },
  {
   "property": "C16",
   "status": "proved",
   "theorems": [
    "C16_matching_statistics",
    "C16_postselection_statistics",
    "C16_selected_iff_trivial_syndrome",
    "C16_lookup_statistics",
    "C16_proportions",
    "C16_no_shots_rejected"
   ],
   "note": "Ratios are kept as (numerator, denominator)."
  },
  {
   "property": "C17",
   "status": "partial",
   "theorems": [
    "C17_never_wrong",
    "C17_never_wrong_any",
    "C17_product_is_composition_partial",
    "C17_product_is_composition_sorted_sets",
    "C17_product_refuted",
    "C17_union_order",
    "C17_rmul_partial",
    "C17_rmul_refuted"
   ],
   "note": "Exact for every n <= 8 with a model of CPython's set tables, and for every n if sets iterate in increasing order; for every n and any order of the sets the product is exact or QiskitError, never wrong (C17_never_wrong). It does raise for every n >= 9 (mul_monomial relies on the iteration order of a set): refuted. __rmul__ uses the wrong shift: refuted, equal to __mul__ when shifts agree."
  },
  {
   "property": "C18",
   "status": "partial",
   "theorems": [
    "C18_cnot",
    "C18_flip",
    "C18_phase",
    "C18_append_circuit_partial",
    "C18_from_circuit_partial",
    "C18_circuit_name_refuted",
    "C18_t_s_refuted",
    "C18_u1_truncated_refuted"
   ],
   "note": "Proved for cnot, flip, phase (any integer power) and for circuits over x, y, z, u1(k pi/4), cx, cz, id not named like a gate. Refuted: circuits named like a gate, gates t/s/tdg/sdg refused, angles truncated."
  },
  {
   "property": "C19",
   "status": "partial",
   "theorems": [
    "C19_union",
    "C19_never_wrong",
    "C19_addition",
    "C19_scalar",
    "C19_multiplication_partial",
    "C19_multiplication_sorted_sets_partial",
    "C19_low_small",
    "C19_multiplication_refuted",
    "C19_normal_form",
    "C19_slots",
    "C19_value_of_terms",
    "C19_evaluate_integers_refuted"
   ],
   "note": "Addition, scalar multiples, uniqueness of coefficients and slots proved for all n. Multiplication exact at points where monomials of degree >= 4 vanish (all points for n <= 3), or QiskitError (only for n >= 9), for all n; refuted in general; evaluate on integers always raises. CPython's union of index sets lists every element once."
  },
  {
   "property": "C20",
   "status": "partial",
   "theorems": [
    "C20_decompose_partial",
    "C20_global_phase_refuted"
   ],
   "note": "All n, all valid elements without global phase (two-qubit synthesis by exhaustive case analysis inside the proof). Refuted for products with a global phase, which decompose refuses."
  },
  {
   "property": "C21",
   "status": "partial",
   "theorems": [
    "C21_compose_never_wrong",
    "C21_dot_never_wrong",
    "C21_compose_partial",
    "C21_dot_partial",
    "C21_compose_sorted_sets",
    "C21_tensor_partial",
    "C21_expand_partial",
    "C21_tensor_order_refuted",
    "C21_adjoint_partial",
    "C21_adjoint_cancels_partial",
    "C21_conjugate_partial",
    "C21_transpose_partial",
    "C21_adjoint_refuted"
   ],
   "note": "compose/dot for n <= 8 (all n with sorted sets) up to global phase, and for all n right or QiskitError; adjoint/conjugate/transpose for elements without global phase. tensor/expand proved with self/other placed opposite to the matrix convention: refuted."
  },
  {
   "property": "C22",
   "status": "proved",
   "theorems": [
    "C22_circuits_are_identities",
    "C22_ground_state_returns",
    "C22_valid_arguments_accepted",
    "C22_dihedral_group_lawful",
    "C22_dihedral_sequences"
   ],
   "note": "For any group meeting the stated contract (lawful: circuits of composed elements act as the composition; inverse circuits undo). The contract is proved for the CNOT-dihedral group of dihedral.py on one to eight qubits; for the Clifford group of Terra it is a hypothesis, as Terra is outside this repository."
  },
  {
   "property": "C23",
   "status": "partial",
   "theorems": [
    "C23_circuits_follow_the_draws",
    "C23_xdata_counts_elements",
    "C23_one_circuit_per_length_partial",
    "C23_one_circuit_per_length_refuted",
    "C23_names_distinct",
    "C23_names_looked_up"
   ],
   "note": "Circuits, counts and names are as expected for all arguments. Refuted: with a zero, descending or repeated length, circuits are silently missing while xdata still lists the length; the count of circuits is proved for ascending positive lengths."
  },
  {
   "property": "C24",
   "status": "partial",
   "theorems": [
    "C24_pattern_accepted_iff",
    "C24_pattern_values",
    "C24_multiplier_sequence_iff",
    "C24_multiplier_scalar",
    "C24_multiplier_scalar_refuted",
    "C24_group_names_iff",
    "C24_group_names_refuted"
   ],
   "note": "Patterns and sequences of multipliers are accepted exactly as documented. Refuted: scalar multipliers are not checked (negative, zero, fractional), and a missing comma in rb_groups.py refuses 'NonClifford' and 'CNOTDihedral'."
  },
  {
   "property": "C25",
   "status": "partial",
   "theorems": [
    "C25_purity_estimate",
    "C25_bases_per_pauli",
    "C25_purity_consistent",
    "C25_purity_order_refuted",
    "C25_bases_enumerated",
    "C25_purity_circuits",
    "C25_rotations_measure",
    "C25_letters_refuted"
   ],
   "note": "Every choice of bases occurs exactly once, and circuits carry the rotations of their letters; the purity estimate is the sum over Pauli strings of squared means over the bases measuring them, given results in the order of the bases. Refuted: the letters X and Y are swapped (rx(pi/2) measures Y); results in another order silently give a wrong purity."
  },
  {
   "property": "C26",
   "status": "partial",
   "theorems": [
    "C26_gates_per_clifford",
    "C26_denominator",
    "C26_order_free",
    "C26_malformed_refused",
    "C26_count_gates",
    "C26_repeated_qubit_refuted",
    "C26_bad_arguments_refuted",
    "C26_count_repeated_basis_refuted"
   ],
   "note": "The averages are proved for lists of distinct qubits and gates; refuted: repeated qubits or gates are divided twice, an empty list raises IndexError, no lengths give nan, a number of circuits other than the number of lengths is accepted. Qubits are their indices in their registers, as in the code, so circuits with several registers mix their qubits."
  },
  {
   "property": "C27",
   "status": "partial",
   "theorems": [
    "C27_epc_1q",
    "C27_epc_2q",
    "C27_two_functions_agree",
    "C27_error_free_1q",
    "C27_error_free_2q",
    "C27_range_1q",
    "C27_range_2q",
    "C27_roundtrip_2q",
    "C27_roundtrip_2q_exact",
    "C27_roundtrip_2q_below",
    "C27_roundtrip_2q_first_order",
    "C27_roundtrip_1q",
    "C27_roundtrip_1q_exact",
    "C27_roundtrip_1q_first_order",
    "C27_epg_1q_adds_up",
    "C27_roundtrip_refuted",
    "C27_errors_refuted",
    "C27_errors",
    "C27_coherence_limit",
    "C27_coherence_defined",
    "C27_coherence_error",
    "C27_coherence_range",
    "C27_coherence_monotone",
    "C27_coherence_instant"
   ],
   "note": "Reals for floats, nonnegative bases of powers. Proved: meaning, ranges, zero errors, what a conversion and its inverse give (exact for one gate per Clifford, first order otherwise), coherence limit (average infidelity of independent relaxation, range, monotone). Refuted: the conversions are not mutually inverse for other gate counts; KeyError instead of the documented QiskitError for a missing first qubit; division by zero; a list of single-qubit errors shorter than the pair is ignored."
  },
  {
   "property": "C28",
   "status": "partial",
   "theorems": [
    "C28_history",
    "C28_defined",
    "C28_wrapped",
    "C28_wrapped_refuted",
    "C28_default_pattern_refuted"
   ],
   "note": "Proved for RBFitter for all histories, and for the interleaved and CNOT-dihedral fitters right after construction. Refuted for the latter after a further add_data: the results given to the constructor are stored twice and weigh double; rb_pattern=None raises TypeError."
  },
  {
   "property": "C29",
   "status": "proved",
   "theorems": [
    "C29_mean_and_variance",
    "C29_parity_any_keys",
    "C29_bounds",
    "C29_deviation_defined",
    "C29_zero_shots"
   ],
   "note": "Squared standard deviation modelled (the code takes its square root); rational arithmetic instead of floats."
  },
  {
   "property": "C30",
   "status": "partial",
   "theorems": [
    "C30_plain",
    "C30_remapped",
    "C30_every_outcome",
    "C30_clbits_order_refuted"
   ],
   "note": "C30_clbits_order_refuted: a list of classical bits that is not increasing is silently sorted by the marginalisation, so qubits[i] is not the qubit measured into clbits[i]. Proved for the counts after selection."
  },
  {
   "property": "C31",
   "status": "partial",
   "theorems": [
    "C31_mitigated_observable",
    "C31_exact",
    "C31_gamma",
    "C31_overhead",
    "C31_matrix_partial",
    "C31_fidelity",
    "C31_gamma_negative_refuted",
    "C31_subset_matrix_refuted",
    "C31_surplus_refuted"
   ],
   "note": "Inverses of 2x2 matrices are exact (pinv only a parameter for singular ones). C31_matrix_partial: matrices reported for subsets other than prefixes are wrong (C31_subset_matrix_refuted), gamma wrong for flip probabilities above 1/2 (C31_gamma_negative_refuted), surplus matrices without a qubit list (C31_surplus_refuted)."
  },
  {
   "property": "C32",
   "status": "partial",
   "theorems": [
    "C32_exact_rearranged",
    "C32_exact_sorted",
    "C32_exact_parity",
    "C32_exact_no_list",
    "C32_whole_register",
    "C32_identity",
    "C32_as_listed_sorted",
    "C32_as_listed_parity",
    "C32_gamma",
    "C32_permuted_refuted"
   ],
   "note": "np.linalg.inv is a parameter assumed to return a left inverse. C32_permuted_refuted: observables on lists that are not increasing are evaluated on the wrong qubits."
  },
  {
   "property": "C33",
   "status": "proved",
   "theorems": [
    "C33_local",
    "C33_full",
    "C33_full_is_decreasing_list"
   ],
   "note": "First listed qubit is the most significant bit, opposite to counts_probability_vector (see DESIGN.md section 4)."
  },
  {
   "property": "C34",
   "status": "partial",
   "theorems": [
    "C34_generator_markov",
    "C34_kept_rates",
    "C34_sampling_stochastic",
    "C34_exponential_converges",
    "C34_mixture_inverts",
    "C34_estimate",
    "C34_step_unique",
    "C34_samples",
    "C34_standard_generators",
    "C34_reported_complemented",
    "C34_reported_matrix_refuted",
    "C34_no_qubits"
   ],
   "note": "Generator matrix is the rate matrix and Markov, B column stochastic, signed Poisson mixture converges to exp(-G) and inverts exp(G), estimate formula for all draws, standard set characterised. Partial: the matrices reported by assignment_matrix/mitigation_matrix are those of the bit-complemented process (np.flip), refuted to be the noise inverted by the sampler."
  },
  {
   "property": "C35",
   "status": "partial",
   "theorems": [
    "C35_fitted_rates_partial",
    "C35_standard_fit_partial",
    "C35_bad_pair_refused",
    "C35_one_qubit_ignored",
    "C35_single_qubit_rate_refuted"
   ],
   "note": "Rates for two-qubit generators are proved to belong to their transitions; for single-qubit generators the fitter averages the rates of the opposite flip, refuted with calibration data of an asymmetric error. With one qubit all rates are nan and dropped."
  },
  {
   "property": "C36",
   "status": "partial",
   "theorems": [
    "C36_distribution_preserved",
    "C36_no_failure",
    "C36_corrected_counts",
    "C36_other_measurements_refuted"
   ],
   "note": "proved for all circuits, pads and outcomes when qubit q is measured into classical bit q, for all qubits; refuted for partial or permuted measurements (the correction is ordered by qubit)."
  },
  {
   "property": "C37",
   "status": "partial",
   "theorems": [
    "C37_layers_preserve",
    "C37_no_failure",
    "C37_other_gates_refused",
    "C37_early_measurement_refuted"
   ],
   "note": "proved for circuits over u1, u2, u3, cx with measurements last; a measurement before the end is silently moved to the end (C37_early_measurement_refuted)."
  },
  {
   "property": "C38",
   "status": "partial",
   "theorems": [
    "C38_traps_return_zeros",
    "C38_no_failure",
    "C38_noiseless_run_accepted",
    "C38_other_measurements_refuted"
   ],
   "note": "proved when qubit q is measured into classical bit q, for all qubits; refuted for permuted measurements."
  },
  {
   "property": "C39",
   "status": "partial",
   "theorems": [
    "C39_single_run",
    "C39_accepted_count",
    "C39_acc_le_runs",
    "C39_bound_range",
    "C39_bound_value",
    "C39_malformed_refuted",
    "C39_independent_refuted",
    "C39_stale_bound_refuted"
   ],
   "note": "accepted count, bound in [0,1] and its value proved for all histories; 'malformed data is rejected' and 'fitters are independent' are refuted, and the bound can be stale."
  },
  {
   "property": "C40",
   "status": "proved",
   "theorems": [
    "C40_ghz_state",
    "C40_ghz_succeeds",
    "C40_ghz_outcomes",
    "C40_ghz_first_qubit",
    "C40_mqc_ground"
   ],
   "note": "All n, all rational phases; gates by their matrices over the complex numbers. The circuits' u1/h/cx/x gates are external to the repository: their matrices are a hypothesis (std_gates, u1_phase), shown to hold for the usual gates."
  },
  {
   "property": "C41",
   "status": "partial",
   "theorems": [
    "C41_tiers_partial",
    "C41_order",
    "C41_layout_partial",
    "C41_repeated_pair_refuted",
    "C41_distance_refuted",
    "C41_qubit_0_refuted",
    "C41_too_many_qubits_refuted",
    "C41_one_qubit_refuted"
   ],
   "note": "Proved for coupling maps without repeated pairs in which qubit 0 is coupled, for qubits at distance at most 51 from the root and n >= 2. The code fails the unrestricted statement: repeated pairs make a qubit a target twice, the loop stops after 51 rounds, qubit 0 must be coupled (KeyError), n = 1 raises IndexError, and too large n silently leaves idle qubits. Transpilation is not modelled."
  },
  {
   "property": "C42",
   "status": "proved",
   "theorems": [
    "C42_heavy_outputs",
    "C42_median_unique",
    "C42_ideal_accepted"
   ],
   "note": "proved for every sequence of fitter calls; probability at least one half is proved strictly, relative to the total probability of the statevector"
  },
  {
   "property": "C43",
   "status": "partial",
   "theorems": [
    "C43_heavy_counts",
    "C43_means",
    "C43_verdict",
    "C43_threshold",
    "C43_verdict_any_erf",
    "C43_ideal_twice",
    "C43_ideal_twice_error",
    "C43_data_early",
    "C43_data_early_error",
    "C43_rejected_data_kept_refuted",
    "C43_data_twice_refuted",
    "C43_missing_trial_refuted",
    "C43_volume"
   ],
   "note": "verdict, means, bounds on heavy counts and both rejections are proved; refuted: rejected data stays in the fitter and counts later, and adding the same data twice is accepted"
  },
  {
   "property": "C44",
   "status": "partial",
   "theorems": [
    "C44_gst_circuits",
    "C44_gst_add_gate_refuted",
    "C44_state_circuits",
    "C44_process_circuits",
    "C44_defaults",
    "C44_tuples",
    "C44_tuples_refuted"
   ],
   "note": "The circuits are as stated; refuted are the documented order of tomography_circuit_tuples (pairs come as (preparation, measurement)) and GateSetBasis.add_gate with a label in use (two circuits of one name)."
  },
  {
   "property": "C45",
   "status": "proved",
   "theorems": [
    "C45_pauli_measurement",
    "C45_pauli_povm",
    "C45_preparation",
    "C45_states",
    "C45_sic",
    "C45_labels"
   ],
   "note": ""
  },
  {
   "property": "C46",
   "status": "proved",
   "theorems": [
    "C46_state_row",
    "C46_process_row",
    "C46_state_system",
    "C46_process_system",
    "C46_isometric"
   ],
   "note": ""
  },
  {
   "property": "C47",
   "status": "proved",
   "theorems": [
    "C47_spectrum",
    "C47_threshold",
    "C47_nonnegative",
    "C47_matrix",
    "C47_fit_physical",
    "C47_negative_sum"
   ],
   "note": "Proved for spectra of non-negative sum, as stated; C47_negative_sum shows that a negative sum is lost."
  },
  {
   "property": "C48",
   "status": "proved",
   "theorems": [
    "C48_partial_trace",
    "C48_shape"
   ],
   "note": ""
  },
  {
   "property": "C49",
   "status": "proved",
   "theorems": [
    "C49_inversion",
    "C49_exact",
    "C49_gauge",
    "C49_objective",
    "C49_objective_minimum"
   ],
   "note": ""
  },
  {
   "property": "C50",
   "status": "partial",
   "theorems": [
    "C50_history_partial",
    "C50_results_refuted",
    "C50_state_registers_refuted",
    "C50_missing",
    "C50_missing_refuted"
   ],
   "note": "Calls are pooled. Refuted: several results in one call (only the last that has the circuit is used), state tomography with further registers (only the first bit is kept), a missing circuit given by name (AttributeError)."
  },
  {
   "property": "C51",
   "status": "partial",
   "theorems": [
    "C51_training_partial",
    "C51_lengths",
    "C51_default",
    "C51_add_data",
    "C51_training_refuted",
    "C51_average_refuted",
    "C51_counts_partial",
    "C51_end_to_end",
    "C51_base",
    "C51_zero_labels",
    "C51_counts_refuted",
    "C51_same_name_refuted"
   ],
   "note": "Proved for schedules measured shot by shot in exactly one experiment and filtered experiments with distinct names. Refuted otherwise: the same calibration in two results gives more labels than data, averaged data give one label per qubit, averaged data and equal experiment names misassign predictions (C51_*_refuted). Classifier and scaler are parameters with stated contracts."
  },
  {
   "property": "C52",
   "status": "partial",
   "theorems": [
    "C52_read_partial",
    "C52_order",
    "C52_date",
    "C52_history_partial",
    "C52_rotation",
    "C52_console_partial",
    "C52_config_partial",
    "C52_parse",
    "C52_settings",
    "C52_read_refuted",
    "C52_line_refuted",
    "C52_sequence_refuted",
    "C52_rotation_refuted",
    "C52_size_refuted",
    "C52_console_refuted",
    "C52_config_refuted",
    "C52_files_refuted",
    "C52_disabled",
    "C52_warning",
    "C52_no_file"
   ],
   "note": "Proved for keys and values without blanks (and keys without ':' or outer quotes), any history, any number of loggers without rotation and one writing logger with rotation. Refuted otherwise: values with blanks such as the documented qubits=[1,2,4] are split, a line feed makes dated reads fail, two loggers with rotation lose or reorder rows, max_size without max_rotations has no effect, repeated get_logger prints rows, paths are lower-cased and cut at ':'."
  },
  {
   "property": "C53",
   "status": "partial",
   "theorems": [
    "C53_t1",
    "C53_t2_partial",
    "C53_t2_refuted",
    "C53_t2_refused",
    "C53_t2star",
    "C53_t2star_still",
    "C53_zz"
   ],
   "note": "T1, T2* and ZZ hold for every detuning, length and qubit list. T2: outcome 0 only for an odd number of Y pulses; for an even number (e.g. n_echos=2) perfect gates end in 1 while T2Fitter counts 0 (C53_t2_refuted)."
  },
  {
   "property": "C54",
   "status": "proved",
   "theorems": [
    "C54_data",
    "C54_order",
    "C54_missing"
   ],
   "note": "Data equal the pooled fractions after any history of added results; a circuit missing from all results leaves no data (StopIteration)."
  },
  {
   "property": "C55",
   "status": "proved",
   "theorems": [
    "C55_processing_keeps_every_outcome",
    "C55_processing_injective"
   ],
   "note": ""
  },
  {
   "property": "C56",
   "status": "proved",
   "theorems": [
    "C56_random_element_valid",
    "C56_random_element_onto"
   ],
   "note": "The matrices drawn are an argument; termination of the drawing loop is the hypothesis that an invertible matrix occurs."
  },
  {
   "property": "C57",
   "status": "proved",
   "theorems": [
    "C57_zero_cnot_dictionary",
    "C57_next_dictionary"
   ],
   "note": "Completeness (all group elements eventually listed) is not proved."
  },
  {
   "property": "C58",
   "status": "partial",
   "theorems": [
    "C58_positive_seed",
    "C58_no_seed",
    "C58_zero_seed_refuted"
   ],
   "note": "Proved for positive seeds and for no seed. Refuted for rand_seed=0: all the elements are drawn with the same seed (and negative seeds can reach 0)."
  },
  {
   "property": "C59",
   "status": "proved",
   "theorems": [
    "C59_circuits",
    "C59_complete_labels",
    "C59_tensored_labels",
    "C59_ctmp_labels",
    "C59_unknown_method",
    "C59_calibration_data",
    "C59_fit_tensored"
   ],
   "note": ""
  },
  {
   "property": "C60",
   "status": "proved",
   "theorems": [
    "C60_po_outcomes",
    "C60_po_mean_parity",
    "C60_parity_of_counts",
    "C60_no_qubits"
   ],
   "note": "All n and all rational phases; parity of counts for any dictionary over n-bit outcomes."
  },
  {
   "property": "C61",
   "status": "partial",
   "theorems": [
    "C61_all_circuits",
    "C61_names",
    "C61_circuit_partial",
    "C61_outcomes_partial",
    "C61_seeded",
    "C61_placement_refuted",
    "C61_descending_refuted",
    "C61_same_depth_refuted",
    "C61_seed_zero_refuted"
   ],
   "note": "partial: agreement with the ideal circuit is proved for ascending qubit lists whose gates touch every qubit; refuted for descending lists, for lists whose largest qubit equals their length (run on other qubits), and equal depths give equal names; seed 0 is no seed"
  },
  {
   "property": "C62",
   "status": "proved",
   "theorems": [
    "C62_complete",
    "C62_state",
    "C62_process",
    "C62_state_data"
   ],
   "note": "lstsq and eigh are parameters with the contract that they minimise the residual and diagonalise; the method cvx is not modelled."
  },
  {
   "property": "C63",
   "status": "partial",
   "theorems": [
    "C63_ampcal",
    "C63_anglecal",
    "C63_anglecal_artificial",
    "C63_anglecal_refuted",
    "C63_ampcx",
    "C63_anglecx",
    "C63_controls"
   ],
   "note": "Holds for ampcal, anglecal without artificial error, ampcal_cx and anglecal_cx (with or without artificial error). anglecal_1Q with an artificial angleerr uses a final U1(-err) inconsistent with the fitted function: no parameters fit (C63_anglecal_refuted)."
  },
  {
   "property": "C64",
   "status": "partial",
   "theorems": [
    "C64_decoding",
    "C64_encoding",
    "C64_states",
    "C64_states_refuted",
    "C64_hermitian_refuted",
    "C64_root"
   ],
   "note": "Encoding and decoding proved for every number of qubits. Refuted part: effect and state are made positive as lists of Pauli coefficients read as a matrix, so |1> and |+> cannot be expressed and feasible vectors can have non-Hermitian operators."
  },
  {
   "property": "C65",
   "status": "partial",
   "theorems": [
    "C65_constraints",
    "C65_trace",
    "C65_trace_refuted",
    "C65_feasible"
   ],
   "note": "Exact characterisation of all the constraints. Refuted part: the trace constraint raises ValueError for any number of qubits but one."
  },
  {
   "property": "C66",
   "status": "proved",
   "theorems": [
    "C66_objective",
    "C66_fit"
   ],
   "note": "The whole fit, with contracts for inv, schur and the optimiser stated only for the problem at hand; the truth must be expressible (see C64)."
  },
  {
   "property": "C67",
   "status": "partial",
   "theorems": [
    "C67_gauge",
    "C67_best_gauge",
    "C67_start_refuted",
    "C67_spam_matrix",
    "C67_spam_matrix_refuted"
   ],
   "note": "Refuted parts: the gauge search starts at the inverse of the optimal gauge; spam_matrix multiplies in the reverse order of the circuit."
  },
  {
   "property": "C68",
   "status": "proved",
   "theorems": [
    "C68_fit",
    "C68_t1",
    "C68_t2",
    "C68_t2star",
    "C68_zz",
    "C68_time"
   ],
   "note": "Noise is exact amplitude damping, dephasing and detuning during identity gates; other gates are instantaneous and perfect; shot data are taken exactly at the predicted probabilities. curve_fit is a parameter assumed only to return a least-squares optimum on the data at hand."
  },
  {
   "property": "C69",
   "status": "partial",
   "theorems": [
    "C69_average",
    "C69_missing",
    "C69_accepts",
    "C69_single_refuted",
    "C69_projection",
    "C69_affine",
    "C69_signal",
    "C69_maximum_refuted",
    "C69_constant"
   ],
   "note": "Averaging, refusals, projection and signal are proved. Partial because two documented expectations fail: single-shot data always raise (C69_single_refuted, C69_accepts), and the projection is not the one of maximum signal (C69_maximum_refuted). A qubit with constant signal gives nans and a ValueError of the fit (C69_constant). Lists of memory of different lengths are a ValueError; numpy broadcasting of length-1 lists is not modelled."
  },
  {
   "property": "C70",
   "status": "proved",
   "theorems": [
    "C70_rabi_schedules",
    "C70_drag_schedules",
    "C70_rabi",
    "C70_drag",
    "C70_update",
    "C70_update_ok",
    "C70_update_again",
    "C70_width",
    "C70_rabi_width",
    "C70_given_pulses",
    "C70_given_plays"
   ],
   "note": "Proved for exact pulses: samples and qiskit.pulse checks are not modelled, the measurement schedule, scipy's curve_fit and the order of a set are parameters. shifts_once (no channel shifted twice at the same time by the same phase in the old schedule) is needed for U2 and U3. The fitters read the memory slot by the position in qubits; runs_of assumes results in that order. get_single_q_pulse and guess_params are not modelled."
  },
  {
   "property": "C71",
   "status": "partial",
   "theorems": [
    "C71_fit",
    "C71_benchmark",
    "C71_interleaved",
    "C71_purity",
    "C71_purity_epc_refuted",
    "C71_dihedral",
    "C71_epc_err_refuted",
    "C71_purity_err_refuted",
    "C71_dihedral_err_refuted",
    "C71_guess",
    "C71_guess_refuted"
   ],
   "note": "Exact data (C71_fit), depolarising gates (C71_benchmark, C71_interleaved, C71_purity), Pauli channels (C71_dihedral) and the start of the fit (C71_guess) are proved. Refuted parts: the errors of epc, of the purity exponent and pepc, and of the CNOT-dihedral alpha are not the propagated ones (divided by alpha once too often, or the root of the wrong number); the 'epc' beside 'pepc' is too large; data that are exactly a curve within the bounds but decay below 1/2^n can be rejected with a ValueError (C71_guess_refuted). curve_fit is a parameter with a least-squares contract for the data at hand."
  },
  {
   "property": "C72",
   "status": "partial",
   "theorems": [
    "C72_problem",
    "C72_objective",
    "C72_fit",
    "C72_state",
    "C72_process",
    "C72_attempts",
    "C72_solver",
    "C72_max_iters_refuted",
    "C72_shapes",
    "C72_trace_conflict",
    "C72_physical"
   ],
   "note": "Refuted: max_iters does not bound the iterations asked of the solver (C72_max_iters_refuted, C72_attempts says what is asked). Everything else is proved, for a solver whose accepted values are an optimum of the problem."
  },
  {
   "property": "C73",
   "status": "partial",
   "theorems": [
    "C73_po_fidelity",
    "C73_phases_refuted",
    "C73_mqc_fidelity_partial",
    "C73_raw_fidelity_refuted",
    "C73_upper_bound_refuted",
    "C73_circuit_signals",
    "C73_rho_fidelity",
    "C73_rho_phase_refuted"
   ],
   "note": "Parity oscillations and rho_to_fidelity proved for all states. Partial: for multiple quantum coherence the raw fidelity uses the mitigated populations and the upper bound fails for states that flipping every qubit changes (refuted with witnesses); the theorem gives the exact offset and proves the rest. The signals are stated by the Born rule and shown equal to those of the circuit model for the GHZ state."
  },
  {
   "property": "C74",
   "status": "proved",
   "theorems": [
    "C74_filter_best",
    "C74_filter_recovers",
    "C74_filter_error_bound",
    "C74_start_irrelevant",
    "C74_start",
    "C74_agrees_with_inverse",
    "C74_list_best",
    "C74_solvable",
    "C74_tensored_best",
    "C74_tensored_recovers",
    "C74_tensored_error_bound",
    "C74_tensored_matches_filter",
    "C74_tensored_solvable",
    "C74_result_form"
   ],
   "note": "The minimiser (scipy SLSQP) is a parameter with the contract that it solves the problem at hand; C74_solvable and C74_tensored_solvable show that the contract can be met for all counts. Real SLSQP stops at a tolerance of 1e-6. Documented method None is refused (C10_unknown_method_rejected)."
  },
  {
   "property": "C75",
   "status": "partial",
   "theorems": [
    "C75_t2star",
    "C75_t2star_decay",
    "C75_amplitude_refuted",
    "C75_phase_refuted",
    "C75_rabi",
    "C75_rabi_projected",
    "C75_rabi_offset_refuted",
    "C75_drag",
    "C75_drag_refuted",
    "C75_ampcal",
    "C75_ngates"
   ],
   "note": "Partial because the code falls short in four places, each with a _refuted theorem: guessed amplitude includes the offset, phase counted from the first delay, Rabi frequency 0 on data with an offset, one-sided DRAG sweeps. Positive theorems: T2* (noise, slow decay), Rabi (small offset, projected IQ data), DRAG on symmetric sweeps, amplitude calibration to third order, time_to_ngates. Frequencies off the Fourier grid are not covered."
  },
  {
   "property": "C76",
   "status": "partial",
   "theorems": [
    "C76_best",
    "C76_exact",
    "C76_total",
    "C76_improves",
    "C76_stale_refuted",
    "C76_order_refuted",
    "C76_readback_refuted",
    "C76_roundtrip_refuted"
   ],
   "note": "least_squares, pulse samples and the drag envelope are parameters; that the optimizer finds a minimum is a hypothesis on the actual problem (C76_best, C76_exact), and only that it does not get worse in C76_improves. Refuted: a qubit whose u2 plays nothing gets the pulse of the qubit before it; the list is by position, update_u_gates indexes by qubit number; written pulses are read back as zero pulses; read and written back, a device pulse changes sign (phase convention of qiskit.pulse)."
  },
  {
   "property": "C77",
   "status": "partial",
   "theorems": [
    "C77_unbiased",
    "C77_required_shots",
    "C77_complete",
    "C77_least",
    "C77_counts",
    "C77_scale_refuted"
   ],
   "note": "Exact rational arithmetic; shots are independent outcomes with rational probabilities. For the tensored mitigator the readout errors of each qubit sum to less than 1 (otherwise gamma is not a norm, C31_gamma_negative_refuted); for the complete mitigator np.linalg.inv is a parameter that must invert the matrix. Refuted: observables with values beyond +-1."
  },
  {
   "property": "C78",
   "status": "partial",
   "theorems": [
    "C78_entries_partial",
    "C78_unitary_partial",
    "C78_compose_partial",
    "C78_adjoint_partial",
    "C78_transpose_partial",
    "C78_conjugate_partial",
    "C78_expand_partial",
    "C78_tensor_partial",
    "C78_tensor_refuted",
    "C78_faithful_partial",
    "C78_product_refuted"
   ],
   "note": "Proved for every element without global phase on any number of qubits, up to global phase; elements with a global phase cannot be decomposed and so have no matrix, and tensor has the factors in the wrong order: both refuted."
  },
  {
   "property": "C79",
   "status": "proved",
   "theorems": [
    "C79_circuits_unitary",
    "C79_circuits_multiply",
    "C79_parts",
    "C79_closes",
    "C79_standard",
    "C79_interleaved",
    "C79_purity",
    "C79_dihedral",
    "C79_embedding"
   ],
   "note": "Composition of C22, C23 and C71 over the matrices of the generated circuits; depolarising noise after every element, exact averages. C79_example is a complete one-qubit run."
  },
  {
   "property": "C80",
   "status": "partial",
   "theorems": [
    "C80_polynomial_key",
    "C80_element_key",
    "C80_polynomial_string",
    "C80_polynomial_string_distinct_partial",
    "C80_polynomial_string_distinct_refuted",
    "C80_element_string",
    "C80_element_string_distinct",
    "C80_zero_row"
   ],
   "note": "Partial for polynomials in different numbers of variables, which may print alike although they differ (refuted); within one number of variables, for elements of any sizes, and for keys of both, all is proved."
  },
  {
   "property": "C81",
   "status": "proved",
   "theorems": [
    "C81_traps_detect",
    "C81_outcome_determined",
    "C81_quarter_is_reached",
    "C81_readout_errors_hide",
    "C81_run_rarely_accepted"
   ],
   "note": "Errors are Pauli gates inserted after the two-qubit layers, at the preparation and at the readout. The bound of a quarter holds with exact readout and is reached; with wrong readings some errors are never seen (C81_readout_errors_hide). C81_run_rarely_accepted carries the bound to whole runs of the fitter, for a given position of the target."
  },
  {
   "property": "C82",
   "status": "partial",
   "theorems": [
    "C82_released",
    "C82_development",
    "C82_valid",
    "C82_distinct",
    "C82_killed_refuted",
    "C82_environment",
    "C82_other_variables",
    "C82_setup"
   ],
   "note": "Validity holds when git fails with a positive return code or tells the commit; a git killed by a signal is taken for success (C82_killed_refuted). setup.py agrees exactly when the file does not begin with blanks (C82_setup)."
  },
  {
   "property": "C83",
   "status": "proved",
   "theorems": [
    "C83_struck_and_accepted",
    "C83_bound_holds",
    "C83_constant"
   ],
   "note": "For Pauli errors after the two-qubit layers, wrong preparations and exact readout (see C81). That the acceptance seen by the fitter, less theta, does not exceed the probability of acceptance is a hypothesis; C84 tells how probable it is."
  },
  {
   "property": "C84",
   "status": "partial",
   "theorems": [
    "C84_estimate",
    "C84_hoeffding",
    "C84_confidence_refuted",
    "C84_bound_holds"
   ],
   "note": "Proved with confidence 1 - exp(-2 theta^2 N) by Hoeffding and 1 - 1/(4 N theta^2) by Chebyshev (C84_hoeffding, C84_estimate, C84_bound_holds). The confidence computed by the code, 1 - 2 exp(-2 theta N^2), is refuted (C84_confidence_refuted)."
  }
 ]
}