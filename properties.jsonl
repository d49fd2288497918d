{"id": "C01", "title": "Marginal counts are exact marginals and conserve shots", "statement": "marginal_counts(counts, qubits) returns, for every outcome string y of the kept qubits (kept qubit of highest index leftmost), exactly the sum of the counts of all input outcomes that agree with y on the kept qubits, with register-separating spaces ignored; no outcome of non-zero marginal count is missing, with pad_zeros all 2^k outcomes are present, and the total number of shots is conserved.", "quantifier": "every counts dictionary whose keys have equal bit width, every list of distinct in-range kept qubits, both values of pad_zeros", "why_tests_cant": "the number of qubits, outcomes and subsets is unbounded; a test can only sample dictionaries and subsets", "anchors": ["qiskit/ignis/verification/tomography/data.py: marginal_counts"]}
{"id": "C02", "title": "Marginalising in two steps equals marginalising once", "statement": "Marginalising a counts dictionary to qubits A and then to positions B inside A gives the same dictionary of non-zero counts as marginalising directly to the corresponding qubits.", "quantifier": "all counts dictionaries, all nested pairs of qubit subsets", "why_tests_cant": "quantifies over all nested subsets and all dictionaries", "anchors": ["qiskit/ignis/verification/tomography/data.py: marginal_counts"]}
{"id": "C03", "title": "count_keys enumerates every outcome string once, in numeric order", "statement": "count_keys(n) is a list of 2^n strings, each of exactly n binary digits, without repetition, containing every n-digit binary string, and the j-th entry read as a binary number is j.", "quantifier": "all n >= 0", "why_tests_cant": "unbounded n; the boundary n = 0 is never exercised", "anchors": ["qiskit/ignis/verification/tomography/data.py: count_keys"]}
{"id": "C04", "title": "Combining counts is pointwise addition", "statement": "combine_counts(a, b) maps every outcome to a's count plus b's count, has exactly the outcomes of either input, adds the totals, is commutative and associative as a map from outcomes to counts, and build_counts_dict_from_list over a list of dictionaries is the pointwise sum of all of them whatever their order; callers' dictionaries should not be modified.", "quantifier": "all pairs and lists of counts dictionaries", "why_tests_cant": "algebraic laws over all dictionaries, plus an aliasing effect invisible to value comparisons", "anchors": ["qiskit/ignis/verification/tomography/data.py: combine_counts", "qiskit/ignis/utils.py: build_counts_dict_from_list"]}
{"id": "C05", "title": "expectation_counts returns the documented parity expectations", "statement": "For n measured qubits, expectation_counts(counts) has an entry for every subset of qubits, keyed by the bit string having 1 at exactly that subset (qubit 0 rightmost), whose value is the sum over outcomes of count times (-1)^(parity of the outcome on the subset); the all-zeros key holds the number of shots.", "quantifier": "all counts dictionaries on n >= 1 qubits, all subsets", "why_tests_cant": "2^n subsets for every n; existing tests use symmetric or two-qubit data where the ordering cannot be observed", "anchors": ["qiskit/ignis/verification/tomography/data.py: expectation_counts"]}
{"id": "C06", "title": "Calibration circuits prepare and read back the labelled state", "statement": "Every circuit returned by complete_meas_cal / tensored_meas_cal, run without noise, gives the outcome string written in its own name with certainty, for any grouping and order of the qubits and any register at least large enough; each circuit measures every pattern qubit into its own classical bit.", "quantifier": "all mitigation patterns of pairwise distinct qubits, all registers, all circuits returned", "why_tests_cant": "patterns, orders and sizes are unbounded", "anchors": ["qiskit/ignis/mitigation/measurement/circuits.py: complete_meas_cal, tensored_meas_cal"]}
{"id": "C07", "title": "Calibration label sets are complete and duplicate free", "statement": "tensored_meas_cal returns 2^m circuits (m = size of the largest group) with pairwise distinct names, such that every group sees every one of its own basis states, and equally often; patterns mentioning a qubit twice, and calls with neither pattern nor register, are rejected.", "quantifier": "all non-empty mitigation patterns", "why_tests_cant": "combinatorial claim for every pattern shape", "anchors": ["qiskit/ignis/mitigation/measurement/circuits.py: complete_meas_cal, tensored_meas_cal"]}
{"id": "C08", "title": "Calibration matrices are pooled conditional frequencies", "statement": "After any history of constructor and add_data calls, entry (i, j) of each group's calibration matrix is the number of shots that read group state i while group state j was prepared, pooled over all results, divided by the number of shots preparing j; every column is a probability vector or, when no shot prepared that state, all zero; only the multiset of added experiments matters, not their order or batching.", "quantifier": "all sequences of add_data calls, all results, all patterns", "why_tests_cant": "arbitrary histories and data", "anchors": ["qiskit/ignis/mitigation/measurement/fitters.py: TensoredMeasFitter, CompleteMeasFitter"]}
{"id": "C09", "title": "The pseudo-inverse filter undoes exactly the calibrated readout noise", "statement": "Applying a filter with method pseudo_inverse to counts that are the image of a vector x under the (tensor product of the) calibration matrices returns x, whenever every calibration matrix is invertible; the total number of shots is preserved when the matrices are column stochastic; the result has exactly the outcomes with non-zero corrected count.", "quantifier": "all numbers of groups, group sizes, invertible calibration matrices and vectors", "why_tests_cant": "linear-algebra identity over all matrices and all tensor structures", "anchors": ["qiskit/ignis/mitigation/measurement/filters.py: MeasurementFilter.apply, TensoredFilter.apply"]}
{"id": "C10", "title": "Filter input forms and rejections", "statement": "MeasurementFilter.apply rejects any counts dictionary containing a label outside state_labels and any list whose length is not an integer multiple of the number of states and any unknown method; a list of M blocks is corrected block by block, giving the same numbers as correcting each block alone, and a dictionary gives the same numbers as the corresponding list.", "quantifier": "all inputs of every accepted and rejected form", "why_tests_cant": "every length, label set and block count", "anchors": ["qiskit/ignis/mitigation/measurement/filters.py: MeasurementFilter.apply"]}
{"id": "C11", "title": "A subset fitter calibrates the qubits it was asked for", "statement": "CompleteMeasFitter.subset_fitter(sub) returns the calibration of exactly the qubits in sub: for a calibration that is a product of independent single-qubit calibrations, the result is the product of those of the requested qubits, in label order.", "quantifier": "all qubit lists, all sublists, all product calibrations", "why_tests_cant": "tests use symmetric sublists or equal qubits for which wrong qubits are indistinguishable", "anchors": ["qiskit/ignis/mitigation/measurement/fitters.py: CompleteMeasFitter.subset_fitter"]}
{"id": "C12", "title": "Readout fidelity is the mean diagonal", "statement": "readout_fidelity() equals the average over prepared states of the probability of reading the prepared state, lies in [0, 1], equals 1 for noiseless calibration data, and fails with an error when no calibration exists.", "quantifier": "all calibration matrices with stochastic or zero columns", "why_tests_cant": "all matrices", "anchors": ["qiskit/ignis/mitigation/measurement/fitters.py: readout_fidelity"]}
{"id": "C13", "title": "Noiseless repetition code reports its logical value and no syndrome", "statement": "For every code distance d >= 2 and number of rounds T >= 1, the noiseless circuit for logical value b gives, after process_results, the logical readout 'b b' and an all-zero list of T+1 syndrome-change rounds of d-1 bits.", "quantifier": "all d, T, both logical values", "why_tests_cant": "all circuit sizes", "anchors": ["qiskit/ignis/verification/topological_codes/circuits.py: RepetitionCode"]}
{"id": "C14", "title": "Every single fault lights zero or two syndrome nodes", "statement": "Inserting any single Pauli X, Y or Z error immediately before any gate, on any qubit that gate uses, in the logical-0 circuit yields after process_results a string with exactly 0 or exactly 2 non-trivial elements (logical readouts included), so GraphDecoder construction never hits its assertion.", "quantifier": "all d >= 2, T >= 1, all fault positions and qubits and error types", "why_tests_cant": "the number of fault locations grows with d and T without bound", "anchors": ["qiskit/ignis/verification/topological_codes/fitters.py: GraphDecoder._make_syndrome_graph", "qiskit/ignis/verification/topological_codes/circuits.py: process_results"]}
{"id": "C15", "title": "Minimum-weight matching corrects fewer than d/2 faults", "statement": "If fewer than d/2 faults of the kind considered when building the syndrome graph occur in a run, then decoding with any minimum-weight perfect matching returns the encoded logical value.", "quantifier": "all d, T, all fault sets of size less than d/2, every minimum-weight matching", "why_tests_cant": "all fault combinations for all code sizes, and all tie breaks in the matching", "anchors": ["qiskit/ignis/verification/topological_codes/fitters.py: GraphDecoder.matching"]}
{"id": "C16", "title": "Decoder statistics are frequencies of the selected shots", "statement": "get_logical_prob, postselection_decoding and lookuptable_decoding return for each logical value the number of (selected) shots decoded to the wrong value divided by the number of (selected) shots; this lies in [0, 1]; post-selection keeps exactly the shots with trivial syndrome, and with no selected shot the call fails instead of returning a number.", "quantifier": "all results dictionaries", "why_tests_cant": "arbitrary data including empty selections", "anchors": ["qiskit/ignis/verification/topological_codes/fitters.py: get_logical_prob, postselection_decoding, lookuptable_decoding"]}
{"id": "C17", "title": "CNOT-dihedral multiplication is composition of the represented operators", "statement": "The product of two CNOT-dihedral elements represents the composition of the operators they represent, (phase polynomial, linear map, shift) acting on basis states by x -> omega^p(x) |Lx+s>.", "quantifier": "all numbers of qubits and all pairs of elements", "why_tests_cant": "group law over exponentially many elements for every n", "anchors": ["qiskit/ignis/verification/randomized_benchmarking/dihedral.py: CNOTDihedral, SpecialPolynomial"]}
{"id": "C18", "title": "CNOT-dihedral gate updates track the gates", "statement": "Appending cx, x, t/tdg/s/sdg/z/u1(k pi/4) to an element (by cnot, flip, phase or append_circuit) multiplies the represented operator by exactly that gate (up to global phase), so an element built from a circuit represents that circuit.", "quantifier": "all n, all circuits over the supported gates", "why_tests_cant": "all circuits", "anchors": ["qiskit/ignis/verification/randomized_benchmarking/dihedral.py: cnot, phase, flip, append_circuit"]}
{"id": "C19", "title": "Special polynomials are faithful normal forms", "statement": "Adding and multiplying special polynomials commutes with evaluation on every binary point modulo 8, and two polynomials in normal form with the same values on all points have the same coefficients; get_term/set_term address each monomial of degree up to three by a distinct slot.", "quantifier": "all n, all polynomials, all points, all monomials", "why_tests_cant": "all sizes of index arithmetic", "anchors": ["qiskit/ignis/verification/randomized_benchmarking/dihedral.py: SpecialPolynomial"]}
{"id": "C20", "title": "Dihedral decompositions implement the element", "statement": "decompose_cnotdihedral of a valid element returns a circuit of cx, u1 and x gates whose represented element is the original one (two-qubit synthesis for n <= 2, general synthesis for larger n).", "quantifier": "all valid elements; all n", "why_tests_cant": "6144 two-qubit elements and infinitely many n", "anchors": ["qiskit/ignis/verification/randomized_benchmarking/dihedral.py: decompose_cnotdihedral"]}
{"id": "C21", "title": "compose/dot/tensor/adjoint of dihedral elements follow the operator algebra", "statement": "compose, dot, tensor, expand, adjoint, conjugate and transpose return the element of the corresponding operator expression, and adjoint is an inverse.", "quantifier": "all n and all valid elements", "why_tests_cant": "operator identities over all elements", "anchors": ["qiskit/ignis/verification/randomized_benchmarking/dihedral.py: CNOTDihedral"]}
{"id": "C22", "title": "Every RB circuit composes to the identity on each pattern", "statement": "In every circuit returned by randomized_benchmarking_seq, for every pattern, the product of all group elements including the final inverse is the identity, for every seed, length, length multiplier, pattern layout and group.", "quantifier": "all lengths, patterns, multipliers, seeds (random choices), groups", "why_tests_cant": "random choices are unbounded; a test sees only sampled seeds", "anchors": ["qiskit/ignis/verification/randomized_benchmarking/circuits.py: randomized_benchmarking_seq"]}
{"id": "C23", "title": "RB x-data matches the circuits", "statement": "xdata[p][l] equals the number of random group elements acting on pattern p in circuit l (length times multiplier), interleaved circuits carry the interleaved element once after each random element, and circuit names are pairwise distinct and are those the fitters look up.", "quantifier": "all length vectors, multipliers and numbers of seeds", "why_tests_cant": "all vectors", "anchors": ["qiskit/ignis/verification/randomized_benchmarking/circuits.py: calc_xdata, randomized_benchmarking_seq", "qiskit/ignis/verification/randomized_benchmarking/fitters.py"]}
{"id": "C24", "title": "RB argument validation", "statement": "check_pattern accepts exactly the patterns of pairwise distinct qubits and returns their flattened list, its maximum and the largest dimension; length multipliers are scalars broadcast to all patterns or lists of matching length; group names are accepted exactly as documented.", "quantifier": "all patterns, multipliers and group strings", "why_tests_cant": "all inputs", "anchors": ["qiskit/ignis/verification/randomized_benchmarking/circuits.py: check_pattern, handle_length_multiplier", "qiskit/ignis/verification/randomized_benchmarking/rb_groups.py: RBgroup"]}
{"id": "C25", "title": "Purity circuits enumerate all measurement bases", "statement": "For purity RB on n qubits the 3^n circuits derived from one sequence are exactly one per choice of Z, X or Y measurement basis on each qubit, and the estimated purity weights every non-trivial Pauli expectation consistently.", "quantifier": "all n", "why_tests_cant": "3^n bases", "anchors": ["qiskit/ignis/verification/randomized_benchmarking/circuits.py: randomized_benchmarking_seq", "qiskit/ignis/verification/randomized_benchmarking/fitters.py: PurityRBFitter"]}
{"id": "C26", "title": "Gates-per-Clifford averages", "statement": "gates_per_clifford returns, for each qubit and basis gate, the total number of such gates acting on the qubit over all circuits divided by the total number of Cliffords, whatever the order of circuits, and rejects malformed inputs.", "quantifier": "all circuit lists, qubit lists and Clifford lengths", "why_tests_cant": "all circuits", "anchors": ["qiskit/ignis/verification/randomized_benchmarking/rb_utils.py: gates_per_clifford, count_gates"]}
{"id": "C27", "title": "EPG and EPC conversions are mutually inverse and bounded", "statement": "calculate_2q_epc is consistent with calculate_2q_epg, calculate_1q_epc with calculate_1q_epg, on all inputs where they are defined; error-free gates give zero error per Clifford; errors per Clifford of physical gate errors are in [0, 1]; coherence_limit lies in [0, (d-1)/d] and decreases with T1 and T2.", "quantifier": "all gate counts, error rates and coherence times", "why_tests_cant": "real-valued inputs", "anchors": ["qiskit/ignis/verification/randomized_benchmarking/rb_utils.py"]}
{"id": "C28", "title": "RB fitters use each measured shot once", "statement": "After any history of add_data calls the ground-state probabilities entering the fit are the fraction of ground outcomes among all shots of the added results, each result counted once.", "quantifier": "all histories", "why_tests_cant": "histories", "anchors": ["qiskit/ignis/verification/randomized_benchmarking/fitters.py: RBFitter, InterleavedRBFitter, CNOTDihedralRBFitter"]}
{"id": "C29", "title": "Expectation value and variance of a diagonal observable", "statement": "expectation_value without mitigator returns the count-weighted mean of the observable's diagonal (parity if none given), bounded by the diagonal's extremes, with standard deviation sqrt(variance/shots) that is never undefined.", "quantifier": "all counts, diagonals and marginalisation lists", "why_tests_cant": "all data", "anchors": ["qiskit/ignis/mitigation/expval/utils.py: expectation_value, _expval_with_stddev"]}
{"id": "C30", "title": "Qubit remapping of probability vectors", "statement": "counts_probability_vector(counts, qubits) is the probability vector in which the probability of an outcome is stored at the index whose bits are ordered by increasing physical qubit.", "quantifier": "all n, all permutations, all counts", "why_tests_cant": "n! permutations", "anchors": ["qiskit/ignis/mitigation/expval/utils.py: counts_probability_vector"]}
{"id": "C31", "title": "Tensored mitigation is exact and its overhead is the operator norm", "statement": "For invertible single-qubit assignment matrices, the tensored mitigator's expectation value of noisy probabilities A p equals the exact expectation in p for every diagonal observable; mitigation_overhead is gamma^2 with gamma the largest absolute column sum of the inverse tensor product, gamma >= 1; reported matrices for a qubit subset are those of that subset.", "quantifier": "all qubit numbers, matrices, observables, subsets", "why_tests_cant": "all dimensions", "anchors": ["qiskit/ignis/mitigation/expval/tensored_mitigator.py: TensoredExpvalMeasMitigator"]}
{"id": "C32", "title": "Complete mitigation is exact, also for permuted qubits", "statement": "For an invertible assignment matrix, the complete mitigator's expectation value of noisy probabilities A p equals the exact expectation in p; with an identity assignment matrix mitigation changes nothing for any qubit list.", "quantifier": "all n, matrices, observables, qubit lists", "why_tests_cant": "all dimensions and permutations", "anchors": ["qiskit/ignis/mitigation/expval/complete_mitigator.py: CompleteExpvalMeasMitigator"]}
{"id": "C33", "title": "Calibration assignment matrices are column stochastic", "statement": "assignment_matrix(cal_data, n, qubits) is the conditional frequency matrix of the selected qubits among shots without error elsewhere, its columns sum to one, and missing data raises an error instead of returning a matrix.", "quantifier": "all calibration data", "why_tests_cant": "all data", "anchors": ["qiskit/ignis/mitigation/expval/utils.py: assignment_matrix"]}
{"id": "C34", "title": "CTMP generators are Markov and the sampler inverts them", "statement": "The CTMP generator matrix with non-negative rates has non-negative off-diagonal entries and zero column sums; the sampled matrix B = I + G/gamma is column stochastic; and the signed Poisson mixture exp(2 gamma) sum_k Pois(k; gamma) (-1)^k B^k applied to noisy data equals exp(-G).", "quantifier": "all generator sets and rates, all n", "why_tests_cant": "all generators, infinite series", "anchors": ["qiskit/ignis/mitigation/expval/ctmp_mitigator.py: CTMPExpvalMeasMitigator"]}
{"id": "C35", "title": "CTMP fitted rates belong to the transitions of their generators", "statement": "The rate fitted for the generator 0->1 on a qubit is the observed rate of 0->1 flips.", "quantifier": "all calibration data", "why_tests_cant": "tests use symmetric errors", "anchors": ["qiskit/ignis/mitigation/expval/ctmp_fitter.py"]}
{"id": "C36", "title": "QOTP leaves the target's outcome distribution unchanged", "statement": "Running a quantum-one-time-padded circuit and post-processing with the returned correction string gives exactly the outcome distribution of the original circuit, whatever Pauli pads were drawn.", "quantifier": "all circuits, all random pads, all outcomes", "why_tests_cant": "all circuits and 16^n pads", "anchors": ["qiskit/ignis/verification/accreditation/qotp.py: QOTP_fromlayers, QOTPCorrectCounts"]}
{"id": "C37", "title": "layer_parser preserves the circuit", "statement": "The alternating layers returned by layer_parser compose to the same operation as the input circuit, each two-qubit layer acting on disjoint qubits.", "quantifier": "all circuits over the supported gates with terminal measurements", "why_tests_cant": "all gate orders", "anchors": ["qiskit/ignis/verification/accreditation/qotp.py: layer_parser"]}
{"id": "C38", "title": "Noiseless accreditation traps always return all zeros", "statement": "Every trap circuit, run without noise and corrected with its post-processing string, returns the all-zero string, for every random choice, so a noiseless run is always accepted.", "quantifier": "all circuits, all random choices", "why_tests_cant": "exponentially many random choices", "anchors": ["qiskit/ignis/verification/accreditation/circuits.py: _routine_two"]}
{"id": "C39", "title": "Accreditation bookkeeping", "statement": "After any sequence of single-shot runs, the accepted count is the number of runs all of whose traps returned zeros, at most the number of runs, the reported variation-distance bound lies in [0, 1], and malformed data is rejected; fitters are independent of one another.", "quantifier": "all histories", "why_tests_cant": "histories across objects", "anchors": ["qiskit/ignis/verification/accreditation/fitters.py: AccreditationFitter"]}
{"id": "C40", "title": "GHZ circuits prepare GHZ states", "statement": "get_ghz_simple(n) (and its optional measurement) prepares (|0..0> + |1..1>)/sqrt 2 for all n >= 1; the multiple-quantum-coherence variant has ground-state probability (1 + cos(n delta))/2.", "quantifier": "all n, all phases", "why_tests_cant": "all n", "anchors": ["qiskit/ignis/verification/entanglement/linear.py"]}
{"id": "C41", "title": "Parallel GHZ layouts are valid entangling trees", "statement": "get_tier_dict assigns every reachable qubit exactly once as a target, controls are entangled in strictly earlier tiers, and gates of one tier touch disjoint qubits; get_ghz_layout(n) entangles exactly n connected qubits into a GHZ state.", "quantifier": "all coupling maps", "why_tests_cant": "all graphs", "anchors": ["qiskit/ignis/verification/entanglement/parallelize.py: BConfig"]}
{"id": "C42", "title": "Heavy outputs are the outcomes above the median", "statement": "The heavy-output set is exactly the outcomes with ideal probability above the median; it has at most half of all outcomes; its ideal probability is at least one half when probabilities are pairwise distinct.", "quantifier": "all probability vectors", "why_tests_cant": "all vectors", "anchors": ["qiskit/ignis/verification/quantum_volume/fitters.py: QVFitter"]}
{"id": "C43", "title": "Quantum-volume verdict", "statement": "qv_success reports success for a depth exactly when the mean heavy-output probability exceeds 2/3 with confidence above 97.7%; heavy-output counts never exceed shots; adding data before the ideal circuits, or twice, is rejected.", "quantifier": "all data", "why_tests_cant": "all data", "anchors": ["qiskit/ignis/verification/quantum_volume/fitters.py: QVFitter"]}
{"id": "C44", "title": "Tomography circuits cover every label combination exactly once", "statement": "state/process tomography circuit generators return one circuit per combination of measurement (and preparation) labels over the measured qubits, with pairwise distinct names from which labels can be recovered.", "quantifier": "all label lists and qubit numbers", "why_tests_cant": "exponentially many combinations", "anchors": ["qiskit/ignis/verification/tomography/basis/circuits.py"]}
{"id": "C45", "title": "Tomography bases: circuits agree with matrices", "statement": "For each built-in basis label, the preparation circuit prepares the stated density matrix and the measurement circuit followed by a Z measurement has the stated POVM elements; POVM elements sum to the identity.", "quantifier": "all labels, all input states", "why_tests_cant": "all states", "anchors": ["qiskit/ignis/verification/tomography/basis/paulibasis.py", "qiskit/ignis/verification/tomography/basis/sicbasis.py"]}
{"id": "C46", "title": "Tomography design rows compute Born probabilities", "statement": "Each row of the fitter's basis matrix times the vectorised state equals the Born probability Tr[M rho] of that outcome (and of the Choi matrix for processes), so exact data satisfy the linear system exactly.", "quantifier": "all qubit numbers, labels and states", "why_tests_cant": "all states", "anchors": ["qiskit/ignis/verification/tomography/fitters/base_fitter.py"]}
{"id": "C47", "title": "PSD rescaling returns the closest physical spectrum", "statement": "make_positive_semidefinite maps eigenvalues of trace t >= 0 to non-negative eigenvalues with the same sum, leaves non-negative spectra unchanged, preserves order and is the Euclidean projection.", "quantifier": "all real spectra of any length", "why_tests_cant": "all spectra", "anchors": ["qiskit/ignis/verification/tomography/fitters/lstsq_fit.py: make_positive_semidefinite"]}
{"id": "C48", "title": "Partial-trace superoperator", "statement": "partial_trace_super(d1, d2) applied to the column-vectorised operator on a bipartite system yields the column-vectorised partial trace.", "quantifier": "all dimensions and operators", "why_tests_cant": "all dimensions", "anchors": ["qiskit/ignis/verification/tomography/fitters/cvx_fit.py: partial_trace_super"]}
{"id": "C49", "title": "Gate-set linear inversion returns the gates up to a gauge", "statement": "On exact data the linear-inversion estimate of every gate is B^-1 G B for one common invertible B, so gate spectra and all predicted outcome probabilities are exact.", "quantifier": "all gate sets and SPAM gates with invertible Gram matrix", "why_tests_cant": "all matrices", "anchors": ["qiskit/ignis/verification/tomography/fitters/gateset_fitter.py: linear_inversion"]}
{"id": "C50", "title": "Fitter data pooling in tomography", "statement": "Adding the same circuit's results in several calls or several results pools the shots.", "quantifier": "all histories", "why_tests_cant": "histories", "anchors": ["qiskit/ignis/verification/tomography/fitters/base_fitter.py: add_data"]}
{"id": "C51", "title": "Discriminator training data is aligned", "statement": "For any list of results and schedules the training inputs and expected labels have the same length and order, and discriminated counts of an experiment sum to its number of shots.", "quantifier": "all results", "why_tests_cant": "all data", "anchors": ["qiskit/ignis/measurement/discriminator/iq_discriminators.py", "qiskit/ignis/measurement/discriminator/filters.py"]}
{"id": "C52", "title": "Logged values can be read back", "statement": "Values written by log_to_file are returned by the log reader for the same key, and date filters return exactly the rows in the closed interval.", "quantifier": "all keys, values and histories", "why_tests_cant": "all strings", "anchors": ["qiskit/ignis/logging/ignis_logging.py"]}
{"id": "C53", "title": "Coherence circuits have the ideal outcome their fitters expect", "statement": "Without noise, every T1 circuit yields 1, every T2* circuit with no oscillation and every T2 echo circuit yields the state the fitter counts as success, on every measured qubit, for every length and number of echoes.", "quantifier": "all lengths, echo numbers, qubit lists", "why_tests_cant": "all circuits", "anchors": ["qiskit/ignis/characterization/coherence/circuits.py", "qiskit/ignis/characterization/coherence/fitters.py"]}
{"id": "C54", "title": "Characterisation data points are pooled success frequencies", "statement": "The y-data of a characterisation fitter is, for each qubit and x value, the fraction of shots in the expected state pooled over all added results, lies in [0,1], with strictly positive error bar.", "quantifier": "all histories", "why_tests_cant": "histories", "anchors": ["qiskit/ignis/characterization/fitters.py: BaseFitter._calc_data"]}
{"id": "C55", "title": "Processing repetition-code results loses and merges no outcome", "statement": "process_results turns every distinct outcome key of the code's circuits into a distinct syndrome string with the same number of shots.", "quantifier": "all code distances d >= 2, all numbers of rounds T >= 1, all counts dictionaries whose keys are outcomes of the code's circuits", "why_tests_cant": "the number of possible outcomes is exponential in d and T; a collision overwrites counts silently", "anchors": ["qiskit/ignis/verification/topological_codes/circuits.py: RepetitionCode.process_results"]}
{"id": "C56", "title": "Random CNOT-dihedral elements are valid and every element can be drawn", "statement": "random_cnotdihedral returns a valid element without global phase whatever the draws (once an invertible matrix has been drawn), and every valid element without global phase is returned for some draws.", "quantifier": "all n, all sequences of draws, all elements", "why_tests_cant": "all draws and all sizes", "anchors": ["qiskit/ignis/verification/randomized_benchmarking/dihedral.py: random_cnotdihedral"]}
{"id": "C57", "title": "Gate lists in the CNOT-dihedral dictionaries generate their elements", "statement": "Every entry of make_dict_0 and make_dict_next pairs a valid element with a gate list that implements it; entries of the next dictionary use one more cx and occur in no earlier dictionary.", "quantifier": "all n, all dictionaries", "why_tests_cant": "16^n entries and all n", "anchors": ["qiskit/ignis/verification/randomized_benchmarking/dihedral.py: make_dict_0, make_dict_next"]}
{"id": "C58", "title": "Random seeds of RB draws never repeat", "statement": "When randomized_benchmarking_seq is given a positive rand_seed, every random element is drawn with its own seed, strictly larger than all the earlier ones, over all seeds, lengths, patterns and multipliers; without a rand_seed the generator is never reseeded; and no rand_seed makes all draws equal.", "quantifier": "all rand_seeds, numbers of seeds, length vectors, patterns and multipliers", "why_tests_cant": "a repeated seed correlates elements without changing any circuit's validity; it depends on the whole history of draws", "anchors": ["qiskit/ignis/verification/randomized_benchmarking/circuits.py: randomized_benchmarking_seq"]}
{"id": "C59", "title": "Expectation-value calibration circuits, labels and data agree", "statement": "The calibration circuits of expval_meas_mitigator_circuits prepare and measure exactly the basis states recorded in their metadata; the label sets of the methods are all strings (complete), 0..0 and 1..1 (tensored), and in addition every singly excited string (CTMP); calibration_data adds up the counts of all experiments recorded with the same label and ignores others; the tensored fit's matrices are the conditional flip frequencies of each qubit.", "quantifier": "for all register sizes, methods, label lists, metadata lists and count dictionaries", "why_tests_cant": "Tests use a few fixed sizes; agreement of bit order between circuit, label and data for every size cannot be enumerated.", "anchors": ["qiskit/ignis/mitigation/expval/circuits.py:28-131", "qiskit/ignis/mitigation/expval/utils.py:117-205", "qiskit/ignis/mitigation/expval/fitter.py:28-89"]}
{"id": "C60", "title": "Parity oscillations", "statement": "The parity-oscillation circuits give every outcome y the probability (1 + (-1)^(n-|y|) cos(n delta))/2^n, so that the mean parity is (-1)^n cos(n delta); composite_pauli_z_expvalue of a count dictionary is the number of even outcomes minus the number of odd outcomes.", "quantifier": "all numbers of qubits, all phases, all count dictionaries over n-bit outcomes", "why_tests_cant": "all n and all phases; the order of the Kronecker factors and of the bit strings has to agree for every n", "anchors": ["qiskit/ignis/verification/entanglement/linear.py: get_ghz_po, get_ghz_po_para", "qiskit/ignis/verification/entanglement/analysis.py: composite_pauli_z_expvalue"]}
{"id": "C61", "title": "Quantum-volume circuits agree with their ideal versions", "statement": "qv_circuits returns for every trial and every qubit list a measured circuit and an ideal one with the same name, the name determines depth and trial, the measured circuit runs the same random gates on the listed qubits and its outcome probabilities are those of the ideal statevector; a seed determines the circuits.", "quantifier": "all qubit lists, numbers of trials, seeds and random gate sequences", "why_tests_cant": "all qubit lists and all random circuits; tests use a few contiguous lists", "anchors": ["qiskit/ignis/verification/quantum_volume/circuits.py: qv_circuits"]}
{"id": "C62", "title": "Tomography of exact data returns the state or the channel", "statement": "When the results have exactly the probabilities of the tomography circuits, the fitter built from circuits and results returns, by weighted or unweighted least squares, the density matrix of the measured qubits after the circuit (or the Choi matrix of the channel from prepared to measured qubits), given only that lstsq minimises the residual and eigh diagonalises.", "quantifier": "all circuits of gates, qubit lists and numbers of qubits, built-in or user bases that determine every matrix, weights", "why_tests_cant": "all circuits and sizes", "anchors": ["qiskit/ignis/verification/tomography/basis/circuits.py", "qiskit/ignis/verification/tomography/fitters/base_fitter.py", "qiskit/ignis/verification/tomography/fitters/lstsq_fit.py"]}
{"id": "C63", "title": "Calibration circuits produce the curve that is fitted to them", "statement": "For pulses with any amplitude or axis error the outcome distribution of the amplitude and angle calibration circuits (one-qubit and cx) is the fitter's function with that error as parameter and offset 1/2, for every number of repetitions, so that the reported angle error is the error put in.", "quantifier": "all errors, repetitions, qubit and control lists", "why_tests_cant": "a continuum of errors and all repetition numbers", "anchors": ["qiskit/ignis/characterization/gates/circuits.py", "qiskit/ignis/characterization/gates/fitters.py"]}
{"id": "C64", "title": "Vectors of the gate-set optimisation express positive gate sets", "statement": "Every real vector of the right length decodes to an effect, a state and gates whose matrices (as written to the vector) and Choi matrices are positive, another length raises RuntimeError; encoding any such gate set and decoding gives it back, for any Schur decomposition. Which states can be expressed at all is determined: the reachable states do not include |1><1| or |+><+|, and feasible vectors exist with non-Hermitian operators.", "quantifier": "all vectors, numbers of qubits and gates, all positive gate sets, all Schur decompositions", "why_tests_cant": "a continuum of vectors and gate sets", "anchors": ["qiskit/ignis/verification/tomography/fitters/gateset_fitter.py"]}
{"id": "C65", "title": "Constraints of the gate-set optimisation mean physical gates", "statement": "The equality values vanish exactly when every gate preserves the trace and is real and the state has trace one; the inequality values are non-negative exactly when the entries of the rows after the first are between -1 and 1; the trace constraint raises ValueError for any number of qubits but one.", "quantifier": "all vectors, numbers of qubits and gates", "why_tests_cant": "exact characterisation over a continuum", "anchors": ["qiskit/ignis/verification/tomography/fitters/gateset_fitter.py"]}
{"id": "C66", "title": "The gate-set fit of exact data predicts the data", "statement": "The objective is the sum of squared errors of the real parts of the predictions; with exact data of any expressible gate set the whole fit (linear inversion, gauge, maximum likelihood) succeeds and returns completely positive trace-preserving gates, a state of trace one, and operators that give exactly the probability of every experiment, given only that inv inverts, schur decomposes and the optimiser solves its problem.", "quantifier": "all gate sets, SPAM circuits, data, optimisers meeting their contract", "why_tests_cant": "all gate sets and optimisers", "anchors": ["qiskit/ignis/verification/tomography/fitters/gateset_fitter.py", "qiskit/ignis/verification/tomography/basis/gatesetbasis.py"]}
{"id": "C67", "title": "The best gauge recovers the ideal gate set", "statement": "With exact data of the ideal gate set, an optimal gauge turns the linear inversion into the ideal gates, effect and state; the optimal gauge is the inverse of the matrix of the prepared states, while the search starts from that matrix itself; the matrix of a SPAM circuit is the product of its gates.", "quantifier": "all gate sets, SPAM circuits and optimal gauges", "why_tests_cant": "all gate sets", "anchors": ["qiskit/ignis/verification/tomography/fitters/gateset_fitter.py", "qiskit/ignis/verification/tomography/basis/gatesetbasis.py"]}
{"id": "C68", "title": "Coherence experiments on decaying qubits report the true times and rates", "statement": "On qubits that relax, dephase and are off resonance, the T1, T2, T2* and ZZ circuits give data that lie exactly on the curve their fitter assumes, with the true times, frequencies and shifts as parameters; any least-squares fit within bounds that determine the parameters then makes the fitter report exactly T1, T2, T2* and its frequency, or the ZZ rate. A partial refit replaces the parameters and errors of the chosen series and qubits only.", "quantifier": "all decay rates, offsets, couplings, delays, numbers of echoes, qubit lists, fit functions, bounds and initial values", "why_tests_cant": "the rates, delays and the fit function range over infinite sets; tests compare one simulated example with loose tolerances", "anchors": ["qiskit/ignis/characterization/fitters.py", "qiskit/ignis/characterization/coherence/circuits.py", "qiskit/ignis/characterization/coherence/fitters.py", "qiskit/ignis/characterization/hamiltonian/circuits.py", "qiskit/ignis/characterization/hamiltonian/fitters.py"]}
{"id": "C69", "title": "IQ data are pooled over all shots and projected on one line", "statement": "The IQ fitters replace every schedule and qubit by the mean of all single shots of all runs, whatever the numbers of shots, refuse results that are not of level 1 or mix averaged and single shots, and raise KeyError for a missing schedule. The projection is on one unit vector of the first quadrant relative to the mean, so the values sum to zero, are not longer than the distances, and do not depend on origin and unit; data on a line keep their positions times a gain, which is the full length in the first and third quadrants. Refuted: single shots always fail, and data on the second diagonal are projected to zero, not to the maximum signal.", "quantifier": "all lists of results, shot numbers, memory sizes, series, qubits and complex data", "why_tests_cant": "the numbers of runs and shots and the complex points are unbounded; tests use one recorded averaged result", "anchors": ["qiskit/ignis/characterization/fitters.py", "qiskit/ignis/characterization/calibrations/fitters.py"]}
{"id": "C70", "title": "Pulse calibrations give the right amplitudes and the right U2 and U3", "statement": "The Rabi and DRAG schedules play, on each drive channel, exactly the swept pulse (or the pulse and its reverse) and measure when it is over. On qubits that turn in proportion to the amplitude, the fitted pi and pi/2 amplitudes turn by pi and pi/2; on a parabola in beta the DRAG fit gives its vertex. update_u_gates with a quarter-turn pulse writes schedules that are U2 and U3 up to a phase for all angles, shifts the phases of exactly the channels in the frame of the drive channel, leaves other entries alone, and can be repeated.", "quantifier": "all qubit lists, amplitudes, betas, widths, rates, angles, channel layouts, instruction maps, fits within determining bounds and orders of simultaneous instructions", "why_tests_cant": "angles, amplitudes, rates and channel layouts range over infinite sets; tests check one mock backend and a few schedules", "anchors": ["qiskit/ignis/characterization/calibrations/pulse_schedules.py", "qiskit/ignis/characterization/calibrations/fitters.py", "qiskit/ignis/characterization/calibrations/ibmq_utils.py"]}
{"id": "C71", "title": "Randomized benchmarking fits report the error of the gates", "statement": "On data that decay exactly to 1/2^n, the fits of RBFitter start from and return the parameters of the decay for every pattern. For sequences of gates with depolarising noise that close without noise, the error per Clifford of the standard fit, the estimate of the interleaved fit and the purity error per Clifford are the infidelity of the noise; the interleaved estimate lies within its bounds and its error is propagated correctly; the CNOT-dihedral estimate is the average infidelity of the Pauli channel with the two decays. Initial values are rejected exactly when the exponential through the first two points exceeds 1 + 1/2^n at length 0.", "quantifier": "all numbers of qubits and patterns, lengths (three distinct), decays, noise strengths, unitary sequences, seeds, error bars and least-squares fits", "why_tests_cant": "dimensions, noise strengths, lengths and sequences are unbounded; tests compare a few stored fits with stored numbers", "anchors": ["qiskit/ignis/verification/randomized_benchmarking/fitters.py:256-260", "qiskit/ignis/verification/randomized_benchmarking/fitters.py:323-432", "qiskit/ignis/verification/randomized_benchmarking/fitters.py:640-704", "qiskit/ignis/verification/randomized_benchmarking/fitters.py:1063-1102", "qiskit/ignis/verification/randomized_benchmarking/fitters.py:1301-1357"]}
{"id": "C72", "title": "The convex tomography fit returns the physical matrix closest to the data", "statement": "The real constraints that cvx_fit hands to the solver mean that the complex matrix is Hermitian, of the trace asked, positive if asked and the Choi matrix of a trace-preserving map if asked; its objective orders the matrices by the weighted squared distance from the data, although the weights are normalised. So what is returned is such a matrix and none is closer. On exact data of a basis that determines every matrix, state and process tomography by the convex fit return the state and the Choi matrix. The solver is asked with 5000 iterations and again with twice as many while the problem seems unbounded and the number is below max_iters; any status but optimal is refused; arrays of the wrong shape are refused; a trace that contradicts trace preservation cannot be had. Refuted: max_iters bounds the iterations.", "quantifier": "all dimensions, numbers of rows, data, weights, numbers of qubits, circuits, bases, solvers that solve the problem, and sequences of solver answers", "why_tests_cant": "dimensions, data and the answers of the solver are unbounded; tests fit a few states and gates with one installed solver to a tolerance", "anchors": ["qiskit/ignis/verification/tomography/fitters/cvx_fit.py", "qiskit/ignis/verification/tomography/fitters/base_fitter.py:111-229", "qiskit/ignis/verification/tomography/fitters/state_fitter.py", "qiskit/ignis/verification/tomography/fitters/process_fitter.py"]}
{"id": "C73", "title": "GHZ fidelities from oscillations and density matrices", "statement": "For any state of n qubits, get_fourier_info on the parity signal at equally spaced phases, with the populations of |0..0> and |1..1>, returns the largest fidelity with a state (|0..0> + e^{i theta}|1..1>)/sqrt 2; on the multiple-quantum-coherence signal it returns that fidelity and bounds below and above it. rho_to_fidelity returns that fidelity from a density matrix. The signals are those of the circuits of linear.py.", "quantifier": "all numbers of qubits, states (Hermitian positive matrices), numbers of phases without aliasing, populations that belong to the states", "why_tests_cant": "states, qubits and phases are unbounded; the repository's tests never call these functions", "anchors": ["qiskit/ignis/verification/entanglement/analysis.py:130-214", "qiskit/ignis/verification/entanglement/analysis.py:217-226"]}
{"id": "C74", "title": "Least squares measurement correction returns the physical counts that explain the data best", "statement": "With a minimiser that solves the problem it is given, MeasurementFilter and TensoredFilter with method least_squares return non-negative counts with as many shots as the data, and no such counts explain the data better. Exact data of an invertible stochastic calibration matrix are corrected to the true counts; with noise the error is at most that of the data times the norm of the inverse (the product of the norms for groups of qubits). The random starting point and the minimiser do not matter, the method agrees with the pseudo-inverse whenever that is physical, both filters agree, lists are corrected block by block, and the problem always has a solution. A Result is corrected experiment by experiment and keeps everything but the counts.", "quantifier": "all numbers of qubits and groups, labels and their order, matrices, counts, starting points, minimisers, blocks and experiments", "why_tests_cant": "matrices, counts and starting points are unbounded and random; tests compare a few stored corrections to a tolerance", "anchors": ["qiskit/ignis/mitigation/measurement/filters.py:79-209", "qiskit/ignis/mitigation/measurement/filters.py:282-436"]}
{"id": "C75", "title": "The initial guesses of the characterization fits are as good as the data", "statement": "From T2* data that stay within a quarter of the amplitude of an oscillation with a whole number of turns in the window, guess_params gives its frequency (up to the sign, which a cosine does not see), its offset to within the noise and its phase at the first delay; slow decay is allowed. The Rabi guess does the same when the offset is small, which on projected IQ data it always is. The DRAG guess gives the vertex of a parabola, the amplitude calibration the angle error to third order, and time_to_ngates the nearest numbers of gates. Where the code falls short is stated: the guessed amplitude includes the offset, the phase is counted from the first delay, the Rabi guess of data with an offset is frequency 0, and the DRAG guess takes a wrong end of a one-sided sweep.", "quantifier": "all numbers of points, steps, frequencies on the Fourier grid, amplitudes, phases, offsets, noise within the bound, parabolas, angle errors and times", "why_tests_cant": "no test calls guess_params or time_to_ngates, and the data are continuous", "anchors": ["qiskit/ignis/characterization/coherence/fitters.py:181-207", "qiskit/ignis/characterization/calibrations/fitters.py:51-76", "qiskit/ignis/characterization/calibrations/fitters.py:166-193", "qiskit/ignis/characterization/gates/fitters.py:51-67", "qiskit/ignis/characterization/characterization_utils.py:49-62"]}
{"id": "C76", "title": "get_single_q_pulse returns the drag pulse nearest to the one the device plays", "statement": "When the u2 gate of every qubit plays a pulse, get_single_q_pulse returns for each the duration of the first pulse played and parameters whose drag pulse, turned to Y, no other drag pulse of that duration is nearer to in the samples; a device pulse that is such a drag pulse is read exactly; with an optimizer that only does not get worse, the result is as near as the first guess. Where the code falls short is stated: a later qubit whose gate plays nothing gets the pulse of the qubit before it, the list is ordered by position while update_u_gates looks it up by qubit number, pulses written by update_u_gates are read back as no pulse, and reading a device and writing the parameters back sends out the opposite pulse.", "quantifier": "all instruction maps, lists of qubits, sampled pulses, envelopes, durations, optimizers meeting the stated contract, gate angles and orders of sets", "why_tests_cant": "no test calls get_single_q_pulse; samples and parameters are continuous and the qubit lists unbounded", "anchors": ["qiskit/ignis/characterization/calibrations/ibmq_utils.py:27-94", "qiskit/ignis/characterization/calibrations/ibmq_utils.py:97-195"]}
{"id": "C77", "title": "required_shots shots give a mitigated expectation value to within delta with probability at least 3/4", "statement": "A register with any outcome probabilities is read N times, each readout random with errors following the calibrated matrix. For an observable between -1 and 1 and every way to write the outcomes into a dictionary of counts, the value returned by the tensored mitigator (any selection of qubits) and by the complete mitigator (any list of distinct qubits, in any order) is unbiased, its mean squared distance from the true value is at most the square of stddev_upper_bound(N), the returned deviation is never above that bound, and if N is at least required_shots(delta) the value is less than delta away with probability at least 3/4 (documented: 2/3). required_shots(delta) is the least N whose bound is at most delta/2. For observables beyond +-1 the number is too small (refuted).", "quantifier": "all readout matrices of low error (tensored) or with an inverse (complete), outcome probabilities, observables, numbers of qubits, shots, tolerances and classical bit selections", "why_tests_cant": "a statement about the probability over all shot sequences; the tests compare single runs with fixed seeds", "anchors": ["qiskit/ignis/mitigation/expval/base_meas_mitigator.py:120-166", "qiskit/ignis/mitigation/expval/tensored_mitigator.py:64-121", "qiskit/ignis/mitigation/expval/complete_mitigator.py:51-108"]}
{"id": "C78", "title": "The matrix of a CNOT-dihedral element is the one its polynomial and affine function describe, and the group operations are those of matrices", "statement": "For an element without global phase to_matrix gives, up to one global phase, the matrix that sends every basis state x to the affine image of x times exp(i pi p(x)/4). It is unitary; composing elements multiplies the matrices (on any number of qubits on which compose does not raise); adjoint, transpose, conjugate and expand give the adjoint, transposed, conjugated matrix and the Kronecker product, up to global phase; elements with the same matrix up to phase are equal. tensor gives the Kronecker product in the wrong order, and products with a global phase have no matrix (refuted).", "quantifier": "all elements of any number of qubits, both values of front, all indices of the matrices", "why_tests_cant": "the tests compare a few random elements of at most four qubits; the number of elements grows faster than exponentially, and tensor is compared with circuits only, never with matrices", "anchors": ["qiskit/ignis/verification/randomized_benchmarking/dihedral.py:569-603", "qiskit/ignis/verification/randomized_benchmarking/dihedral.py:605-762", "qiskit/ignis/verification/randomized_benchmarking/dihedral.py:931-1308"]}
{"id": "C79", "title": "A benchmark run from the generated circuits to the reported error rates recovers the noise", "statement": "The gates that a circuit of randomized_benchmarking_seq has on a pattern are those of the elements drawn, of the interleaved elements between them and of the last inverse; as matrices these parts are unitary, there are as many as xdata reports (and the inverse), and they multiply to a phase. So if every part is followed by depolarising noise of strength lam, and the data of the fitter are the averages over the seeds of what these very circuits give, then standard, interleaved and purity benchmarking report lam (for interleaved circuits the strength of the interleaved element) and the infidelity of that noise. With the module's CNOT-dihedral group every call that returns is such a run.", "quantifier": "all arguments (patterns, multipliers, ascending lengths, seeds, interleaved elements), all draws, all groups meeting the contract and all their unitary gate matrices, all strengths in (0, 1), all fitters that minimise", "why_tests_cant": "tests compare the fit with stored results of simulations for a few circuits within tolerances; that the sequence generator, the reported lengths and the fit agree for every draw and every argument needs a proof across the three modules", "anchors": ["qiskit/ignis/verification/randomized_benchmarking/circuits.py:174-190", "qiskit/ignis/verification/randomized_benchmarking/circuits.py:193-632", "qiskit/ignis/verification/randomized_benchmarking/circuits.py:635-656", "qiskit/ignis/verification/randomized_benchmarking/fitters.py:394-432", "qiskit/ignis/verification/randomized_benchmarking/fitters.py:640-704"]}
{"id": "C80", "title": "Keys tell CNOT-dihedral elements apart, and their printed forms say what they do", "statement": "Two polynomials have the same key, so compare equal, exactly when all their coefficients agree; two elements exactly when their polynomials, linear parts and shifts agree. The printed sum of a polynomial, read with the usual rules, has the value of the polynomial at every point; the printed form of an element gives the phase of every basis state and the basis state to which it is sent. Different elements print differently, whatever their numbers of qubits; different polynomials do if they have the same number of variables.", "quantifier": "all polynomials and elements, on any number of qubits, with any coefficients (keys) or reduced ones (printed forms), and all basis states", "why_tests_cant": "tests compare a few elements; that string keys never collide, and that rows of the linear part are never empty so that every printed sum can be read, needs an argument over all elements and sizes", "anchors": ["qiskit/ignis/verification/randomized_benchmarking/dihedral.py:300-309", "qiskit/ignis/verification/randomized_benchmarking/dihedral.py:311-340", "qiskit/ignis/verification/randomized_benchmarking/dihedral.py:466-475", "qiskit/ignis/verification/randomized_benchmarking/dihedral.py:520-540"]}
{"id": "C81", "title": "Traps detect errors in a quarter of their random choices", "statement": "Let any Pauli errors follow the layers of two-qubit gates of a trap circuit, at least one of them not the identity, and let any qubits be prepared wrongly, with exact readout. Then the bits drawn for the trap determine its corrected outcome, whatever the one-time pads, and at least a quarter of the choices of these bits gives an outcome other than zeros. A quarter is reached. In a whole run with t traps that have such errors or wrong preparations, the bits drawn decide whether the fitter accepts the run, and at most (3/4)^t of their values have it accepted, whatever the target returns. With wrong readings as well, some errors are hidden from every trap.", "quantifier": "all circuits of u1, u2, u3 and cx gates with final measurements of all the qubits, on any number of qubits with any number of layers, both two-qubit gates, all Pauli errors of all the layers, all preparation errors, all streams of random bits, all numbers of traps and positions of the target", "why_tests_cant": "the number of errors and of random choices is exponential in the size of the circuit, and errors of several layers can cancel each other; that no combination escapes three choices in four needs an argument", "anchors": ["qiskit/ignis/verification/accreditation/circuits.py:70-102", "qiskit/ignis/verification/accreditation/circuits.py:104-176", "qiskit/ignis/verification/accreditation/qotp.py:130-220", "qiskit/ignis/verification/accreditation/qotp.py:262-279", "qiskit/ignis/verification/accreditation/fitters.py:51-96"]}
{"id": "C82", "title": "The version of the package tells the release and the commit", "statement": "When VERSION.txt holds a release number, perhaps with blanks around it, get_version_info returns that release if there is no repository, git fails, or a tag points at the commit; otherwise the release followed by .dev0+ and the first seven digits of the commit, or Unknown when git cannot tell it. The result is a valid version in the sense of PEP 440, and development versions of different releases or digits differ from each other and from every release. git runs with the language C and sees only PATH and SYSTEMROOT of the caller's environment, so that the version does not depend on other variables. setup.py reads the same release.", "quantifier": "all texts of VERSION.txt, environments, locations of the package, and all outcomes of the two git commands", "why_tests_cant": "a test sees one checkout, one environment and one git; a failing or killed git and other environments are not reproduced", "anchors": ["qiskit/ignis/version.py:25-42", "qiskit/ignis/version.py:45-54", "qiskit/ignis/version.py:57-58", "qiskit/ignis/version.py:61-83", "setup.py:40-46"]}
{"id": "C83", "title": "The bound of accreditation covers struck targets among accepted runs", "statement": "Let any Pauli errors follow the two-qubit layers of any of the circuits of a run, with any wrong preparations and exact readout. Over the positions of the target and the values of the random bits, at most 27/16 out of num_traps + 1 are accepted by the fitter although the target has such an error or a wrong preparation. Runs whose traps have no errors are always accepted. So whenever the acceptance seen by the fitter, less theta, does not exceed the probability of acceptance, the bound of bound_variation_distance is at least the probability that the target of an accepted run has an error or a wrong preparation.", "quantifier": "all circuits of u1, u2, u3 and cx gates with final measurements of all the qubits, any numbers of qubits, layers and traps, all sets of circuits with errors, all errors in them, all random bits, all states of the fitter and all theta", "why_tests_cant": "the claim is about all errors and averages over an exponential number of random choices; tests run noiseless circuits or one noise model with a few samples", "anchors": ["qiskit/ignis/verification/accreditation/fitters.py:51-96", "qiskit/ignis/verification/accreditation/fitters.py:98-116", "qiskit/ignis/verification/accreditation/circuits.py:70-102", "qiskit/ignis/verification/accreditation/circuits.py:104-176"]}
{"id": "C84", "title": "The confidence of accreditation is reached", "statement": "After independent runs, each accepted with the same probability, the part of accepted runs less theta does not exceed this probability with at least the confidence that bound_variation_distance computes; with that probability the bound covers struck targets among accepted runs (C83).", "quantifier": "all probabilities of acceptance, numbers of runs, theta and states of the fitter; for the bound also all circuits, traps and errors of C83", "why_tests_cant": "the claim is about the distribution over all sequences of runs; a test sees one sequence, and the formula for the confidence is never compared with frequencies", "anchors": ["qiskit/ignis/verification/accreditation/fitters.py:98-116"]}
