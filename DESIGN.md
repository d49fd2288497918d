# A machine-checked model of qiskit-ignis

The target is Qiskit/qiskit-ignis as found in `/repo`. The model is written in
Coq 8.16.1 under `rocq/theories/` (logical name `Verif`). The Python code was read as
text and never run; the tie between code and model is the file-and-line
citation carried by every definition.

## 1. Method

* **Shallow executable models.** Every modelled Python function is a total
  Gallina function over lists, `nat`/`N`/`Z`, strings and (where arithmetic is
  not integral) `Q`, an arbitrary ring/field, or the standard library's `R`.
* **Exceptions are values**: `Ok v | Err e`. The theorem statement covers the
  error branch; we never totalise with a silent default when the code raises.
* **Dictionaries** are association lists in insertion order (Python's dict
  order), with `dget`/`dset` as lookup and update.
* **Mutable objects** become records; a history of API calls becomes a list of
  operations folded over the state.
* **Floating point** is replaced by exact arithmetic. Each file says so.
* **Random choices** are universally quantified inputs.
* **External numerical routines** (`scipy` optimisers, `la.pinv`, `logm`,
  `curve_fit`, `networkx` matching, scikit-learn) are Section variables with
  the assumption written as a hypothesis in the theorem, or are left outside the model.
* **Quantum circuits** are lists of instructions. Where only X, CX, measure
  and reset occur the semantics is on classical basis states; elsewhere it is a
  state-vector semantics with complex amplitudes.

Every area has four files: `*Model.v` (definitions only, with citations),
`*Spec.v` (a small independent specification), `*Proofs.v`, and
`*Properties.v` (only property theorems, closed by `exact`, each followed by
`Print Assumptions`, plus `Example`s showing that hypotheses are met).

When the code violates a property, the violation is a theorem named
`..._refuted` with a concrete witness, the strongest true variant is proved
next to it, and section 4 records the finding.

## 2. Plan per property

| id | modelled code | how it is proved |
|----|---------------|------------------|
| C01-C05 | `tomography/data.py` whole file, `utils.py` | counts as association lists keyed by strings; induction on the dictionary; refutation by witness for `expectation_counts`, `count_keys(0)`, `pad_zeros` shortcut, aliasing |
| C06-C07 | `mitigation/measurement/circuits.py` | circuits as instruction lists over basis states; induction on the pattern |
| C08, C12 | `mitigation/measurement/fitters.py` | fold over results; matrices as functions of indices with rational entries; history = list of `add_data` calls |
| C09-C10 | `mitigation/measurement/filters.py` | entries in an arbitrary field; the pseudo-inverse is any inverse; induction on groups |
| C11 | `subset_fitter` | refutation by a product calibration; positive theorem for the reversed order |
| C13-C14 | `topological_codes/circuits.py`, graph construction | closed form of the processed string for a run with an arbitrary fault; parity argument |
| C15 | `GraphDecoder.matching` | the matching is any minimum-weight perfect matching; boundary/parity argument with a lower bound d on the distance between logical nodes |
| C16 | the three decoders' statistics | fold over dictionaries |
| C17-C21 | `dihedral.py` | polynomials mod 8 as coefficient lists; semantics on binary points; group action on basis states with a phase in Z/8; two-qubit decomposition by complete enumeration lifted with `forallb_forall` |
| C22-C25 | `randomized_benchmarking/circuits.py`, `rb_groups.py` | abstract group of elements; random elements universally quantified; induction over the length loop |
| C26-C27 | `rb_utils.py` | rational/real arithmetic |
| C28 | `randomized_benchmarking/fitters.py` bookkeeping | history induction |
| C29-C33 | `mitigation/expval/*` | exact arithmetic over Q/R; Kronecker products by induction |
| C34-C35 | `ctmp_*` | generator matrices over R; exponential series |
| C36-C38 | `accreditation/qotp.py`, `circuits.py` | state-vector semantics; Pauli frame invariant by induction over layers |
| C39 | `accreditation/fitters.py` | state machine with a class-level shared list |
| C40-C41 | `entanglement/*` | state-vector semantics; invariant of the breadth-first construction |
| C42-C43 | `quantum_volume/fitters.py` | rational lists, sorting, counting |
| C44-C46 | tomography circuits, bases, fitter rows | products of label lists; 2x2 complex matrices; Kronecker products |
| C47 | `make_positive_semidefinite` | induction over the sorted spectrum; KKT argument for the projection |
| C48 | `partial_trace_super` | index computation for all dimensions |
| C49 | `linear_inversion` | matrix algebra over a field |
| C50 | `add_data` | history model |
| C51 | discriminators | list lengths; refutations |
| C52 | logging | character-level format and parser |
| C53-C54 | characterisation circuits and fitters | single-qubit algebra, history model |
| C55 | `RepetitionCode.process_results` | injectivity of the processed string; fold over the dictionary |
| C56-C57 | `random_cnotdihedral`, `make_dict_0`, `make_dict_next` | draws universally quantified; invariant of the breadth-first dictionaries |
| C58 | seeds in `randomized_benchmarking_seq` | arithmetic on the loop indices |
| C59 | `expval/circuits.py`, `utils.py`, `fitter.py` | basis-state semantics, fold over results |
| C60 | parity oscillations of GHZ states | state-vector semantics; trigonometric identities over R |
| C61 | `quantum_volume/circuits.py` | instruction lists; the random circuit is a parameter |
| C62 | tomography from circuit to fit | exact statistics of any density matrix; matrix algebra over C |
| C63 | `characterization/gates/*` | rotations as 2x2 complex matrices; powers by induction |
| C64-C67 | gate-set optimisation and gauge | vectors and matrices over R and C; scipy's `minimize` is any function that finds a minimum of the problem at hand |
| C68 | coherence experiments | Kraus semantics of amplitude and phase damping; `curve_fit` is any function exact on the data at hand |
| C69-C70 | IQ data, pulse calibrations, U gate update | complex lists; schedules as timed instruction lists with a rotating-frame semantics |
| C71 | RB fits | depolarising channels and twirls over density matrices; `curve_fit` as above; derivatives for the error bars |
| C72 | convex tomography fit | physical matrices over C; least squares with real parts; `solves` (accepted values are an optimum of the problem), shown satisfiable by the exact state |
| C73 | GHZ fidelities (`entanglement/analysis.py`) | quadratic forms of states over C; signals by the Born rule; discrete Fourier transform as a sum of roots of unity |
| C74 | Least squares correction of counts (`mitigation/measurement/filters.py`) | best physical vector: projection on the simplex in finite-dimensional Euclidean space, existence by completeness of R |
| C75 | Initial guesses of the fits (`guess_params` of `characterization/`), `time_to_ngates` | discrete Fourier transform of data near a wave: triangle inequality on the peaks, argument of a complex number |
| C76 | `get_single_q_pulse`, reading the pulse of a gate from the instruction map | sums of squares of complex differences; odd and even envelopes are orthogonal; phase frames of schedules |
| C77 | `required_shots`, `stddev_upper_bound` and the value returned for random shots | probability over all sequences of outcomes; variance of an average; Chebyshev's inequality |
| C78 | `to_operator`, `to_matrix` of dihedral.py | exact matrices over the eighth roots of unity; the circuit's action on basis states (C20) gives the entries; products of monomial matrices |
| C79 | RB circuits and RB fits together | matrices of the parts of the circuits (C22, C23) over C; C71 for the estimates; the CNOT-dihedral group through a homomorphism from Q(zeta_8) to C |
| C80 | string forms of CNOT-dihedral polynomials and elements | prefix-free keys; a reader of printed sums (`DihStrSpec.v`) against the values of C13-C17; surjectivity of the affine map for the rows |
| C81 | errors in the traps of accreditation | `AccErrSpec.v`: circuits with X and Z gates inserted; Pauli frames through Clifford gates, location by location; four choices of two bits of which one detects; counting over the cube of choices, and over the bits of whole runs |
| C82 | version of the package | `VersionSpec.v`: PEP 440 versions as words separated by dots; outcomes of git by cases; the first `+` splits a version |
| C83 | bound of accreditation | pairs of a position of the target and of random bits are counted; h struck circuits give at most h (3/4)^(h-1) <= 27/16; rational arithmetic to the bound of C39 |
| C84 | confidence of accreditation | `AccConfSpec.v`: independent runs accepted with the same probability, over all sequences of outcomes (C77); Chebyshev's and Hoeffding's inequalities; the outcome where all runs are accepted against the exponential |

## 3. Trusted base

* Coq's kernel (8.16.1), and `vm_compute` where used.
* The axioms listed by `Print Assumptions` under each theorem (section 5). They
  are all axioms of the standard library: the two of its real numbers, and
  classical logic and functional extensionality where the real numbers or
  Coquelicot bring them in. No theorem uses an axiom of this project.
* The reading of the Python code, and the documented behaviour of the
  libraries it calls (Qiskit Terra circuits and results, numpy, scipy,
  networkx, scikit-learn). Where such a library is used, it is either modelled
  (the model says so) or a parameter with a contract that is a visible
  hypothesis of the theorem.

### What is modelled, and what is not

Paths are relative to `qiskit/ignis/`.

| code | model | not modelled |
|------|-------|--------------|
| `verification/tomography/data.py`, `utils.py` | `CountsModel.v`, all | |
| `mitigation/measurement/circuits.py`, `fitters.py`, `filters.py` | `MeasCalModel.v`, `MeasLsqModel.v` (least squares, `Result` input) | plots; scipy's SLSQP `minimize` (a parameter with a contract: it returns a feasible point that minimises the objective, whereas SLSQP is iterative with tolerance 1e-6) |
| `verification/topological_codes/circuits.py`, `fitters.py` | `RepCodeModel.v`, `BasisSem.v` | plots; networkx's shortest paths and matching are parameters |
| `verification/randomized_benchmarking/dihedral.py` | `DihedralModel.v` (any order of sets: `DihedralAnyProofs.v`), `DihedralMatModel.v` (`to_matrix`; Terra's `Operator` of a circuit is the product of the exact matrices of the gates), `DihStrModel.v` (`key`, `__str__`) | construction from other Terra objects; negative indices |
| `randomized_benchmarking/circuits.py`, `rb_groups.py` | `RBSeqModel.v` | Terra's Clifford group (a parameter); deprecation warnings; a RandomState as seed |
| `randomized_benchmarking/rb_utils.py` | `RBUtilsModel.v`, `RBErrModel.v` | deprecation warnings; complex results for error rates above one half |
| `randomized_benchmarking/fitters.py` | `RBFitModel.v` (data), `RBEstModel.v` (fits) | `curve_fit` (a parameter), plots |
| `mitigation/expval/*` | `ExpvalModel.v`, `CtmpModel.v` | plots; caches; random generators (their draws are arguments); `scipy.linalg.logm` and `expm` (a parameter, a limit) |
| `verification/accreditation/*` | `AccModel.v`, `QSem.v` | `transpile` (a parameter that keeps the action of the circuit) |
| `verification/entanglement/*` | `EntModel.v`, `EntFidModel.v` (`get_fourier_info`, `rho_to_fidelity`) | transpilation in `BConfig`; what is plotted and printed |
| `verification/quantum_volume/*` | `QVModel.v` | plots; Terra's `QuantumVolume` circuit (a parameter); `math.erf` (a parameter) |
| `verification/tomography/basis/*` | `TomoModel.v`, `GstModel.v` | a bare function as basis; warnings |
| `verification/tomography/fitters/*` | `TomoFitModel.v`, `CvxModel.v`, `GstModel.v`, `GstOptModel.v` | `lstsq`, `eigh`, `prob.solve` of `cvxpy` and scipy's `minimize` (parameters); the `ImportError` without `cvxpy` |
| `characterization/*` | `CharModel.v`, `CharEstModel.v` (fits), `IQModel.v` (IQ data, Rabi and Drag fits), `PulseModel.v` (`calibrations/`), `GuessModel.v` (`guess_params`, `time_to_ngates`), `PulseReadModel.v` (`get_single_q_pulse`) | `curve_fit`, `least_squares`, the samples of a pulse and the envelope of `pulse_lib.drag` (parameters); plots; the floating-point Fourier transform of numpy (exact here) |
| `measurement/discriminator/*` | `DiscModel.v` | plots; scikit-learn's classifiers and scaler (parameters); level-0 data |
| `logging/ignis_logging.py` | `LogModel.v` | handlers of parent loggers, threads, other processes; formats of `strptime` other than the default one (a parameter) |
| `version.py`, and the version in `setup.py` | `VersionModel.v` | running git (a parameter) |
| `numba.py`, `__init__.py` files | | all |

Floating point is replaced by exact arithmetic everywhere (`Q`, `Qc`, `R`, `C`
or an arbitrary field), so rounding, overflow and nan are outside the model
except where a file says that nan is represented (`None`).

## 4. Findings

Where the code does not do what the property (usually its documentation) says,
a theorem named `..._refuted` exhibits an input. In short:

**Counts (C01–C05).** `marginal_counts(pad_zeros=True)` pads nothing when all
qubits are kept. `count_keys(0)` returns `['0']`. `combine_counts` overwrites
its first argument. `expectation_counts` returns bit-reversed keys, and its
identity key is always `'00'`.

**Measurement calibration (C08, C10, C11).** A classical register larger than
the calibrated qubits makes noiseless data fit to a wrong matrix. A circuit
name repeated within one result is counted twice. `subset_fitter` calibrates
the mirrored qubits. An unknown method is not rejected for empty data;
`method=None`, documented as least squares, raises.

**CNOT-dihedral group (C17–C21).** `mul_monomial` relies on the iteration order
of a set, so products fail for every `n >= 9`; hence CNOT-dihedral RB does too.
Whatever the order, a product that does not raise is right (`C17_never_wrong`).
The matrix of `tensor` is the Kronecker product of the factors in the wrong order
(`C78_tensor_refuted`); `expand` gives what `tensor` should.
`__rmul__` uses the wrong shift. Circuits named like a gate are misread;
`t`, `s`, `tdg`, `sdg` are refused; angles that are not multiples of pi/4 are
truncated; `cnot(i, i)` is not refused. Multiplication of polynomials drops
degrees above three. `evaluate` on integers raises. Products with a global
phase cannot be decomposed. `tensor` and `expand` are in the order opposite to
the matrix convention.

**RB sequences (C23–C25, C58).** Circuits are missing for zero, descending or
repeated lengths. Scalar length multipliers are not checked. A missing comma in
`rb_groups.py:43-44` refuses `'NonClifford'` and `'CNOTDihedral'`. Letters X and
Y of the purity bases are swapped, and results in another order silently give a
purity above one. `rand_seed=0` draws all elements with the same seed.

**RB utilities and fitters (C26–C28).** Repeated qubits or gates are divided
twice; empty lists raise IndexError. Conversions between errors per gate and
per Clifford are not mutually inverse for gate counts other than one; a missing
qubit raises KeyError rather than the documented QiskitError. The interleaved
and CNOT-dihedral fitters store the constructor's results twice, so that they
weigh double after a further `add_data`. `PurityRBFitter.cliff_lengths` calls
itself without end; `alpha_pur_err` uses the square root of the estimate.

**Expectation values (C30–C35).** Lists of classical bits that are not
increasing are silently sorted. Tensored: gamma is negative for flip
probabilities above one half, matrices of qubit subsets are wrong or raise,
surplus matrices give a wrong value. Complete and CTMP: observables on permuted
qubit lists are evaluated on the wrong qubits. The first listed qubit of
`assignment_matrix` is the most significant one, opposite to the probability
vectors. The documented number of required shots, 4 δ² Γ², is not the formula
used. The matrices reported by the CTMP mitigator are those of the
bit-complemented process; its single-qubit rates are those of the opposite flip;
for one qubit all rates are nan and dropped; a list of pairs is refused unless it
has all pairs.

**Accreditation (C36–C39).** The correction is ordered by qubit, not by
classical bit. Measurements before the end are moved to the end. The fitter's
errors are constructed but not raised, its list of outputs is shared by all
fitters, and its bound is stale when too few runs are accepted.

**Entanglement (C41).** Repeated pairs of the coupling map make a qubit a target
twice; qubits further than 51 steps from the root are left out; qubit 0 must be
coupled; `n = 1` raises IndexError; too large `n` leaves idle qubits.

**Quantum volume (C43, C61).** Data rejected by `add_data` stays in the fitter;
the same data can be added twice. A list whose largest qubit equals its length
runs on qubits `0..d-1`; descending lists permute the bits; equal depths give
equal names; seed 0 is no seed.

**Tomography (C44, C47, C49, C50).** `tomography_circuit_tuples` yields
(preparation, measurement), opposite to its documentation. Only the last result
of a call is used; state tomography of a circuit with further classical
registers keeps the first bit only; a missing circuit given by name raises
AttributeError. A spectrum with negative sum loses its sum. The gate-set
optimiser requires Pauli vectors reshaped to 2x2 to be positive, which excludes
physical states.

**Discriminators (C51).** `get_ydata` adds labels for every result that has the
schedule, `get_xdata` uses one: the same calibration in two results cannot be
fitted. Averaged data get one label per qubit. Repeated schedule names share the
last label. `add_data` forgets the old training data. Labels that are all zero
give base 1, which `int` refuses. Averaged data and equal experiment names
misassign predictions.

**Logging (C52).** Values with blanks, as in the documented example, are split
by the reader. A line feed in a value makes dated reads fail. Two loggers with
rotation lose or reorder rows. `max_size` without `max_rotations` has no effect.
Repeated `get_logger` prints rows. The path is lower-cased and cut at a colon.
Any file whose name is the path, one character and digits counts as a log file.

**Characterisation (C53, C63).** With an even number of Y echoes T2 circuits end
in 1 while the fitter counts 0. `anglecal_1Q_circuits` with an artificial error
ends with U1(-err) where the fitted function needs -2 err.
`zz_circuits` raises TypeError for a list and a float.

**Gate-set optimisation (C64–C67).** Positivity is imposed on the Pauli vectors
of state and effect reshaped to square matrices: this excludes |1> and |+> and
allows matrices that are not Hermitian. The trace constraint is right for one
qubit only. The gauge search starts at the inverse of the optimum. The matrix of
a SPAM sequence is the product of its gates in the reverse order.

**Coherence fits (C68).** With an even number of Y pulses the T2 data follow the
fitted function with amplitude -1/2 only, so that bounds must allow it.

**IQ data and pulses (C69–C70).** Single-shot IQ data always fail. Data on the
anti-diagonal project to zero; constant data give nan and a ValueError. Errors of
the Rabi and Drag fitters are constructed but not raised. The fitters read the
memory slot by position in `qubits`, the schedules fill the slot of the qubit.

**Whole benchmarks (C79).** Composes C22, C23 and C71: the noise is depolarising, after
every element (the physical gates of an element count as one), all shots are exact
averages, `curve_fit` returns a minimiser. Patterns are treated one at a time: the
probabilities are those of the qubits of one pattern. Clifford elements are Terra's and
enter through the contract `lawful`; the CNOT-dihedral group is proved to meet it
(`C79_dihedral`, at most eight qubits).

**RB fits (C71).** `epc_err`, the errors of the purity fit and `alpha_err` of the
CNOT-dihedral fit are not the propagated errors. The purity fit reports an `epc`
computed from the square of the parameter. Exact data that fall below 1/2^n are
rejected with ValueError because the initial guess violates the bounds. `pepc`
uses the number of qubits of the first pattern.

**Convex fit (C72).** The keyword `max_iters` does not bound the iterations: the
solver is always asked for 5000 first, and only the doubling stops at it
(`C72_max_iters_refuted`).

**GHZ fidelities (C73).** The raw fidelity of the multiple-quantum-coherence
experiment is computed from the mitigated populations (analysis.py:192): a state
of fidelity 0 is reported with 1/2. Its upper bound is no bound for states that
flipping every qubit changes: the circuits contain that flip, the formula does
not. With 2n phases for n qubits, parity oscillations report a perfect state as
1/2. `rho_to_fidelity` is the fidelity for the best phase, not that with the GHZ
state.

**Initial guesses (C75).** The guessed amplitude of T2* and Rabi data is their
maximum, offset included (`C75_amplitude_refuted`). The phase is that at the first
delay, the fit counts it from zero (`C75_phase_refuted`). `RabiFitter` searches the
constant term too: with an offset above half the amplitude the guessed frequency is
0 (`C75_rabi_offset_refuted`). `DragFitter` takes the extremum nearer to 0 for the
vertex (`C75_drag_refuted`).

**Reading pulses (C76).** A qubit whose u2 plays nothing is given the pulse of the
qubit before it in the list (`C76_stale_refuted`). The result is ordered by
position, and `update_u_gates` indexes it by qubit number (`C76_order_refuted`).
The fit turns drag pulses by -pi/2, `update_u_gates` turns the frame by +pi/2: with
the phase convention documented for qiskit.pulse (a phase shift by x multiplies
later samples by exp(ix)) what was read and written back is the opposite pulse
(`C76_roundtrip_refuted`), and what was written cannot be read
(`C76_readback_refuted`).

**Required shots (C77).** The documented number 4δ²Γ² is a slip for 4Γ²/δ², which
the code computes and which is proved sufficient, even for probability 3/4. It
does not depend on the observable: for values beyond ±1 it is too small
(`C77_scale_refuted`).

**The bound of accreditation (C83).** The constant 1.7 in `bound_variation_distance` is
justified: 27/16 suffices (`C83_struck_and_accepted`), for Pauli errors after the two-qubit
layers, wrong preparations and exact readout. That the acceptance seen, less theta, is below the probability of
acceptance is a hypothesis of `C83_bound_holds`.

**The confidence of accreditation (C84).** That hypothesis holds with probability at least
1 - 1/(4 N theta^2) and at least 1 - exp(-2 theta^2 N) for N independent runs
(`C84_estimate`, `C84_hoeffding`), hence so does the bound (`C84_bound_holds`). The fitter computes 1 - 2 exp(-2 theta N^2) where Hoeffding's inequality
gives 1 - 2 exp(-2 theta^2 N); for runs accepted with probability 1/2 the computed
confidence is never reached once N + 1 <= 2 theta N^2 and theta < 1/2
(`C84_confidence_refuted`).

**Version (C82).** A git killed by a signal has a negative return code, which
`_minimal_ext_cmd` takes for success; the version then ends with `+` and is not valid
(`C82_killed_refuted`). A version file that begins with blanks gives `setup.py`, which uses
`rstrip`, another version than the package (`C82_setup`).

**Errors hidden from the traps (C81).** The traps of `_routine_two` are all-zero circuits
with a random basis and a random dressing of each two-qubit gate. With exact readout any
Pauli errors after the two-qubit layers are seen by a quarter of the choices, whatever
qubits are prepared wrongly, so that a run with t traps struck is accepted for at most
(3/4)^t of its random bits (`C81_run_rarely_accepted`; the position of the target is
given and the bits of all its circuits vary). When readings may be wrong too this is lost: for one cx or cz,
qubit 1 prepared and read wrongly together with a Z on qubit 0 give zeros for every trap
(`C81_readout_errors_hide`). Errors are Pauli operators applied at fixed places, as the
pads make them; that twirling itself (from general noise to random Paulis) is not modelled,
nor are errors inside single-qubit layers, which can be moved to the neighbouring places.

**Printed polynomials (C80).** `__eq__` compares the string keys, where `DihedralModel.v`
compares the coefficients; `C80_polynomial_key` and `C80_element_key` show that these
agree. Polynomials in different numbers of variables are different, yet may print alike:
the zero polynomials all print `0` (`C80_polynomial_string_distinct_refuted`). Elements do
not have this fault, for their affine part prints one sum per qubit.

## 5. Assumptions per theorem

`Print Assumptions` under each theorem in the `*Properties.v` files; grouped here by
what it lists. All axioms are the standard library's.

**Closed under the global context (no axioms)** — 333 theorems:

`C01_marginal_counts_default`, `C01_marginal_counts_exact`, `C01_pad_zeros_full_refuted`,
`C02_marginal_counts_compose`, `C03_count_keys_enumerates_partial`, `C03_count_keys_zero_refuted`,
`C04_build_counts_order_irrelevant`, `C04_build_counts_sum`, `C04_combine_counts_comm_assoc`,
`C04_combine_counts_effect`, `C04_combine_counts_modifies_argument_refuted`,
`C04_combine_counts_pointwise`, `C05_expectation_counts_identity_key_refuted`,
`C05_expectation_counts_key_order_refuted`, `C05_expectation_counts_reversed_partial`,
`C06_circuits_read_back_label`, `C06_complete_read_back`, `C06_default_register`,
`C06_tensored_succeeds`, `C06_whole_register`, `C07_labels_complete`, `C07_no_input_rejected`,
`C07_repeated_qubit_rejected`, `C08_columns_stochastic_or_zero`, `C08_matrices_are_frequencies`,
`C08_no_error`, `C08_noiseless_calibration_is_identity`, `C08_order_and_batching_irrelevant`,
`C08_repeated_name_refuted`, `C08_wide_register_refuted`, `C09_filter_keeps_shots`,
`C09_filter_undoes_noise`, `C09_tensored_keeps_shots`, `C09_tensored_undoes_noise`,
`C10_bad_length_rejected`, `C10_blocks_independent`, `C10_dict_matches_list`,
`C10_unknown_label_rejected`, `C10_unknown_method_empty_list_refuted`,
`C10_unknown_method_rejected`, `C11_subset_calibrates_mirrored_qubits`, `C11_subset_refuted`,
`C11_subset_symmetric_partial`, `C12_fidelity_in_unit_interval`, `C12_fidelity_is_mean_diagonal`,
`C12_no_calibration_rejected`, `C12_noiseless_fidelity_is_one`, `C13_noiseless_code_is_trivial`,
`C14_graph_connected`, `C14_graph_construction_succeeds`, `C14_logical_nodes_distance_d`,
`C14_single_fault_zero_or_two_nodes`, `C15_contracts_satisfiable`,
`C15_matching_corrects_few_faults`, `C15_no_logical_errors`, `C16_lookup_statistics`,
`C16_matching_statistics`, `C16_no_shots_rejected`, `C16_postselection_statistics`,
`C16_proportions`, `C16_selected_iff_trivial_syndrome`, `C17_never_wrong`, `C17_never_wrong_any`,
`C17_product_is_composition_partial`, `C17_product_is_composition_sorted_sets`,
`C17_product_refuted`, `C17_rmul_partial`, `C17_rmul_refuted`, `C17_union_order`,
`C18_append_circuit_partial`, `C18_circuit_name_refuted`, `C18_cnot`, `C18_flip`,
`C18_from_circuit_partial`, `C18_phase`, `C18_t_s_refuted`, `C18_u1_truncated_refuted`,
`C19_addition`, `C19_evaluate_integers_refuted`, `C19_low_small`, `C19_multiplication_partial`,
`C19_multiplication_refuted`, `C19_multiplication_sorted_sets_partial`, `C19_never_wrong`,
`C19_normal_form`, `C19_scalar`, `C19_slots`, `C19_union`, `C19_value_of_terms`,
`C20_decompose_partial`, `C20_global_phase_refuted`, `C21_adjoint_cancels_partial`,
`C21_adjoint_partial`, `C21_adjoint_refuted`, `C21_compose_never_wrong`, `C21_compose_partial`,
`C21_compose_sorted_sets`, `C21_conjugate_partial`, `C21_dot_never_wrong`, `C21_dot_partial`,
`C21_expand_partial`, `C21_tensor_order_refuted`, `C21_tensor_partial`, `C21_transpose_partial`,
`C22_circuits_are_identities`, `C22_dihedral_group_lawful`, `C22_dihedral_sequences`,
`C22_ground_state_returns`, `C22_valid_arguments_accepted`, `C23_circuits_follow_the_draws`,
`C23_names_distinct`, `C23_names_looked_up`, `C23_one_circuit_per_length_partial`,
`C23_one_circuit_per_length_refuted`, `C23_xdata_counts_elements`, `C24_group_names_iff`,
`C24_group_names_refuted`, `C24_multiplier_scalar`, `C24_multiplier_scalar_refuted`,
`C24_multiplier_sequence_iff`, `C24_pattern_accepted_iff`, `C24_pattern_values`,
`C25_bases_enumerated`, `C25_bases_per_pauli`, `C25_letters_refuted`, `C25_purity_circuits`,
`C25_purity_consistent`, `C25_purity_estimate`, `C25_purity_order_refuted`,
`C25_rotations_measure`, `C26_bad_arguments_refuted`, `C26_count_gates`,
`C26_count_repeated_basis_refuted`, `C26_denominator`, `C26_gates_per_clifford`,
`C26_malformed_refused`, `C26_order_free`, `C26_repeated_qubit_refuted`,
`C28_default_pattern_refuted`, `C28_defined`, `C28_history`, `C28_wrapped`, `C28_wrapped_refuted`,
`C29_bounds`, `C29_deviation_defined`, `C29_mean_and_variance`, `C29_parity_any_keys`,
`C29_zero_shots`, `C30_clbits_order_refuted`, `C30_every_outcome`, `C30_plain`, `C30_remapped`,
`C31_exact`, `C31_fidelity`, `C31_gamma`, `C31_gamma_negative_refuted`, `C31_matrix_partial`,
`C31_mitigated_observable`, `C31_overhead`, `C31_subset_matrix_refuted`, `C31_surplus_refuted`,
`C32_as_listed_parity`, `C32_as_listed_sorted`, `C32_exact_no_list`, `C32_exact_parity`,
`C32_exact_rearranged`, `C32_exact_sorted`, `C32_gamma`, `C32_identity`, `C32_permuted_refuted`,
`C32_whole_register`, `C33_full`, `C33_full_is_decreasing_list`, `C33_local`,
`C34_generator_markov`, `C34_kept_rates`, `C34_no_qubits`, `C34_sampling_stochastic`,
`C34_standard_generators`, `C34_step_unique`, `C35_bad_pair_refused`, `C35_fitted_rates_partial`,
`C35_one_qubit_ignored`, `C35_single_qubit_rate_refuted`, `C35_standard_fit_partial`,
`C36_corrected_counts`, `C36_distribution_preserved`, `C36_no_failure`,
`C36_other_measurements_refuted`, `C37_early_measurement_refuted`, `C37_layers_preserve`,
`C37_no_failure`, `C37_other_gates_refused`, `C38_no_failure`, `C38_noiseless_run_accepted`,
`C38_traps_return_zeros`, `C39_single_run`, `C40_ghz_succeeds`, `C41_distance_refuted`,
`C41_layout_partial`, `C41_one_qubit_refuted`, `C41_order`, `C41_qubit_0_refuted`,
`C41_repeated_pair_refuted`, `C41_tiers_partial`, `C41_too_many_qubits_refuted`,
`C42_heavy_outputs`, `C42_ideal_accepted`, `C42_median_unique`, `C43_data_early`,
`C43_data_early_error`, `C43_data_twice_refuted`, `C43_heavy_counts`, `C43_ideal_twice`,
`C43_ideal_twice_error`, `C43_means`, `C43_missing_trial_refuted`,
`C43_rejected_data_kept_refuted`, `C43_volume`, `C44_tuples`, `C44_tuples_refuted`, `C45_labels`,
`C49_exact`, `C49_gauge`, `C49_inversion`, `C49_objective`, `C50_history_partial`, `C50_missing`,
`C51_add_data`, `C51_average_refuted`, `C51_base`, `C51_counts_partial`, `C51_counts_refuted`,
`C51_default`, `C51_end_to_end`, `C51_lengths`, `C51_same_name_refuted`, `C51_training_partial`,
`C51_training_refuted`, `C51_zero_labels`, `C52_config_partial`, `C52_config_refuted`,
`C52_console_partial`, `C52_console_refuted`, `C52_date`, `C52_disabled`, `C52_files_refuted`,
`C52_history_partial`, `C52_line_refuted`, `C52_no_file`, `C52_order`, `C52_parse`,
`C52_read_partial`, `C52_read_refuted`, `C52_rotation`, `C52_rotation_refuted`,
`C52_sequence_refuted`, `C52_settings`, `C52_size_refuted`, `C52_warning`, `C53_t2_refused`,
`C54_order`, `C55_processing_injective`, `C55_processing_keeps_every_outcome`,
`C56_random_element_onto`, `C56_random_element_valid`, `C57_next_dictionary`,
`C57_zero_cnot_dictionary`, `C58_no_seed`, `C58_positive_seed`, `C58_zero_seed_refuted`,
`C59_calibration_data`, `C59_circuits`, `C59_complete_labels`, `C59_ctmp_labels`,
`C59_fit_tensored`, `C59_tensored_labels`, `C59_unknown_method`, `C60_no_qubits`,
`C60_parity_of_counts`, `C61_all_circuits`, `C61_circuit_partial`, `C61_descending_refuted`,
`C61_names`, `C61_outcomes_partial`, `C61_placement_refuted`, `C61_same_depth_refuted`,
`C61_seed_zero_refuted`, `C61_seeded`, `C63_controls`, `C72_solver`, `C74_result_form`,
`C77_complete`, `C77_counts`, `C77_least`, `C77_required_shots`, `C77_scale_refuted`,
`C77_unbiased`, `C78_adjoint_partial`, `C78_compose_partial`, `C78_conjugate_partial`,
`C78_entries_partial`, `C78_expand_partial`, `C78_faithful_partial`, `C78_product_refuted`,
`C78_tensor_partial`, `C78_tensor_refuted`, `C78_transpose_partial`, `C78_unitary_partial`,
`C80_element_key`, `C80_element_string`, `C80_element_string_distinct`, `C80_polynomial_key`,
`C80_polynomial_string`, `C80_polynomial_string_distinct_partial`,
`C80_polynomial_string_distinct_refuted`, `C80_zero_row`, `C81_outcome_determined`,
`C81_quarter_is_reached`, `C81_readout_errors_hide`, `C81_run_rarely_accepted`, `C81_traps_detect`,
`C82_development`, `C82_distinct`, `C82_environment`, `C82_killed_refuted`, `C82_other_variables`,
`C82_released`, `C82_setup`, `C82_valid`, `C83_constant`, `C83_struck_and_accepted`,
`C84_estimate`.

**`ClassicalDedekindReals.sig_forall_dec`** — 2 theorems:

`C38_other_measurements_refuted`, `C39_malformed_refuted`.

**`ClassicalDedekindReals.sig_forall_dec`, `FunctionalExtensionality.functional_extensionality_dep`** — 44 theorems:

`C27_epg_1q_adds_up`, `C40_ghz_first_qubit`, `C40_ghz_outcomes`, `C40_ghz_state`, `C46_isometric`,
`C46_process_row`, `C46_state_row`, `C47_negative_sum`, `C47_nonnegative`, `C47_spectrum`,
`C47_threshold`, `C48_partial_trace`, `C48_shape`, `C49_objective_minimum`, `C50_missing_refuted`,
`C50_results_refuted`, `C50_state_registers_refuted`, `C64_decoding`, `C65_constraints`,
`C66_objective`, `C67_spam_matrix`, `C70_drag_schedules`, `C70_rabi_schedules`, `C70_rabi_width`,
`C70_width`, `C72_physical`, `C74_agrees_with_inverse`, `C74_filter_best`,
`C74_filter_error_bound`, `C74_filter_recovers`, `C74_list_best`, `C74_start`,
`C74_start_irrelevant`, `C74_tensored_best`, `C74_tensored_error_bound`,
`C74_tensored_matches_filter`, `C74_tensored_recovers`, `C75_drag`, `C75_drag_refuted`,
`C75_ngates`, `C79_circuits_multiply`, `C79_circuits_unitary`, `C79_closes`, `C79_parts`.

**`ClassicalDedekindReals.sig_forall_dec`, `ClassicalDedekindReals.sig_not_dec`, `FunctionalExtensionality.functional_extensionality_dep`** — 100 theorems:

`C27_coherence_defined`, `C27_coherence_error`, `C27_coherence_instant`, `C27_coherence_limit`,
`C34_estimate`, `C34_exponential_converges`, `C34_mixture_inverts`, `C34_reported_complemented`,
`C39_acc_le_runs`, `C39_accepted_count`, `C39_bound_range`, `C39_bound_value`,
`C39_independent_refuted`, `C39_stale_bound_refuted`, `C40_mqc_ground`, `C43_verdict_any_erf`,
`C44_defaults`, `C44_gst_add_gate_refuted`, `C44_gst_circuits`, `C44_process_circuits`,
`C44_state_circuits`, `C45_sic`, `C46_process_system`, `C46_state_system`, `C47_fit_physical`,
`C47_matrix`, `C53_t1`, `C53_t2_partial`, `C53_t2_refuted`, `C53_t2star`, `C53_t2star_still`,
`C53_zz`, `C54_data`, `C54_missing`, `C60_po_mean_parity`, `C60_po_outcomes`, `C62_complete`,
`C62_process`, `C62_state`, `C62_state_data`, `C63_ampcal`, `C63_ampcx`, `C63_anglecal`,
`C63_anglecal_artificial`, `C63_anglecal_refuted`, `C63_anglecx`, `C64_encoding`,
`C64_hermitian_refuted`, `C64_root`, `C64_states`, `C64_states_refuted`, `C65_feasible`,
`C65_trace`, `C65_trace_refuted`, `C66_fit`, `C67_best_gauge`, `C67_gauge`,
`C67_spam_matrix_refuted`, `C67_start_refuted`, `C68_fit`, `C68_t2star`, `C68_time`, `C68_zz`,
`C69_accepts`, `C69_affine`, `C69_average`, `C69_constant`, `C69_maximum_refuted`, `C69_missing`,
`C69_projection`, `C69_signal`, `C69_single_refuted`, `C70_drag`, `C70_given_plays`,
`C70_given_pulses`, `C70_rabi`, `C70_update`, `C70_update_again`, `C70_update_ok`, `C72_attempts`,
`C72_fit`, `C72_max_iters_refuted`, `C72_objective`, `C72_problem`, `C72_process`, `C72_shapes`,
`C72_state`, `C72_trace_conflict`, `C73_circuit_signals`, `C76_best`, `C76_exact`, `C76_improves`,
`C76_order_refuted`, `C76_readback_refuted`, `C76_roundtrip_refuted`, `C76_stale_refuted`,
`C76_total`, `C79_dihedral`, `C79_embedding`, `C83_bound_holds`.

**`ClassicalDedekindReals.sig_forall_dec`, `ClassicalDedekindReals.sig_not_dec`, `Classical_Prop.classic`, `FunctionalExtensionality.functional_extensionality_dep`** — 63 theorems:

`C27_coherence_monotone`, `C27_coherence_range`, `C27_epc_1q`, `C27_epc_2q`, `C27_error_free_1q`,
`C27_error_free_2q`, `C27_errors`, `C27_errors_refuted`, `C27_range_1q`, `C27_range_2q`,
`C27_roundtrip_1q`, `C27_roundtrip_1q_exact`, `C27_roundtrip_1q_first_order`, `C27_roundtrip_2q`,
`C27_roundtrip_2q_below`, `C27_roundtrip_2q_exact`, `C27_roundtrip_2q_first_order`,
`C27_roundtrip_refuted`, `C27_two_functions_agree`, `C34_reported_matrix_refuted`, `C34_samples`,
`C43_threshold`, `C43_verdict`, `C45_pauli_measurement`, `C45_pauli_povm`, `C45_preparation`,
`C45_states`, `C68_t1`, `C68_t2`, `C71_benchmark`, `C71_dihedral`, `C71_dihedral_err_refuted`,
`C71_epc_err_refuted`, `C71_fit`, `C71_guess`, `C71_guess_refuted`, `C71_interleaved`,
`C71_purity`, `C71_purity_epc_refuted`, `C71_purity_err_refuted`, `C73_mqc_fidelity_partial`,
`C73_phases_refuted`, `C73_po_fidelity`, `C73_raw_fidelity_refuted`, `C73_rho_fidelity`,
`C73_rho_phase_refuted`, `C73_upper_bound_refuted`, `C74_solvable`, `C74_tensored_solvable`,
`C75_ampcal`, `C75_amplitude_refuted`, `C75_phase_refuted`, `C75_rabi`, `C75_rabi_offset_refuted`,
`C75_rabi_projected`, `C75_t2star`, `C75_t2star_decay`, `C79_interleaved`, `C79_purity`,
`C79_standard`, `C84_bound_holds`, `C84_confidence_refuted`, `C84_hoeffding`.
