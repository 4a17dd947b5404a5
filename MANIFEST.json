{
 "claims": [
  {
   "property": "C01",
   "status": "proved",
   "theorems": [
    "C01_slices",
    "C01_slice_list_unique",
    "C01_zero_step"
   ],
   "note": "The model of slice.indices follows CPython; the result is characterised independently of it."
  },
  {
   "property": "C02",
   "status": "partial",
   "theorems": [
    "C02_targets",
    "C02_type_error",
    "C02_type_error_single",
    "C02_value_error",
    "C02_in_register_partial",
    "C02_in_register_refuted"
   ],
   "note": "Meaning of integers, tuples and errors proved in full. The claim that every addressed qubit lies in the register is false: an integer below -n is not refused (C02_in_register_refuted); proved for integers in [-n, n) and all slices."
  },
  {
   "property": "C03",
   "status": "proved",
   "theorems": [
    "C03_pairs",
    "C03_refused",
    "C03_arity",
    "C03_in_register"
   ],
   "note": ""
  },
  {
   "property": "C04",
   "status": "proved",
   "theorems": [
    "C04_never_shrinks",
    "C04_least_width",
    "C04_inside"
   ],
   "note": "Any program on the heap model (also with refused calls, shared backends, += of itself). C04_least_width: width is the least for initial widths and targets; C04_inside: non-negative indices and slices address qubits inside the final register."
  },
  {
   "property": "C05",
   "status": "partial",
   "theorems": [
    "C05_refused_partial",
    "C05_unchanged_refuted"
   ],
   "note": "Refuted in full: __getitem__ appends the operation before computing the maximum index, so a refused call leaves the gate in ops (C05_unchanged_refuted). C05_refused_partial proves the rest: exactly the non-flat targets are refused, with AttributeError, and the width is unchanged."
  },
  {
   "property": "C06",
   "status": "proved",
   "theorems": [
    "C06_gate_matrices",
    "C06_all_vectors",
    "C06_array_values"
   ],
   "note": "Every built-in gate on every addressed qubit, for any state vector, over exact real arithmetic (float rounding not modelled)."
  },
  {
   "property": "C07",
   "status": "proved",
   "theorems": [
    "C07_run",
    "C07_concatenation"
   ],
   "note": "For a new circuit; runs after other runs are covered by C13."
  },
  {
   "property": "C08",
   "status": "partial",
   "theorems": [
    "C08_inner_product",
    "C08_run_norm",
    "C08_run_norm_refuted"
   ],
   "note": "Proved for all runs with shots >= 1; false for run(shots=0), which returns a zero vector (refuted)."
  },
  {
   "property": "C09",
   "status": "proved",
   "theorems": [
    "C09_fallback",
    "C09_fallback_phase"
   ],
   "note": "All fallbacks of gate.py; the phase gate up to the stated phase."
  },
  {
   "property": "C10",
   "status": "proved",
   "theorems": [
    "C10_executable",
    "C10_resolved_meaning",
    "C10_no_recursion_error",
    "C10_numpy_dispatch"
   ],
   "note": "Tables of native gates of the four backends; ccz is not a circuit method and has no fallback."
  },
  {
   "property": "C11",
   "status": "partial",
   "theorems": [
    "C11_inverse_partial",
    "C11_program_partial",
    "C11_overlapping_refuted"
   ],
   "note": "Refuted in full for two-qubit gates with interfering pairs in one call, e.g. cx[0:2,1:3] (C11_overlapping_refuted). Proved for all circuits without such calls (separate_call), both orders, for every state and for programs."
  },
  {
   "property": "C12",
   "status": "proved",
   "theorems": [
    "C12_dagger",
    "C12_twice"
   ],
   "note": "Structure of dagger for all reachable heaps, ValueError exactly for measurement/reset without ignore_measurement; double dagger has the same operators."
  },
  {
   "property": "C13",
   "status": "proved",
   "theorems": [
    "C13_history",
    "C13_numpy",
    "C13_numba"
   ],
   "note": "C13_history: every program on the heap model refines a cache-free value semantics. numba runs for valid circuits of at most 64 qubits."
  },
  {
   "property": "C14",
   "status": "partial",
   "theorems": [
    "C14_copy_numpy",
    "C14_copy_numba",
    "C14_dagger_partial",
    "C14_dagger_refuted"
   ],
   "note": "copy: proved. dagger(copy_backends=True): refuted after a run (C14_dagger_refuted), proved when the circuit has no backends yet."
  },
  {
   "property": "C15",
   "status": "partial",
   "theorems": [
    "C15_growing_partial",
    "C15_shared_refuted"
   ],
   "note": "Refuted for a backend object shared by two circuits of the same width (C15_shared_refuted); proved for one growing circuit."
  },
  {
   "property": "C16",
   "status": "partial",
   "theorems": [
    "C16_numpy_partial",
    "C16_numba_partial",
    "C16_numpy_refuted",
    "C16_numba_refuted",
    "C16_numba_measure_refuted"
   ],
   "note": "Refuted if the interrupt falls between the statements updating cache and cache_idx (numpy, numba end of shot, numba from a measurement to the end of the shot). Proved for interrupts at any other point, any number of times."
  },
  {
   "property": "C17",
   "status": "proved",
   "theorems": [
    "C17_measure_gate",
    "C17_measure_one",
    "C17_measure_twice"
   ],
   "note": "Draws are any numbers in [0,1)."
  },
  {
   "property": "C18",
   "status": "proved",
   "theorems": [
    "C18_born_rule",
    "C18_born_marginal"
   ],
   "note": "Probability as the volume of the set of draws (independent uniform draws)."
  },
  {
   "property": "C19",
   "status": "proved",
   "theorems": [
    "C19_reset_gate",
    "C19_reset"
   ],
   "note": ""
  },
  {
   "property": "C20",
   "status": "partial",
   "theorems": [
    "C20_counts",
    "C20_counts_refuted"
   ],
   "note": "Proved for at least one qubit; false for circuits with 0 qubits, where nothing is counted (refuted)."
  },
  {
   "property": "C21",
   "status": "proved",
   "theorems": [
    "C21_kind",
    "C21_unknown",
    "C21_shots"
   ],
   "note": ""
  },
  {
   "property": "C22",
   "status": "proved",
   "theorems": [
    "C22_frame",
    "C22_shared_ops_refuted"
   ],
   "note": "Frame theorem over all operations; Circuit(n, c.ops), which shares the list, is the documented exception (C22_shared_ops_refuted)."
  },
  {
   "property": "C23",
   "status": "proved",
   "theorems": [
    "C23_associative",
    "C23_unit",
    "C23_iadd"
   ],
   "note": "Associativity, unit, += equals +, including a += a."
  },
  {
   "property": "C24",
   "status": "proved",
   "theorems": [
    "C24_shifted",
    "C24_masks"
   ],
   "note": "register widths up to 64, 64 bit unsigned arithmetic; indices are mathematical naturals reduced modulo 2^64"
  },
  {
   "property": "C25",
   "status": "proved",
   "theorems": [
    "C25_race_free",
    "C25_finite",
    "C25_loops_start",
    "C25_reduction"
   ],
   "note": "every interleaving of single reads and writes of complex entries (sequentially consistent memory, one entry is read or written atomically); widths up to 64; the sum in _p0calc is over exact reals, any split into partial sums"
  },
  {
   "property": "C26",
   "status": "proved",
   "theorems": [
    "C26_gate",
    "C26_run",
    "C26_session"
   ],
   "note": "widths up to 64, valid targets, exact arithmetic; runs, repeated runs of growing circuits, cache enabled or not; returns='_inner_ctx' (internal object) excluded"
  },
  {
   "property": "C27",
   "status": "partial",
   "theorems": [
    "C27_partial",
    "C27_once",
    "C27_ignore_global",
    "C27_twice_refuted",
    "C27_width0_refuted",
    "C27_outside_refuted"
   ],
   "note": "Agreement with the simulator is proved for circuits with at least one qubit whose one qubit gates list no qubit twice. For duplicate targets (x[0,0]), for width 0 and for negative indices below the register the property is false; each has a _refuted theorem. C27_once gives the matrix in general."
  },
  {
   "property": "C28",
   "status": "proved",
   "theorems": [
    "C28_matrix",
    "C28_runs"
   ],
   "note": "Default arguments of run; runs use the global default backend, which must be numpy or numba."
  },
  {
   "property": "C29",
   "status": "partial",
   "theorems": [
    "C29_partial",
    "C29_cu2_refuted",
    "C29_index_refuted",
    "C29_slice_refuted"
   ],
   "note": "The text is read back as the header and the statements of all gate applications in order; all are defined operations on different qubits of the register. Hypotheses: targets in range, no cu2 (refuted: not in qelib1.inc), printed angles are read back. crx/cry/crz/rxx/ryy/rzz are several statements. Negative indices beyond the register are refuted."
  },
  {
   "property": "C30",
   "status": "partial",
   "theorems": [
    "C30_partial",
    "C30_apps"
   ],
   "note": "Operator of the text = operator of the circuit up to a unit factor, for all circuits without cu2 (which qelib1.inc does not define) and measurement, all angles and states; printed angles are assumed to be read back exactly."
  },
  {
   "property": "C31",
   "status": "proved",
   "theorems": [
    "C31_product",
    "C31_terms"
   ],
   "note": "All operand types, exact complex coefficients."
  },
  {
   "property": "C32",
   "status": "proved",
   "theorems": [
    "C32_sound",
    "C32_canonical",
    "C32_idempotent",
    "C32_unique",
    "C32_expr",
    "C32_expr_unique"
   ],
   "note": "Also uniqueness of the form, and Expr.simplify."
  },
  {
   "property": "C33",
   "status": "proved",
   "theorems": [
    "C33_decides",
    "C33_operands",
    "C33_terms",
    "C33_paulis",
    "C33_number",
    "C33_identity_refuted",
    "C33_hash",
    "C33_mixed_refuted",
    "C33_number_refuted",
    "C33_zero_refuted"
   ],
   "note": "Expr == Expr, Expr == Term, Expr == Pauli decide operator equality. Not so for Term == Expr (always False), Term == number (AttributeError) and terms with coefficient 0: refuted separately."
  },
  {
   "property": "C34",
   "status": "partial",
   "theorems": [
    "C34_neg",
    "C34_mul",
    "C34_div",
    "C34_pow",
    "C34_add_partial",
    "C34_survivors",
    "C34_add_exact",
    "C34_add_right",
    "C34_program_partial",
    "C34_sum_refuted",
    "C34_power_refuted"
   ],
   "note": "*, unary -, /, ** proved for all values; +, - if the left operand has no two terms with equal operators, and in general exactly: the left operand is first reduced to the terms no later one with equal operators replaces (C34_add_exact), and the sum is right exactly if the lost terms add up to 0 (C34_add_right); whole programs under `tame`. The full claim is false: Expr + loses terms with equal operators (C34_sum_refuted); Pauli ** n raises TypeError."
  },
  {
   "property": "C35",
   "status": "partial",
   "theorems": [
    "C35_commute",
    "C35_is_commutable_partial",
    "C35_small_refuted",
    "C35_commutator",
    "C35_exprs",
    "C35_size",
    "C35_all_terms"
   ],
   "note": "is_commutable compares the squared size of the commutator with eps: exact condition proved (C35_is_commutable_partial), the default eps makes it wrong for small coefficients (C35_small_refuted). commutator proved in full."
  },
  {
   "property": "C36",
   "status": "partial",
   "theorems": [
    "C36_term",
    "C36_term_default",
    "C36_term_simplified",
    "C36_expr_partial",
    "C36_expr_default_partial",
    "C36_zero_refuted"
   ],
   "note": "Terms in full, expressions except the zero operator on n >= 1 qubits, for which ZeroDivisionError is raised (C36_zero_refuted). scipy's conversions between layouts and eliminate_zeros are trusted to keep entries."
  },
  {
   "property": "C37",
   "status": "proved",
   "theorems": [
    "C37_chars"
   ],
   "note": ""
  },
  {
   "property": "C38",
   "status": "proved",
   "theorems": [
    "C38_append"
   ],
   "note": "The term must fit the width; gates are those of the verified circuit semantics."
  },
  {
   "property": "C39",
   "status": "partial",
   "theorems": [
    "C39_evolution_partial",
    "C39_sign_refuted",
    "C39_identity_refuted"
   ],
   "note": "Exact effect proved: exp(i c t (-1)^{#Y} P). The single sign convention is refuted by Y[0]; the identity term drops its phase."
  },
  {
   "property": "C40",
   "status": "partial",
   "theorems": [
    "C40_term_sound",
    "C40_term_partial",
    "C40_expr_sound",
    "C40_expr_partial",
    "C40_term_refuted",
    "C40_zero_refuted"
   ],
   "note": "Right for simplified values other than 0; refuted for (X[0]*1)**2 and for the zero expression."
  },
  {
   "property": "C41",
   "status": "proved",
   "theorems": [
    "C41_expect",
    "C41_negative",
    "C41_sampler"
   ],
   "note": "expect on any vector, and the sampler of a whole circuit on numpy/numba; negative positions raise ValueError."
  },
  {
   "property": "C42",
   "status": "partial",
   "theorems": [
    "C42_energy_partial",
    "C42_even",
    "C42_sparse",
    "C42_make_sparse",
    "C42_y_refuted"
   ],
   "note": "Sampler energy proved for Hamiltonians whose terms have an even number of Y; exact value given for all; refuted for Y[0] (energy -1 instead of 1). Sparse energy proved in general."
  },
  {
   "property": "C43",
   "status": "partial",
   "theorems": [
    "C43_sampler_partial",
    "C43_order_refuted",
    "C43_energy_refuted",
    "C43_mass_refuted",
    "C43_state_vector"
   ],
   "note": "Exact contents proved; key order refuted (mirrored register) and mass 1 refuted when not all qubits are requested (colliding keys overwritten); state vector sampler proved for an abstract multinomial."
  },
  {
   "property": "C44",
   "status": "proved",
   "theorems": [
    "C44_energy",
    "C44_bit"
   ],
   "note": "For all square real matrices: wq.pauli(Q) multiplies each basis amplitude by x^T Q x, qubo_bit(i) by x_i. For a 0x0 matrix the result is the number 0.0."
  },
  {
   "property": "C45",
   "status": "proved",
   "theorems": [
    "C45_energy",
    "C45_Ei",
    "C45_upper",
    "C45_lower_refuted"
   ],
   "note": "For all upper-triangular real matrices and spin vectors. For other matrices qi() ignores the lower triangle (refuted there, while wq.pauli uses it)."
  },
  {
   "property": "C46",
   "status": "proved",
   "theorems": [
    "C46_change",
    "C46_change_qubo",
    "C46_run",
    "C46_last",
    "C46_ends",
    "C46_lower_refuted"
   ],
   "note": "For every stream of initial choices, sites and draws; also that runs end for a rate below one. The quantifier 'all matrices' holds for the energies of the upper triangle (qi ignores the rest): C46_lower_refuted shows a matrix with entries below the diagonal whose recorded energy is not its QUBO energy. sqa and the D-Wave client are not modelled."
  },
  {
   "property": "C47",
   "status": "partial",
   "theorems": [
    "C47_sel_energy",
    "C47_sel",
    "C47_sel_positions",
    "C47_sel_answers",
    "C47_sel_duplicates_refuted",
    "C47_sel_too_many_refuted",
    "C47_sqr",
    "C47_mul_partial",
    "C47_mul_energy",
    "C47_mul_refuted",
    "C47_net",
    "C47_net_refused",
    "C47_net_refuted"
   ],
   "note": "sel, sqr and net are proved (sel for distinct positions and 0<=K<=N, net for pairs not repeated; both refuted otherwise). mul is refuted: it is right only for proportional vectors (C47_mul_partial), C47_mul_energy gives the exact error. net changes its argument."
  },
  {
   "property": "C48",
   "status": "proved",
   "theorems": [
    "C48_separation",
    "C48_answers",
    "C48_extends",
    "C48_qubo_partial",
    "C48_qubo_pair_refuted",
    "C48_qubo_symbol_refuted"
   ],
   "note": "For all multilinear polynomials, fresh distinct supplementary variables and every iteration order of the sets; also termination, the exact errors and that every assignment extends to one without penalty. Sums are modelled without collecting terms. qn_to_qubo (an anchor, not part of the statement) is right only if no coefficient is one: C48_qubo_partial, C48_qubo_pair_refuted, C48_qubo_symbol_refuted."
  },
  {
   "property": "C49",
   "status": "partial",
   "theorems": [
    "C49_lookup_partial",
    "C49_backend_partial",
    "C49_runner_partial",
    "C49_tables",
    "C49_nothing_replaced",
    "C49_errors",
    "C49_refused",
    "C49_resolves_partial",
    "C49_unregister",
    "C49_unregister_backend",
    "C49_unregister_refuted",
    "C49_attribute_refuted",
    "C49_macro_refuted",
    "C49_kept_refuted",
    "C49_unregistered_refuted"
   ],
   "note": "Names follow the history of successful calls, nothing is replaced without allow_overwrite, failing calls change nothing, gates and macros can be unregistered exactly when in use. Refuted parts: backends cannot be unregistered (unregister_backend tests GATE_SET), names of instance attributes and macros over gates do not resolve to the registered item, a circuit keeps a backend object it has used."
  },
  {
   "property": "C50",
   "status": "proved",
   "theorems": [
    "C50_selected",
    "C50_name",
    "C50_set",
    "C50_global",
    "C50_unknown",
    "C50_kept",
    "C50_global_kept",
    "C50_copy",
    "C50_none_refuted"
   ],
   "note": "Selection, setting, inheritance and persistence of default backends. set_default_backend(None), documented to unset the default, raises ValueError (C50_none_refuted)."
  },
  {
   "property": "C51",
   "status": "partial",
   "theorems": [
    "C51_repr_partial",
    "C51_exact_partial",
    "C51_same_qubits",
    "C51_only",
    "C51_raises",
    "C51_raises_refuted",
    "C51_empty_refuted",
    "C51_tuple_refuted"
   ],
   "note": "The text is read by a separate reader of Python expressions and evaluated with the circuit API: same gates, parameters, width, for every reachable circuit but the empty one, those with an empty tuple as target and those with CCZ (C51_only: these texts cannot be evaluated). A tuple of one is read back as its element, which names the same qubits. repr raises after a refused nested target. Parameters: any show/read pair that round-trips."
  },
  {
   "property": "C52",
   "status": "partial",
   "theorems": [
    "C52_string",
    "C52_entries",
    "C52_injective",
    "C52_refused_partial",
    "C52_digits_refuted",
    "C52_merge_refuted"
   ],
   "note": "Bit strings become the tuples of their bits, entries of dictionaries and Counters are all kept; ASCII characters that are no digits raise ValueError. Refuted: the digits 2 to 9 are accepted, and where int() knows digits of other scripts entries can merge."
  },
  {
   "property": "C53",
   "status": "partial",
   "theorems": [
    "C53_factor",
    "C53_first_entry",
    "C53_idempotent",
    "C53_canonical_partial",
    "C53_canonical_states",
    "C53_canonical_refuted"
   ],
   "note": "Canonical form for vectors with an entry above the threshold, in particular normalised states of up to 46 qubits; false for vectors with only tiny entries (refuted)."
  },
  {
   "property": "C54",
   "status": "proved",
   "theorems": [
    "C54_unchanged",
    "C54_create",
    "C54_attribute",
    "C54_call",
    "C54_item",
    "C54_plus",
    "C54_dagger",
    "C54_to_circuit",
    "C54_same"
   ],
   "note": "Programs over the experimental Ops class are modelled on a heap of objects: no operation changes an existing value, item access, calls, +, dagger and to_circuit are specified on operation lists, and to_circuit gives the circuit with the same operations. Global macros, texts and keyword arguments of gates are left out; Ops has no rxx, ryy, rzz, cswap or reset."
  },
  {
   "property": "C55",
   "status": "proved",
   "theorems": [
    "C55_results",
    "C55_values",
    "C55_kept",
    "C55_distinct",
    "C55_exist",
    "C55_case",
    "C55_cache_shared"
   ],
   "note": "Arrays are places in a memory (ModelMemory.v mirrors numpy_backend.py with the two arrays of a context exchanged or changed in place, the cache copied). For every program of backend creations, copies, runs (raising ones included) and in-place changes of arrays that runs gave out: what it sees equals what it sees without the changes (C55_results) and what arrays as unshared values give (C55_values); an array given out keeps its contents through all later operations until the program itself changes it (C55_kept); arrays given out are pairwise distinct (C55_distinct). C55_cache_shared shows that the hypothesis is needed. numpy backend only, the backend the property is anchored in."
  },
  {
   "property": "C56",
   "status": "partial",
   "theorems": [
    "C56_most_common",
    "C56_most_common_negative",
    "C56_most_common_error",
    "C56_stored",
    "C56_exact_partial",
    "C56_no_vqe",
    "C56_measured_refuted"
   ],
   "note": "most_common, stored and rerun probabilities proved; refuted that asking leaves the circuit alone (a measuring sampler appends a measurement)."
  },
  {
   "property": "C57",
   "status": "proved",
   "theorems": [
    "C57_plain",
    "C57_init",
    "C57_refused"
   ],
   "note": "Hamiltonians with real coefficients and commuting terms; evolution of a term has the sign of C39."
  },
  {
   "property": "C58",
   "status": "partial",
   "theorems": [
    "C58_bond",
    "C58_change",
    "C58_run",
    "C58_ends",
    "C58_recorded",
    "C58_recorded_refuted",
    "C58_one_slice_refuted"
   ],
   "note": "Proved for two or more slices and positive temperature and fields: the decisions follow the path-integral energy (C58_change, C58_run), whose coupling is derived from the weights cosh/sinh of exp(aX) (C58_bond). The claim about E is false: Ei_sqa has the opposite sign of the coupling (C58_recorded gives the exact difference, C58_recorded_refuted a run). One slice is coupled with itself (C58_one_slice_refuted). E is appended to, not reset."
  },
  {
   "property": "C59",
   "status": "partial",
   "theorems": [
    "C59_sum",
    "C59_more",
    "C59_run",
    "C59_size_refuted",
    "C59_ignored",
    "C59_empty_refuted",
    "C59_single_refuted",
    "C59_stale_refuted"
   ],
   "note": "Proved for QUBOs of one size: sums (C59_sum, C59_more) and, for size two or more, runs (C59_run). False: a QUBO of another size is silently ignored (C59_size_refuted, C59_ignored), so is everything after an empty one (C59_empty_refuted), and a 1x1 array compares as 'no qubo' in run(), which raises (C59_single_refuted) or answers for the previous QUBO (C59_stale_refuted). numpy before 1.25."
  },
  {
   "property": "C60",
   "status": "partial",
   "theorems": [
    "C60_minimal",
    "C60_coupler_refuted",
    "C60_node_refuted",
    "C60_exists"
   ],
   "note": "Proved (C60_minimal) for a machine whose nodes include 0..n-1 in order and which has each needed coupler once as (low, high); machines that always answer a ground state exist (C60_exists). False otherwise: couplings without a coupler, or listed (high, low), are dropped (C60_coupler_refuted), and with a missing node the biases of later nodes are sent for earlier ones (C60_node_refuted). The remote solver is a function from problems to answers."
  },
  {
   "property": "C61",
   "status": "proved",
   "theorems": [
    "C61_fixed",
    "C61_random",
    "C61_set",
    "C61_set_error",
    "C61_bipartite"
   ],
   "note": "dbms_fixed, dbms_random: entries and independence of the random numbers; setRBM raises IndexError exactly for fewer than two layers."
  },
  {
   "property": "C62",
   "status": "partial",
   "theorems": [
    "C62_hidden",
    "C62_data",
    "C62_sign_refuted"
   ],
   "note": "Proved (C62_hidden, C62_data) for weights exp(+energy). Refuted (C62_sign_refuted) for weights exp(-energy), which the annealer that draws the model samples favours."
  },
  {
   "property": "C63",
   "status": "proved",
   "theorems": [
    "C63_means",
    "C63_trained",
    "C63_ends",
    "C63_bipartite",
    "C63_bounded",
    "C63_default",
    "C63_few",
    "C63_empty"
   ],
   "note": "Two layers and data rows as long as the visible layer. With fewer than two shots fit raises ValueError (C63_few), without data too (C63_empty)."
  },
  {
   "property": "C64",
   "status": "partial",
   "theorems": [
    "C64_counts",
    "C64_keys",
    "C64_injective",
    "C64_total",
    "C64_numbers_refuted"
   ],
   "note": "Proved for rows of digits (C64_counts, C64_keys, C64_injective, C64_total); refuted for larger numbers, whose texts can coincide (C64_numbers_refuted)."
  },
  {
   "property": "C65",
   "status": "partial",
   "theorems": [
    "C65_run",
    "C65_play",
    "C65_default",
    "C65_bound",
    "C65_sampler_partial",
    "C65_wide",
    "C65_wide_refuted",
    "C65_start"
   ],
   "note": "Proved for the sparse energy on initial circuits of the Hamiltonian's width and for the exact sampler (with the sign of Y of C42). Without a sampler a wider initial circuit raises ValueError, C65_wide_refuted. The minimizer of scipy is any adaptive sequence of evaluations that ends."
  },
  {
   "property": "C66",
   "status": "partial",
   "theorems": [
    "C66_run_partial",
    "C66_shots_partial",
    "C66_counts_partial"
   ],
   "note": "One run, consecutive shots and the counts of np_run. Not covered: cu2, which is not in qelib1.inc (C29_cu2_refuted)."
  },
  {
   "property": "C67",
   "status": "partial",
   "theorems": [
    "C67_counts_partial",
    "C67_hex_refuted",
    "C67_session",
    "C67_refused",
    "C67_exception_refuted"
   ],
   "note": "Proved for every Qiskit: the sequence of calls, the results, the refusals; the counter for devices with binary texts. Refuted: hexadecimal texts are reversed; returns='_exception' raises UnboundLocalError because the name e is unbound after the except clause. cu2 not covered."
  },
  {
   "property": "C68",
   "status": "partial",
   "theorems": [
    "C68_sampler_partial",
    "C68_collide_refuted",
    "C68_hex_refuted",
    "C68_identity_refuted",
    "C68_import",
    "C68_text",
    "C68_hex_text",
    "C68_text_error",
    "C68_hex_error"
   ],
   "note": "Proved for circuits without measurements of their own, with hexadecimal texts for qubits up to 100. Every key text is read digit by digit (C68_text, C68_hex_text), and texts with another character, such as the blank between two registers, raise ValueError. Refuted: colliding keys are overwritten; hexadecimal texts end after 100 zeros; the identity term of a Hamiltonian has energy 0. cu2 not covered; nothing is said about limits."
  },
  {
   "property": "C69",
   "status": "proved",
   "theorems": [
    "C69_operators",
    "C69_executes",
    "C69_controlled_u",
    "C69_controlled_u2",
    "C69_unknown",
    "C69_swap_tuples_refuted",
    "C69_swap_same_refuted"
   ],
   "note": "The conversion and its meaning are proved for all circuits of the convertible kinds; two statements are refuted: swap with tuples raises TypeError although other backends accept it, and swap[0, 0] is accepted although other backends raise ValueError."
  },
  {
   "property": "C70",
   "status": "proved",
   "theorems": [
    "C70_vector",
    "C70_shots",
    "C70_measured_once",
    "C70_both",
    "C70_runtime",
    "C70_convert",
    "C70_returns",
    "C70_measured_early_refuted"
   ],
   "note": "All values of returns and all errors are covered; that counts belong to the circuit itself is refuted by m[0].x[0], whose measurement is moved behind the x."
  },
  {
   "property": "C71",
   "status": "proved",
   "theorems": [
    "C71_pool",
    "C71_lanes"
   ],
   "note": "Real numbers stand for floats; the sorted order of the empty lanes is what qgate hands over."
  },
  {
   "property": "C72",
   "status": "proved",
   "theorems": [
    "C72_terms",
    "C72_width",
    "C72_energy",
    "C72_phase",
    "C72_run"
   ],
   "note": "From the construction of the problem to the probabilities of the result. Exact arithmetic; sampling samplers are not covered."
  },
  {
   "property": "C73",
   "status": "proved",
   "theorems": [
    "C73_cost",
    "C73_lowest",
    "C73_width",
    "C73_run",
    "C73_reached"
   ],
   "note": "All graphs on natural numbers; C73_reached shows parameters that reach the optimum."
  },
  {
   "property": "C74",
   "status": "partial",
   "theorems": [
    "C74_cost",
    "C74_width",
    "C74_run",
    "C74_single_refuted"
   ],
   "note": "Cost, width and equal sums proved for all lists. That the groups contain all numbers is proved if two numbers are not 0 and refuted for a single number, which has no qubit and is in neither group (C74_single_refuted)."
  },
  {
   "property": "C75",
   "status": "partial",
   "theorems": [
    "C75_bits",
    "C75_cost",
    "C75_separator",
    "C75_length",
    "C75_width",
    "C75_zero",
    "C75_proper",
    "C75_exists_partial",
    "C75_odd_refuted",
    "C75_even_refuted",
    "C75_run",
    "C75_two_refuted",
    "C75_reached"
   ],
   "note": "Proved except for the existence: it holds for products of two odd numbers whose larger one fits (C75_exists_partial) and is refuted for 69 and for all even numbers; for the number 2 bitseparator raises AssertionError on every result (C75_two_refuted). The square root is exact."
  },
  {
   "property": "C76",
   "status": "partial",
   "theorems": [
    "C76_expand",
    "C76_reduced",
    "C76_matrix_partial",
    "C76_add_partial",
    "C76_first_partial",
    "C76_power_refuted",
    "C76_index",
    "C76_index_refuted",
    "C76_cubic",
    "C76_constant"
   ],
   "note": "Proved if no variable has a higher power than the lowest variable; otherwise false (C76_power_refuted): degree() is that of the first generator only, and powers of other variables are lost. Variables other than 0 .. n-1 are refused (C76_index). Exact arithmetic; the parser of sympy is left out, polynomials are given as sums of products."
  },
  {
   "property": "C77",
   "status": "partial",
   "theorems": [
    "C77_optx",
    "C77_reduced",
    "C77_fourth_refuted",
    "C77_optm_partial",
    "C77_alone",
    "C77_alone_refuted",
    "C77_dropped_refuted",
    "C77_make_qs",
    "C77_last_refuted"
   ],
   "note": "optx keeps values always; powers above the second remain (C77_fourth_refuted). optm is right if every variable is in a product with another one, otherwise it raises GeneratorsNeeded (C77_alone), and it drops variables beyond the size (C77_dropped_refuted). make_qs ends one symbol before the one its documentation names (C77_last_refuted)."
  },
  {
   "property": "C78",
   "status": "proved",
   "theorems": [
    "C78_qaoa",
    "C78_qubits",
    "C78_depends",
    "C78_empty",
    "C78_shorter_refuted",
    "C78_sa",
    "C78_sa_last",
    "C78_sa_ends"
   ],
   "note": "Exact arithmetic. C78_shorter_refuted: trailing variables that do not matter are missing in the answers. qaoa ignores its arguments shots and verbose."
  },
  {
   "property": "C79",
   "status": "partial",
   "theorems": [
    "C79_read",
    "C79_equal",
    "C79_injective",
    "C79_order_refuted",
    "C79_zero_refuted"
   ],
   "note": "False in the code for terms with coefficient zero (C79_zero_refuted) and for eval(repr(v)) == v of expressions with one term (C79_order_refuted). str of a number and the value of a numeral are arguments; the grammar of Python is that of SpecPauliText."
  },
  {
   "property": "C80",
   "status": "proved",
   "theorems": [
    "C80_parameters",
    "C80_no_parameters",
    "C80_any_order",
    "C80_dagger",
    "C80_dagger_refuted",
    "C80_circuit",
    "C80_attribute",
    "C80_item",
    "C80_last_call",
    "C80_self",
    "C80_number_str",
    "C80_shared_refuted",
    "C80_stray_refuted",
    "C80_unchecked_refuted"
   ],
   "note": "The dagger of u2 and cu2 fails if a keyword theta was given (C80_dagger_refuted). Unused arguments are accepted (C80_stray_refuted), values are not checked (C80_unchecked_refuted) and wrappers are shared by their calls (C80_shared_refuted). An argument is a number or a tuple of numbers."
  },
  {
   "property": "C81",
   "status": "proved",
   "theorems": [
    "C81_results",
    "C81_values",
    "C81_dtype",
    "C81_kept",
    "C81_distinct",
    "C81_exist",
    "C81_case",
    "C81_cache_shared"
   ],
   "note": "Numbers are exact whatever the dtype (complex or complex64); kernels are the in-place functions of ModelNumba."
  },
  {
   "property": "C82",
   "status": "proved",
   "theorems": [
    "C82_events",
    "C82_state",
    "C82_counts",
    "C82_numba",
    "C82_box",
    "C82_product",
    "C82_values",
    "C82_values_once",
    "C82_sequences",
    "C82_total",
    "C82_total_shots",
    "C82_mean",
    "C82_spread",
    "C82_large",
    "C82_case",
    "C82_case_weights"
   ],
   "note": "Probabilities are volumes of boxes of draws in the unit cube, as for independent uniform numbers; measure theory is not used. Real numbers are exact."
  },
  {
   "property": "C83",
   "status": "proved",
   "theorems": [
    "C83_exact",
    "C83_error",
    "C83_linear",
    "C83_norm",
    "C83_probabilities",
    "C83_digits",
    "C83_fixed",
    "C83_binary",
    "C83_double",
    "C83_angles"
   ],
   "note": "Overflow, underflow, infinities and NaN are left out; complex products take four products, a difference and a sum; measurements, resets and numba are not covered. C83_exact ties the rounded model to np_run in exact arithmetic."
  },
  {
   "property": "C84",
   "status": "proved",
   "theorems": [
    "C84_exact",
    "C84_run",
    "C84_chance",
    "C84_margin",
    "C84_exact_norm",
    "C84_norm",
    "C84_double_norm",
    "C84_weaker",
    "C84_possible_refuted"
   ],
   "note": "One shot on a new backend. The order of the sum in np.linalg.norm is not defined, so the norm is any function of bounded error; C84_norm bounds a sum one after the other. Overflow, underflow, infinities and NaN are left out. C84_exact ties the rounded model to np_run in exact arithmetic; C84_possible_refuted is the finding."
  },
  {
   "property": "C85",
   "status": "proved",
   "theorems": [
    "C85_error",
    "C85_linear",
    "C85_rounding",
    "C85_digits",
    "C85_fixed",
    "C85_finite",
    "C85_double_rounds",
    "C85_double",
    "C85_relative_refuted"
   ],
   "note": "One run on a new backend, without measurements. cos and sin have an absolute error of at most u; division is used by a divisor of at least 1. What an overflow gives is arbitrary, so infinities and NaN are covered as values that the run never meets. C85_relative_refuted: the assumption of C83 and C84 is false of doubles because of underflow."
  },
  {
   "property": "C86",
   "status": "proved",
   "theorems": [
    "C86_exact",
    "C86_error",
    "C86_linear",
    "C86_schedule",
    "C86_plain",
    "C86_fused",
    "C86_mixed",
    "C86_double_plain",
    "C86_double_fused",
    "C86_double",
    "C86_literal",
    "C86_literal_refuted"
   ],
   "note": "One run on a new backend, without measurements. Transformations by the compiler across assignments are left out; infinities, NaN and signed zeros too. C86_literal_refuted: the decimal number of the Hadamard gate makes the result inexact even without rounding."
  },
  {
   "property": "C87",
   "status": "proved",
   "theorems": [
    "C87_exact",
    "C87_numpy",
    "C87_numpy_chance",
    "C87_numba",
    "C87_numba_chance",
    "C87_schedule",
    "C87_sums",
    "C87_norms",
    "C87_exact_sums",
    "C87_plain",
    "C87_fused",
    "C87_mixed",
    "C87_double_divides",
    "C87_double_scales",
    "C87_double_sums",
    "C87_double_norms",
    "C87_double_sequential",
    "C87_double_numpy",
    "C87_double_numba",
    "C87_double_numba_chance",
    "C87_possible_refuted"
   ],
   "note": "The first shot on a new backend, without the cache it leaves. The value of the sum is an argument, and C87_sums and C87_norms cover every order and grouping. Infinities, NaN and signed zeros are left out. C87_possible_refuted: on the numba backend too, rounding can record a value of probability 0 and leave the zero vector."
  },
  {
   "property": "C88",
   "status": "proved",
   "theorems": [
    "C88_exact_numpy",
    "C88_exact_numba",
    "C88_numpy_shots",
    "C88_numba_shots",
    "C88_numpy_cached",
    "C88_numba_cached",
    "C88_numpy_counts",
    "C88_numba_counts",
    "C88_margins",
    "C88_numpy_agree",
    "C88_numba_agree",
    "C88_mostly",
    "C88_double_numpy",
    "C88_double_numba"
   ],
   "note": "What ignore_global_phase does to the state is an argument. nb_cached is kept when the run succeeds; after an exception the numba backend can leave a wrong cache (C16_numba_refuted has such findings in exact arithmetic). shots is given explicitly; returns is one of the three documented values."
  },
  {
   "property": "C89",
   "status": "proved",
   "theorems": [
    "C89_exact",
    "C89_exact_turned",
    "C89_numpy",
    "C89_numba",
    "C89_numpy_run",
    "C89_numba_run",
    "C89_double_numpy",
    "C89_double_numba",
    "C89_close_refuted"
   ],
   "note": "abs of a complex number is an argument with a bounded error; infinities, NaN and signed zeros are left out. C89_close_refuted is a finding about the exact function."
  },
  {
   "property": "C90",
   "status": "proved",
   "theorems": [
    "C90_exact",
    "C90_exact_energy",
    "C90_copies",
    "C90_expect",
    "C90_outcomes_refuted",
    "C90_numpy",
    "C90_numba",
    "C90_double_numpy",
    "C90_double_numba"
   ],
   "note": "The energy is bounded against the sign convention of the code (each Y reversed, see C42_y_refuted). C90_outcomes_refuted is a finding. A probability, a real number, is made complex before it is multiplied by a coefficient, as Python does; the Hamiltonian acts on qubits of the circuit."
  },
  {
   "property": "C91",
   "status": "proved",
   "theorems": [
    "C91_exact_parts",
    "C91_exact",
    "C91_shape",
    "C91_state",
    "C91_dot",
    "C91_numpy",
    "C91_numba",
    "C91_double_keeps",
    "C91_double_numpy",
    "C91_double_numba"
   ],
   "note": "The coefficients are those after simplify(), whose own rounding (sums of equal terms) is outside; scipy's matrix-vector product is modelled column after column, np.vdot is any function with bounded error."
  },
  {
   "property": "C92",
   "status": "proved",
   "theorems": [
    "C92_masks",
    "C92_masks_low",
    "C92_steps",
    "C92_acts",
    "C92_masks_high",
    "C92_high",
    "C92_refuted"
   ],
   "note": "Finding C92_refuted: qubits from 32 on. The theorems on numpy runs for all n (C01 etc.) are about exact indices; by C92_masks they hold of the code for n <= 32."
  },
  {
   "property": "C93",
   "status": "proved",
   "theorems": [
    "C93_run",
    "C93_history",
    "C93_history_total",
    "C93_answers",
    "C93_total",
    "C93_positive",
    "C93_balance",
    "C93_stationary",
    "C93_converges",
    "C93_constant_refuted",
    "C93_last",
    "C93_ground"
   ],
   "note": "Draws are real numbers, as in C46; rounding of exp is not modelled. C93_constant_refuted: without a difference of energies the chain does not converge."
  },
  {
   "property": "C94",
   "status": "proved",
   "theorems": [
    "C94_run",
    "C94_history",
    "C94_history_total",
    "C94_positive",
    "C94_total",
    "C94_last",
    "C94_trotter",
    "C94_slice",
    "C94_hops_zero",
    "C94_hops_add",
    "C94_hops_derivative"
   ],
   "note": "Draws are real numbers. One slice is excluded: C58_one_slice_refuted. The error of Trotter's formula for a finite number of slices is not bounded."
  },
  {
   "property": "C95",
   "status": "proved",
   "theorems": [
    "C95_inlined",
    "C95_error",
    "C95_refused",
    "C95_missing",
    "C95_not_called",
    "C95_no_name",
    "C95_gates_first",
    "C95_gate_macro",
    "C95_no_return",
    "C95_recursion"
   ],
   "note": "A macro is a function from arguments to an error or to one chain on its circuit, with or without return; other effects of a macro are not modelled."
  },
  {
   "property": "C96",
   "status": "proved",
   "theorems": [
    "C96_right",
    "C96_kept",
    "C96_write",
    "C96_read",
    "C96_to_matrix",
    "C96_products"
   ],
   "note": "The user does not write to the arrays of the private table _matrix."
  },
  {
   "property": "C97",
   "status": "proved",
   "theorems": [
    "C97_exists",
    "C97_hops",
    "C97_positive",
    "C97_total",
    "C97_limit",
    "C97_answer"
   ],
   "note": "The two limits are taken one after the other: first the number of slices is fixed, then the number of proposals. The law of the answer is the one C94 proves for the code."
  },
  {
   "property": "C98",
   "status": "partial",
   "theorems": [
    "C98_exists",
    "C98_word",
    "C98_norm",
    "C98_trotter_partial",
    "C98_generated",
    "C98_qaoa",
    "C98_qaoa_init"
   ],
   "note": "Proved with the Hamiltonian that the code's evolutions generate: terms with an odd number of factors Y have their sign reversed and terms without operators are left out (refuted in C39 for one term); C98_generated says when this is the Hamiltonian itself. Missing: terms that are not of this kind, for which the claim is false."
  },
  {
   "property": "C99",
   "status": "proved",
   "theorems": [
    "C99_reach",
    "C99_more",
    "C99_run",
    "C99_answer",
    "C99_maxcut",
    "C99_partition",
    "C99_factors"
   ],
   "note": "The bound on the number of steps comes from following the ground state of the sum of flips minus the cost with time averages of small steps; how large it is, is not stated."
  },
  {
   "property": "C100",
   "status": "partial",
   "theorems": [
    "C100_run_partial",
    "C100_unpaired",
    "C100_total",
    "C100_mean",
    "C100_even",
    "C100_spread",
    "C100_far",
    "C100_enough"
   ],
   "note": "The run theorem needs words that are the same in the mirrored register; without this it is false (C43_energy_refuted). C100_unpaired says for all words that each term counts with a number between -1 and 1, above 0 if its word is nowhere on its mirror image. With an odd number of factors Y in a term the mean is that of C42, not the expectation of the Hamiltonian; C100_even covers the others. The laws themselves are proved for all words on different qubits."
  }
 ]
}