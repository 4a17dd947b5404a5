{"id": "C01", "title": "Slice targets mean Python slices", "statement": "A gate applied to a slice acts on exactly the qubits range(n)[slice], in that order, each of them inside the register; a zero step raises ValueError and acts on nothing.", "quantifier": "every start, stop and step (present or absent, any sign) and every register width n", "why_tests_cant": "slices have three unbounded integers, each optional and of either sign, and the width is unbounded; tests sample a handful of combinations", "anchors": ["blueqat/gate.py: slicing_singlevalue, slicing, IGate.target_iter"]}
{"id": "C02", "title": "Integer and tuple targets", "statement": "An integer index i with 0<=i addresses qubit i, a negative one addresses n+i, a tuple addresses its members left to right, and anything that is neither integer nor slice raises TypeError. Every qubit that a circuit addresses when it is run lies in [0,n).", "quantifier": "every integer, every tuple of targets, every register width", "why_tests_cant": "integers are unbounded; negative ones below -n are resolved to qubits outside the register, which example tests do not try", "anchors": ["blueqat/gate.py: slicing_singlevalue, slicing"]}
{"id": "C03", "title": "Two-qubit targets are paired correctly", "statement": "A two-qubit gate addressed by (A, B) acts on the pairs (a_k, b_k) in order; it is refused exactly when there are not two parts, when the parts have different lengths, or when some pair has equal members after negative indices were resolved.", "quantifier": "every pair of int/slice/tuple targets and every register width", "why_tests_cant": "the two parts range over all slices and tuples; a refusal has to be shown to happen in exactly the bad cases", "anchors": ["blueqat/gate.py: qubit_pairs, TwoQubitGate.control_target_iter"]}
{"id": "C04", "title": "The register grows to hold every addressed qubit", "statement": "The width of a circuit never shrinks while gates are appended, circuits are added or copied, is the least width that holds the initial width and all non-negative indices and slice bounds used, and every slice and every non-negative index that was used addresses qubits inside the register when the circuit is run, also after later growth.", "quantifier": "every sequence of gate calls, additions and copies", "why_tests_cant": "an invariant over all build histories", "anchors": ["blueqat/circuit.py: _GateWrapper.__getitem__, Circuit.__add__, Circuit.__iadd__", "blueqat/gate.py: get_maximum_index, find_n_qubits"]}
{"id": "C05", "title": "A refused gate call leaves the circuit unchanged", "statement": "When a gate call raises (because the index is not an integer, slice or flat tuple of them), the circuit has the same gates and width as before.", "quantifier": "every circuit and every refused target expression", "why_tests_cant": "needs the state after an exception for every kind of bad argument", "anchors": ["blueqat/circuit.py: _GateWrapper.__getitem__", "blueqat/gate.py: get_maximum_index"]}
{"id": "C06", "title": "NumPy backend applies each gate's matrix", "statement": "Running a built-in gate on the numpy backend multiplies the state vector by the textbook matrix of that gate on the addressed qubits (qubit k = bit k of the index), leaving all other qubits alone.", "quantifier": "every gate, angle, register width, qubit position and state vector", "why_tests_cant": "angles and amplitudes are continuous and the vector length is unbounded; the code addresses amplitudes by boolean masks whose pairing must be right at every index", "anchors": ["blueqat/backends/numpy_backend.py: NumPyBackend.gate_*"]}
{"id": "C07", "title": "Running a circuit composes its gates", "statement": "The state vector returned by run() for a circuit without measurement and reset is the product, in order of appending, of the matrices of its gates, applied to |0...0>; for a+b it is b's operator applied to a's state.", "quantifier": "every circuit built from built-in gates and every way to split it", "why_tests_cant": "circuits are unbounded lists; composition has to be proved by induction", "anchors": ["blueqat/backends/numpy_backend.py: NumPyBackend.run", "blueqat/backends/backendbase.py: Backend._run_gates", "blueqat/circuit.py: Circuit.__add__"]}
{"id": "C08", "title": "Evolution is norm preserving and unitary", "statement": "Every circuit preserves the inner product of any two input state vectors; run() always returns a vector of norm 1 and length 2**n, with or without measurements and resets.", "quantifier": "every circuit, angles, random draws in [0,1)", "why_tests_cant": "continuous inputs, unbounded circuits, and every sequence of random draws", "anchors": ["blueqat/backends/numpy_backend.py: NumPyBackend"]}
{"id": "C09", "title": "Fallback decompositions implement the gate", "statement": "When a backend lacks a native implementation, the gate sequence substituted for it has the same effect as the gate on every state (exactly, or up to a stated global phase for u1-style phases: cu1, phase).", "quantifier": "every gate with a fallback, all angles, all distinct qubit positions, all states", "why_tests_cant": "continuous angles and arbitrary states of the other qubits; tests use fixed angles on two or three qubits", "anchors": ["blueqat/gate.py: *.fallback", "blueqat/backends/backendbase.py: Backend._run_gates"]}
{"id": "C10", "title": "Every built-in gate is executable", "statement": "Substituting fallbacks always terminates, and every gate reachable as a circuit method ends in operations that the numpy, numba, sympy and QASM backends implement.", "quantifier": "every gate of the gate table, any targets and angles, each backend's set of native operations", "why_tests_cant": "termination of a recursion over user-extensible classes; an enumeration of every pair (gate, backend)", "anchors": ["blueqat/gate.py", "blueqat/backends/backendbase.py: Backend._run_gates", "blueqat/circuit.py: GATE_SET"]}
{"id": "C11", "title": "dagger() is the inverse circuit", "statement": "For a circuit without measurement and reset, running c followed by c.dagger() returns every state to itself.", "quantifier": "every circuit, angles, targets (including slices and tuples that address several pairs) and states", "why_tests_cant": "universally quantified over circuits; overlapping pairs inside one gate are easily missed by examples", "anchors": ["blueqat/circuit.py: Circuit.dagger", "blueqat/gate.py: *.dagger"]}
{"id": "C12", "title": "dagger() structure", "statement": "dagger() reverses the gates; taking it twice gives gates with the same meaning; it raises ValueError if the circuit has a measurement or reset unless ignore_measurement=True, which drops exactly those; the original is not modified.", "quantifier": "every circuit", "why_tests_cant": "induction over circuits", "anchors": ["blueqat/circuit.py: Circuit.dagger", "blueqat/gate.py: Measurement.dagger, Reset.dagger"]}
{"id": "C13", "title": "Caching is invisible", "statement": "For every history of gate calls, runs, additions and copies, each run() with the numpy backend returns exactly what a newly built circuit with the same gates would return for the same random draws; likewise with the numba backend.", "quantifier": "every history of API calls on any number of circuits, every random stream", "why_tests_cant": "histories are unbounded interleavings of building and running; a stale cache shows only after particular interleavings", "anchors": ["blueqat/backends/numpy_backend.py: NumPyBackend.run, __clear_cache_if_invalid", "blueqat/backends/_numba_backend_impl.py: NumbaBackend.run", "blueqat/circuit.py: Circuit.run, copy"]}
{"id": "C14", "title": "Copying backends never changes results", "statement": "Passing copy_backends=True to copy() or dagger() affects speed only: the resulting circuit returns the same state as with copy_backends=False.", "quantifier": "every circuit, whether or not it was run before", "why_tests_cant": "depends on the run history of the source circuit", "anchors": ["blueqat/circuit.py: Circuit.copy, Circuit.dagger, Circuit.__add__"]}
{"id": "C15", "title": "A backend object can be shared between circuits", "statement": "run(backend=b) with a backend object returns the state of the circuit it is called on, whatever b ran before.", "quantifier": "every pair of circuits and every earlier use of the backend object", "why_tests_cant": "quantifies over the previous history of the object", "anchors": ["blueqat/circuit.py: Circuit.run", "blueqat/backends/numpy_backend.py: __clear_cache_if_invalid"]}
{"id": "C16", "title": "An interrupted run does not corrupt later runs", "statement": "If run() is interrupted at any point by an exception, the next run() of the same circuit returns the correct state.", "quantifier": "every circuit and every crash point between two statements of the run loop, numpy and numba backends", "why_tests_cant": "requires every crash point; tests cannot inject an exception between any two statements", "anchors": ["blueqat/backends/numpy_backend.py: NumPyBackend.run", "blueqat/backends/_numba_backend_impl.py: NumbaBackend.run, gate_measure, gate_reset"]}
{"id": "C17", "title": "Measurement collapses correctly", "statement": "Measuring a qubit records 0 exactly when the draw is below the total probability of the indices whose bit is 0, projects onto the recorded outcome and renormalises to norm 1, never dividing by zero; measuring the same qubit again gives the same outcome for every draw and leaves the state alone.", "quantifier": "every normalised state, qubit and draw in [0,1)", "why_tests_cant": "continuous state and draw, including the edges of the interval", "anchors": ["blueqat/backends/numpy_backend.py: gate_measure"]}
{"id": "C18", "title": "Born rule", "statement": "When all qubits of a register are measured in any order without repetition, the probability of a bit string is the squared modulus of its amplitude.", "quantifier": "every normalised state, every register width and every measuring order", "why_tests_cant": "a statement about a probability distribution; sampling can only estimate it", "anchors": ["blueqat/backends/numpy_backend.py: gate_measure, _NumPyBackendContext.store_shot"]}
{"id": "C19", "title": "reset yields |0>", "statement": "After reset of a qubit its bit is 0 in every index of non-zero amplitude, the norm is 1, and a measurement of it records 0 for every draw.", "quantifier": "every normalised state, qubit and draw", "why_tests_cant": "continuous quantities", "anchors": ["blueqat/backends/numpy_backend.py: gate_reset"]}
{"id": "C20", "title": "Shot counts", "statement": "run(shots=N) returns counts that add up to N, over keys of length n whose k-th character is the last outcome recorded for qubit k, '0' if it was never measured in that shot.", "quantifier": "every circuit, N and random stream", "why_tests_cant": "every random stream and every placement of measurements", "anchors": ["blueqat/backends/numpy_backend.py: NumPyBackend.run, store_shot", "blueqat/circuit.py: Circuit.run"]}
{"id": "C21", "title": "run() arguments", "statement": "returns='statevector'/'shots' select the state vector or the counts; without it shots decides; any other value is refused with ValueError before the circuit is run.", "quantifier": "every combination of the arguments", "why_tests_cant": "argument combinations over open string type", "anchors": ["blueqat/backends/numpy_backend.py: __parse_run_args"]}
{"id": "C22", "title": "copy() and + never modify their operands", "statement": "After d=c.copy() or d=a+b, or e=c.dagger(), no further operation on d changes c, a or b or their results, and vice versa.", "quantifier": "every history of operations on any number of circuits", "why_tests_cant": "aliasing bugs appear only after particular interleavings of mutations", "anchors": ["blueqat/circuit.py: Circuit.copy, __add__, __iadd__, dagger"]}
{"id": "C23", "title": "Concatenation laws", "statement": "+ is associative with the empty circuit as unit, and a += b has the gates and width of a + b, also for a += a.", "quantifier": "all circuits", "why_tests_cant": "algebraic laws over unbounded lists", "anchors": ["blueqat/circuit.py: Circuit.__add__, __iadd__"]}
{"id": "C24", "title": "numba index arithmetic", "statement": "The loops of the numba kernels visit every index whose target (and control) bits are zero exactly once, for any set of distinct qubits.", "quantifier": "every register width up to 64, every set of distinct qubits, in any order", "why_tests_cant": "a bijection between two index ranges, with bit twiddling on masks", "anchors": ["blueqat/backends/_numba_backend_impl.py: _shifted, _create_masks, _mult_shifted"]}
{"id": "C25", "title": "numba kernels are race free", "statement": "The parallel loops give the same state for every schedule of their iterations, including arbitrary interleavings of the single reads and writes.", "quantifier": "every kernel, state, register width, and every interleaving of the iterations", "why_tests_cant": "all schedules; a test sees only those that the machine happens to take", "anchors": ["blueqat/backends/_numba_backend_impl.py: _zgate, _xgate, _ygate, _hgate, _diaggate, _rygate, _rxgate, _u3gate, _czgate, _cxgate, _crxgate, _crygate, _cu3gate, _reduce0, _reduce1, _reset1"]}
{"id": "C26", "title": "numba and numpy agree", "statement": "For the same circuit and the same random draws, the numba and numpy backends return the same state vector and counts.", "quantifier": "every circuit with built-in gates on valid targets and every random stream", "why_tests_cant": "unbounded circuits and continuous angles", "anchors": ["blueqat/backends/_numba_backend_impl.py", "blueqat/backends/numpy_backend.py"]}
{"id": "C27", "title": "Symbolic unitary agrees with the simulator", "statement": "The matrix returned by the sympy_unitary backend applied to |0...0> is the state vector of the numpy backend, for any circuit without measurement and reset.", "quantifier": "every circuit, including gates whose target list names a qubit twice", "why_tests_cant": "unbounded circuits and angles", "anchors": ["blueqat/backends/sympy_backend.py"]}
{"id": "C28", "title": "circuit_to_unitary returns the operator", "statement": "Column j of circuit_to_unitary(c) is the state obtained by running c from basis state j.", "quantifier": "every circuit and every column", "why_tests_cant": "unbounded circuits; basis preparation by X gates must be right for every j", "anchors": ["blueqat/experimental/utils.py: circuit_to_unitary"]}
{"id": "C29", "title": "QASM text is complete and ordered", "statement": "to_qasm() emits a header that declares n qubits and n bits, then one statement for each gate application in order, each with indices inside the declared registers, and every operation it names is defined by OpenQASM 2.0 or qelib1.inc.", "quantifier": "every circuit", "why_tests_cant": "unbounded circuits; all gates and target forms", "anchors": ["blueqat/backends/qasm_output_backend.py"]}
{"id": "C30", "title": "QASM text means the circuit", "statement": "Interpreting the emitted statements with the definitions of OpenQASM 2.0 and qelib1.inc gives the operator of the circuit, up to a global phase.", "quantifier": "every circuit without measurement, all angles and states", "why_tests_cant": "continuous angles; each gate's decomposition must match on all states", "anchors": ["blueqat/backends/qasm_output_backend.py"]}
{"id": "C31", "title": "Pauli products", "statement": "The product of Pauli operators and terms denotes the product of their matrices, including the phase.", "quantifier": "all terms of any length on any qubits, all complex coefficients", "why_tests_cant": "unbounded words; non-commutative algebra", "anchors": ["blueqat/pauli.py: _PauliImpl.__mul__, Term.__mul__, Term.join_ops, Term.__pow__"]}
{"id": "C32", "title": "Term.simplify is sound and canonical", "statement": "simplify() denotes the same operator, has at most one factor per qubit in ascending order and no identity, and is idempotent.", "quantifier": "all terms", "why_tests_cant": "unbounded words", "anchors": ["blueqat/pauli.py: Term.simplify"]}
{"id": "C33", "title": "Expr == decides operator equality", "statement": "Two expressions compare equal exactly when they denote the same operator.", "quantifier": "all pairs of expressions", "why_tests_cant": "needs linear independence of Pauli strings on any number of qubits", "anchors": ["blueqat/pauli.py: Expr.__eq__, Expr.simplify, Term.__eq__"]}
{"id": "C34", "title": "Expression arithmetic is operator arithmetic", "statement": "+, -, unary -, *, ** and division by a number on Pauli, Term and Expr values denote the sum, difference, product, power and quotient of the operators.", "quantifier": "all expressions built with these operators", "why_tests_cant": "all expression trees; loss of terms happens only for particular shapes", "anchors": ["blueqat/pauli.py: Expr.__add__, __sub__, __mul__, terms_to_dict, from_terms_iter, Term.__pow__"]}
{"id": "C35", "title": "Commutation test", "statement": "is_commutable of two Pauli terms is True exactly when their operators commute, i.e. when they anticommute on an even number of qubits; the commutator function returns xy-yx.", "quantifier": "all pairs of terms, of any length", "why_tests_cant": "unbounded words and coefficients of any size", "anchors": ["blueqat/pauli.py: commutator, is_commutable"]}
{"id": "C36", "title": "to_matrix builds the right matrix", "statement": "Term.to_matrix(n) and Expr.to_matrix(n) return, in every sparse layout, the 2**n square matrix of the operator, with qubit k as bit k of the row and column index.", "quantifier": "all terms and expressions, all n that hold their qubits, every layout", "why_tests_cant": "dimension is unbounded; the array layout (indices, indptr, recursion of the Kronecker product) must be right at every entry", "anchors": ["blueqat/pauli.py: Term.to_matrix, Expr.to_matrix, _term_to_dataarray, _kron_1d_rec"]}
{"id": "C37", "title": "Terms from characters", "statement": "term_from_chars(s) denotes the tensor product whose factor on qubit k is the k-th character from the right.", "quantifier": "all strings over I, X, Y, Z", "why_tests_cant": "unbounded strings", "anchors": ["blueqat/pauli.py: term_from_chars, pauli_from_char"]}
{"id": "C38", "title": "Appending a term applies its operator", "statement": "append_to_circuit adds gates that apply the operator of the term, up to the coefficient.", "quantifier": "all terms, all states", "why_tests_cant": "unbounded words; order of the factors matters", "anchors": ["blueqat/pauli.py: Term.append_to_circuit"]}
{"id": "C39", "title": "Time evolution circuits", "statement": "The circuit appended by get_time_evolution for a term with real coefficient c and Pauli string P at time t applies exp(i*c*t*P), with one sign convention for all strings.", "quantifier": "all Pauli strings, coefficients, times, and states", "why_tests_cant": "all strings and continuous parameters; the sign depends on the number of Y factors", "anchors": ["blueqat/pauli.py: Term.get_time_evolution"]}
{"id": "C40", "title": "Identity tests", "statement": "is_identity is True exactly when the operator is a multiple of the identity (for a Term) or the identity (for an Expr).", "quantifier": "all terms and expressions", "why_tests_cant": "all words, including those that reduce to the identity", "anchors": ["blueqat/pauli.py: Term.is_identity, Expr.is_identity"]}
{"id": "C41", "title": "expect() returns the marginal distribution", "statement": "expect(state, meas) maps each outcome of the measured qubits to its marginal probability, contains every outcome of non-zero probability, and its values add up to the squared norm.", "quantifier": "all states, all tuples of measured qubits", "why_tests_cant": "unbounded vectors and all subsets and orders of qubits", "anchors": ["blueqat/vqe.py: expect"]}
{"id": "C42", "title": "Sampled and sparse energies agree", "statement": "With an exact sampler, get_energy returns the expectation of the Hamiltonian, the same as get_energy_sparse.", "quantifier": "all circuits and Hamiltonians with real coefficients", "why_tests_cant": "all Pauli strings; errors depend on the number of Y factors and on repeated qubits in one term", "anchors": ["blueqat/vqe.py: AnsatzBase.get_energy, get_energy_sparse, sparse_expectation, expect"]}
{"id": "C43", "title": "Measurement sampler attributes outcomes to the right qubits", "statement": "The sampler of get_measurement_sampler returns relative frequencies that add up to 1 and whose k-th key entry is the outcome of the k-th requested qubit.", "quantifier": "all circuits, lists of qubits, and random streams", "why_tests_cant": "the register width and the requested qubits are unbounded; symmetric examples hide a reversal", "anchors": ["blueqat/vqe.py: get_measurement_sampler, sampling_by_measurement"]}
{"id": "C44", "title": "QUBO matrices as Pauli Hamiltonians", "statement": "wq.pauli(Q) is diagonal and its value on basis state x is the QUBO energy of x; qubo_bit(i) has value x_i.", "quantifier": "all square matrices, all bit vectors", "why_tests_cant": "unbounded sizes and real entries", "anchors": ["blueqat/wq.py: pauli", "blueqat/pauli.py: qubo_bit"]}
{"id": "C45", "title": "QUBO to Ising conversion keeps energies", "statement": "Opt.qi() produces Ising coefficients and an offset such that the Ising energy of q plus the offset is the QUBO energy of x=(q+1)/2.", "quantifier": "all upper-triangular matrices, all spin vectors", "why_tests_cant": "unbounded sizes and real entries", "anchors": ["blueqat/wq.py: Opt.qi, Opt.reJ, Ei"]}
{"id": "C46", "title": "Simulated annealing bookkeeping", "statement": "The energy change used to accept a flip is the real energy difference; the recorded energies are those of the visited states, and the last one is the QUBO energy of the returned bits, for every sequence of proposals and draws.", "quantifier": "all matrices, schedules, and random streams", "why_tests_cant": "every run of a randomised loop", "anchors": ["blueqat/wq.py: Opt.run, Ei"]}
{"id": "C47", "title": "Constraint builders", "statement": "sel(N,K) has minimal energy exactly on the vectors with K ones (over the positions of the third argument as documented); sqr(A) is the QUBO of (A.x)^2; mul(A,B) of (A.x)(B.x); net(pairs,N) counts pairs with both ends set.", "quantifier": "all sizes, coefficient vectors and bit vectors", "why_tests_cant": "unbounded sizes", "anchors": ["blueqat/wq.py: sel, sqr, mul, net"]}
{"id": "C48", "title": "Reduction to quadratic terms", "statement": "nbody_separation returns a polynomial with at most two factors per term and a penalty that is non-negative, zero exactly when all auxiliary variables are products of the pairs they replace, in which case the polynomial has its original value.", "quantifier": "all multilinear polynomials, all bit assignments, all iteration orders of the variable sets", "why_tests_cant": "nondeterministic set iteration order and unbounded polynomials", "anchors": ["blueqat/wq.py: nbody_separation, qn_to_qubo"]}
{"id": "C49", "title": "Registries", "statement": "A gate, macro or backend name is in use exactly from its registration until its unregistration; without allow_overwrite nothing that exists is replaced; every registered item can be unregistered; after a successful registration the name resolves to the registered item.", "quantifier": "every sequence of register, unregister and lookup calls", "why_tests_cant": "all histories of a mutable global state", "anchors": ["blueqat/circuit.py: BlueqatGlobalSetting, Circuit.__getattr__"]}
{"id": "C50", "title": "Default backend selection", "statement": "run() without a backend uses the circuit's default if set, else the global default; setting it to None returns to the global default; only registered names can be set; copies inherit the setting.", "quantifier": "every history of settings", "why_tests_cant": "all histories of a mutable global and per-circuit state", "anchors": ["blueqat/circuit.py: Circuit.set_default_backend, get_default_backend_name, __get_backend"]}
{"id": "C51", "title": "repr() can be evaluated back", "statement": "repr(c) is an expression that, evaluated, gives a circuit with the same gates, targets, parameters and width.", "quantifier": "every circuit made of built-in gates", "why_tests_cant": "all targets (slices with absent parts, tuples) and all circuits", "anchors": ["blueqat/circuit.py: Circuit.__repr__", "blueqat/gate.py: Gate._str_args, _str_targets"]}
{"id": "C52", "title": "Bit string conversion", "statement": "to_inttuple maps bit strings to tuples of their digits without merging or dropping entries of a dictionary or Counter, and raises ValueError for strings with other characters.", "quantifier": "all strings and dictionaries of them", "why_tests_cant": "unbounded strings and dictionaries", "anchors": ["blueqat/utils.py: to_inttuple"]}
{"id": "C53", "title": "Global phase normalisation", "statement": "ignore_global_phase multiplies the vector by one unit complex number so that its first entry of modulus above the threshold becomes positive real; vectors equal up to a global phase get equal results; it is idempotent.", "quantifier": "all vectors", "why_tests_cant": "continuous vectors of any length", "anchors": ["blueqat/utils.py: ignore_global_phase"]}
{"id": "C54", "title": "Operation lists are immutable values", "statement": "Every method of the experimental Ops class returns a new value and leaves its receiver unchanged; converting to a circuit gives the same gates and width; dagger behaves as for circuits.", "quantifier": "every sequence of operations", "why_tests_cant": "all histories", "anchors": ["blueqat/experimental/operations.py: Ops"]}
{"id": "C55", "title": "Results do not alias internal state", "statement": "Changing the array returned by run() in place never changes the result of a later run, and a later run never changes an array returned earlier.", "quantifier": "every history of runs and in-place changes", "why_tests_cant": "aliasing shows only in particular histories", "anchors": ["blueqat/backends/numpy_backend.py: NumPyBackend.run, _NumPyBackendContext.prepare"]}
{"id": "C56", "title": "VQE results rank outcomes", "statement": "most_common(k) lists k outcomes of highest probability in non-increasing order; get_probs returns stored probabilities unless rerun is requested; asking for probabilities does not alter the result's circuit.", "quantifier": "all distributions, k and call histories", "why_tests_cant": "all distributions and call sequences", "anchors": ["blueqat/vqe.py: VqeResult"]}
{"id": "C57", "title": "QAOA circuits alternate cost evolution and mixer", "statement": "QaoaAnsatz.get_circuit(params) prepares the initial state (|+...+> or the state of the given circuit, which is left unchanged), then for each step applies the evolutions of the Hamiltonian's terms with the step's gamma followed by the mixer with the step's beta (RX on every qubit, or the evolutions of the given mixers); Hamiltonians with anticommuting terms and mixers without an initial circuit are refused.", "quantifier": "all Hamiltonians with real coefficients and commuting terms, all numbers of steps, all angles, initial circuits and mixers", "why_tests_cant": "all Hamiltonians, widths and angles", "anchors": ["blueqat/vqe.py: AnsatzBase, QaoaAnsatz"]}
{"id": "C58", "title": "Quantum annealing follows the path-integral energy", "statement": "Opt.sqa() is a Metropolis annealing of tro coupled copies of the QUBO: each proposal is judged by the change of the path-integral energy (mean QUBO energy of the slices minus the bond coupling times the agreement of neighbouring slices) at the current transverse field, the spins stay +1/-1, the energies appended to E are those of the visited states, and the run ends.", "quantifier": "all QUBOs, numbers of slices, temperatures, fields, rates, iterations and all random numbers", "why_tests_cant": "random walks over exponentially many states; a wrong sign or neighbour only shifts statistics", "anchors": ["blueqat/wq.py: Ei_sqa, Opt.sqa"]}
{"id": "C59", "title": "Opt.add sums QUBOs", "statement": "Adding QUBOs with factors to an Opt makes its QUBO the weighted sum, so that energies add up and a following run() minimises and records the sum; a QUBO that does not fit is refused.", "quantifier": "all sequences of QUBOs and factors, all sizes", "why_tests_cant": "all sequences and sizes; numpy comparisons with [] depend on shapes", "anchors": ["blueqat/wq.py: Opt.add, Opt.run, Opt.qi"]}
{"id": "C60", "title": "Problems sent to the D-Wave solver", "statement": "dw() sends the Ising problem of the QUBO to the solver, so that an answer of least energy gives bits of least QUBO energy.", "quantifier": "all QUBOs, solvers and answers", "why_tests_cant": "needs the remote machine; depends on its working nodes and couplers", "anchors": ["blueqat/wq.py: Opt.dw"]}
{"id": "C61", "title": "Weights of layered machines", "statement": "dbms gives each unit a bias and each pair of units of neighbouring layers a coupling (the given weight, or a random number of its own), and nothing else; setRBM stores it with the sizes of the first two layers.", "quantifier": "all lists of layer sizes, all weights, all random numbers", "why_tests_cant": "all layouts; an index off by one layer only changes random entries", "anchors": ["blueqat/wq.py: dbms, Opt.setRBM"]}
{"id": "C62", "title": "Expectations given data", "statement": "For a restricted machine rbm_hmodel gives the conditional expectations of the hidden units given the visible ones, and rbm_data_qubo those of all products x_i x_j that have a weight, for the Boltzmann distribution of the QUBO.", "quantifier": "all sizes, all weights without couplings among hidden units, all data", "why_tests_cant": "sums over exponentially many states; the sign of the exponent is invisible in single values", "anchors": ["blueqat/wq.py: sigm, rbm_hmodel, rbm_data_qubo"]}
{"id": "C63", "title": "Training of a restricted machine", "statement": "fit repeats Q <- alpha Q + epsilon (expectations given a row - means of annealed samples): it is a training in this sense for all random numbers, ends, keeps the machine bipartite and keeps the weights bounded (by 1 for the defaults after setRBM).", "quantifier": "all data of bits, sizes, rates, numbers of epochs and shots, all random numbers", "why_tests_cant": "random; invariants over any number of epochs", "anchors": ["blueqat/wq.py: Opt.rbm_model_qubo, Opt.fit"]}
{"id": "C64", "title": "Counting rows", "statement": "counter maps the text of each row to the number of its occurrences; different rows have different texts.", "quantifier": "all lists of rows", "why_tests_cant": "all lists; tests use bits", "anchors": ["blueqat/wq.py: counter"]}
{"id": "C65", "title": "Vqe.run minimises the energy of the ansatz", "statement": "Vqe.run hands the minimizer the number of parameters and an objective whose value is the exact energy of the ansatz state at the parameters, returns the minimizer's answer with a circuit that prepares the state at the answer, prints the evaluations in order when verbose, and changes no other circuit; no energy met is below the spectrum of the Hamiltonian. An initial circuit wider than the Hamiltonian is accepted.", "quantifier": "all Hamiltonians, numbers of steps, initial circuits, mixers, minimizers (any adaptive finite sequence of evaluations) and call histories", "why_tests_cant": "the minimizer is any program, parameters are real, circuits are unbounded", "anchors": ["blueqat/vqe.py: AnsatzBase.get_objective, Vqe.run, get_scipy_minimizer, VqeResult"]}
{"id": "C66", "title": "The OpenQASM text of a circuit executes like the circuit", "statement": "Executing the OpenQASM text of a circuit with measurements and resets, with the same random numbers, gives in every shot the same classical register, uses the same number of random numbers and leaves the same state up to a global phase; so the counts of the numpy backend are those of the text.", "quantifier": "all circuits of gates with measurements and resets, widths, parameters, initial states, random numbers and numbers of shots", "why_tests_cant": "outcomes are random and parameters are real; a test sees finitely many shots of finitely many circuits", "anchors": ["blueqat/backends/qasm_output_backend.py: QasmOutputBackend", "blueqat/backends/numpy_backend.py: gate_measure, gate_reset, _post_run"]}
{"id": "C67", "title": "The ibmq backend returns what Qiskit measured, qubit 0 first", "statement": "run_with_ibmq hands the OpenQASM text to Qiskit, asks for the device and the shots that were given (otherwise Aer's qasm_simulator and 1024) and returns the object named by returns; by default a counter with the outcomes of the shots, qubit 0 first. Unknown values of returns raise ValueError and a missing Qiskit raises ImportError before Qiskit is used; returns='_exception' returns the exception of the import.", "quantifier": "all circuits, devices, shots, values of returns and every behaviour of Qiskit", "why_tests_cant": "Qiskit and its devices are programs outside of the repository with any behaviour", "anchors": ["blueqat/backends/ibmq_backend.py: _qasm_runner_qiskit", "blueqat/backends/qasm_parser_backend_generator.py: generate_backend"]}
{"id": "C68", "title": "The Qiskit sampler returns the relative frequencies of the outcomes", "statement": "The sampler of get_qiskit_sampler measures the requested qubits and returns the relative frequencies of their outcomes in the requested order, for binary and hexadecimal texts of the register; the frequencies sum to 1, and energies computed with it converge to the exact ones.", "quantifier": "all circuits, lists of qubits, shots, devices and call histories", "why_tests_cant": "the device is outside of the repository; circuits, qubits and outcomes are unbounded", "anchors": ["blueqat/vqe.py: get_qiskit_sampler, AnsatzBase.get_energy"]}
{"id": "C69", "title": "The qgate backend hands qgate operators that execute like the circuit", "statement": "QgateBackend.convert_operators turns every application of a gate into one operator of qgate, in order; executed with the usual matrices the operators do to state, outcomes and random numbers what the circuit does, up to a global phase. Kinds of gates without an operator (cy, ch, rxx, ryy, rzz, ccz, cswap, reset) raise AssertionError. A controlled u2 or u3 agrees with the gate of Blueqat exactly if qgate's U has no phase of its own.", "quantifier": "all circuits, registers, targets, parameters, states and streams of random numbers", "why_tests_cant": "circuits and targets are unbounded, and qgate is a program outside of the repository", "anchors": ["blueqat/backends/qgate_backend.py: convert_operators, convert_one_qubit_gate, convert_multi_qubit_gate, convert_measure, create_gates"]}
{"id": "C70", "title": "Runs of the qgate backend return state vectors and counts of the circuit", "statement": "QgateBackend.run returns the state vector of the circuit up to a global phase, or the counts of as many shots as asked for with qubit 0 first, or a vector with the outcome that belongs to it, as returns and shots ask. Counts are those of the circuit with all its measurements moved to the end; for a circuit that measures ascending qubits once at its end they are the counts of its own shots. Unknown runtimes, unknown values of returns and more than one shot with statevector_and_shots raise RuntimeError.", "quantifier": "all circuits, arguments, streams of random numbers and every qgate that simulates its operators", "why_tests_cant": "qgate is outside of the repository; circuits, arguments and random numbers are unbounded", "anchors": ["blueqat/backends/qgate_backend.py: run, sample, get_state_vector, get_state_vector_and_sample"]}
{"id": "C71", "title": "The Blueqat compatible sampling pool draws the outcomes of successive measurements", "statement": "BlueqatCompatibleSamplingPool.sample, given the probabilities of the measured qubits, returns for every sample the outcomes that measuring these qubits one after the other gives with the same random numbers, one number for each qubit; outcomes of probability 0 never occur. shift_for_empty_lanes moves the bits to the lanes that are not empty, in order, and leaves empty lanes 0.", "quantifier": "all states, lists of qubits, sorted lists of empty lanes, numbers of samples and random numbers", "why_tests_cant": "states are real valued and the number of lanes and samples is unbounded", "anchors": ["blueqat/backends/qgate_backend.py: BlueqatCompatibleSamplingPool"]}
{"id": "C72", "title": "QAOA with a diagonal Hamiltonian measures its cost function", "statement": "A Hamiltonian that is a diagonal operator, however it was written, simplifies to real multiples of products of Z on exactly the bits its cost depends on; its time evolution turns the phases by the cost; QAOA with it is never refused, its energies are the mean costs, the reported probabilities have the reported energy as mean cost, the energy is never below the least cost, and if it equals the least cost only bits of least cost are measured.", "quantifier": "all diagonal Hamiltonians, numbers of steps, minimizers and reachable heaps; no sampler or the exact one", "why_tests_cant": "Hamiltonians, widths and strategies of minimizers are unbounded, states are continuous", "anchors": ["blueqat/vqe.py: QaoaAnsatz, Vqe, VqeResult", "blueqat/pauli.py: Expr.simplify, get_time_evolution"]}
{"id": "C73", "title": "The maxcut example solves MAX-CUT", "statement": "The Hamiltonian of maxcut_qaoa is the number of edges minus twice the number of cut edges; its lowest states are the maximum cuts; it has as many qubits as the last vertex joined to another one requires; running it reports probabilities whose mean cut belongs to the energy, is at most the maximum cut, and if it equals it, only maximum cuts are measured.", "quantifier": "all lists of edges (repeated ones and loops included), numbers of steps, minimizers", "why_tests_cant": "graphs are unbounded and the claim about minimal energies is about all states", "anchors": ["examples/maxcut_qaoa.py: maxcut_qaoa", "examples/qaoa_via_ibmq.py: maxcut_qaoa", "examples/qaoa_via_qgate.py: maxcut_qaoa"]}
{"id": "C74", "title": "The number partitioning example solves number partitioning", "statement": "The Hamiltonian of numpartition_qaoa is the square of the difference of the sums of the two groups of numbers; if the mean cost of the result is 0, all measured bits give two groups with equal sums; the printed groups together contain all numbers.", "quantifier": "all lists of real numbers, numbers of steps, minimizers", "why_tests_cant": "lists and numbers are unbounded", "anchors": ["examples/numpartition_qaoa.py: numpartition_qaoa, main program lines 32-34"]}
{"id": "C75", "title": "The factoring example finds factors", "statement": "The Hamiltonian of factoring_qaoa is the square of the difference of the number and a product of two odd numbers encoded in the bits; bitseparator reads these numbers from the measured bits; the mean cost 0 means that all measured bits are factors, for numbers above 3 proper ones; every composite number has a state of cost 0.", "quantifier": "all numbers, numbers of steps, minimizers", "why_tests_cant": "numbers are unbounded; the example tries one", "anchors": ["examples/factoring_qaoa.py: factoring_qaoa, get_nbit, mk_expr, bitseparator"]}
{"id": "C76", "title": "Polynomials become QUBO matrices with the same energies", "statement": "expand_qubo keeps the values of a polynomial on bits and leaves no powers; qubo_to_matrix gives the upper triangular matrix whose energies are the values of a quadratic polynomial up to its constant; add with a text adds these energies. Variables not numbered 0 .. n-1 raise IndexError, products of three variables TypeError, constants GeneratorsNeeded.", "quantifier": "all polynomials with real coefficients, all orders in which sets are iterated, all matrices held before", "why_tests_cant": "polynomials are unbounded, and the order of sets differs between runs of the interpreter", "anchors": ["blueqat/wq.py: Opt.expand_qubo, Opt.qubo_to_matrix, Opt.add"]}
{"id": "C77", "title": "optx and optm reduce polynomials on bits", "statement": "optx keeps the values on bits and leaves no powers; optm gives the upper triangular matrix whose energies are the values of a quadratic polynomial up to its constant; make_qs gives consecutive symbols.", "quantifier": "all polynomials with real coefficients, sizes, and orders in which sets are iterated", "why_tests_cant": "polynomials and sizes are unbounded, and the order of sets differs between runs of the interpreter", "anchors": ["blueqat/wq.py: optx, optm, make_qs"]}
{"id": "C78", "title": "Opt.qaoa minimizes the QUBO energy", "statement": "qaoa() of an Opt with a QUBO runs QAOA with the QUBO energy as cost: nothing is refused, the minimizer sees mean QUBO energies, the measured bits have the reported energy as mean, it is never below the least QUBO energy, and if it equals it only optimal bits are measured; the number of qubits is that of the last variable that matters. An empty QUBO raises AttributeError. sa() ends and reports the QUBO energies of its answers.", "quantifier": "all QUBO matrices, numbers of steps, minimizers, random numbers and reachable heaps", "why_tests_cant": "matrices and strategies of the minimizer are unbounded, states are continuous", "anchors": ["blueqat/wq.py: Opt.qaoa, Opt.sa, pauli", "blueqat/vqe.py: Vqe.run, QaoaAnsatz"]}
{"id": "C79", "title": "The texts of Pauli operators are read back as the same operators", "statement": "repr of an operator, a term or an expression is a Python expression for the same operator: it parses, evaluating it with the overloaded operators gives the same operator, and v == eval(repr(v)); equal texts mean equal operators.", "quantifier": "all operators, terms and expressions with coefficients whose str is a Python numeral", "why_tests_cant": "terms, coefficients and their signs are unbounded, and signs are moved between the texts of terms and the signs of the sum", "anchors": ["blueqat/pauli.py: _PauliImpl.__repr__, Term.__repr__, Expr.__repr__"]}
{"id": "C80", "title": "Arguments of a gate call become the parameters of the gate", "statement": "c.name(args, keywords)[targets] adds the gate of that name whose parameters are the arguments, given by place or by keyword in any order; further keywords are kept by the gate and by its adjoint, unless the adjoint has a parameter of that name; calls that leave a parameter without a value or give it two raise TypeError and change nothing; a chain of calls has the gates, the width and the text that were written; the arguments used are those of the wrapper's last call.", "quantifier": "all gate classes, argument lists, keyword dictionaries, targets and sequences of calls", "why_tests_cant": "argument lists, keywords and their orders and interleavings of calls on shared wrappers are unbounded", "anchors": ["blueqat/circuit.py: Circuit.__getattr__, _GateWrapper", "blueqat/gate.py: __init__, dagger, __str__ of all classes"]}
{"id": "C81", "title": "Arrays from numba runs are the program's own and have the dtype asked for", "statement": "Changing an array returned by a run of the numba backend in place never changes the result of a later run; a later run, of the same backend or of a copy, with any dtype, with the cache on or off, never changes an array returned earlier; the array has the dtype given to run, and a cache made with another dtype is not used.", "quantifier": "every history of making, copying and running backends and of in-place changes", "why_tests_cant": "aliasing and stale caches show only in particular histories", "anchors": ["blueqat/backends/_numba_backend_impl.py: NumbaBackend.run, _NumbaBackendContext, gate_measure, gate_reset, __clear_cache_if_invalid, _ignore_global"]}
{"id": "C82", "title": "Runs follow the laws of quantum mechanics, with measurements and resets anywhere", "statement": "With independent uniform random numbers, the values found by the measurements and resets of a shot have, for every circuit, the squared norm of the projected state as probability; the state returned is that projected state, normalised; shots are independent; the count of a result in N shots has mean N p and variance N p (1 - p), and its share differs from p by eps or more with probability at most 1 / (4 N eps^2).", "quantifier": "every circuit with measurements and resets anywhere, every number of shots, every stream of random numbers, both simulators", "why_tests_cant": "tests sample a few circuits and can only reject gross deviations from the law", "anchors": ["blueqat/backends/numpy_backend.py: gate_measure, gate_reset, run", "blueqat/backends/_numba_backend_impl.py: gate_measure, gate_reset, run"]}
{"id": "C83", "title": "Rounding errors of the NumPy simulator stay small", "statement": "When every arithmetic operation has a relative error of at most u (and cos, sin an absolute error of at most u), a run on L gate applications with angles up to M returns a state within (1 + 256 u M)^(7 L) - 1 of the exact state in Euclidean norm, so within 3584 u M L while this is at most 1, whatever the number of qubits; norm and probabilities are as close. In 53 digit arithmetic a million gates with angles up to 7 stay within 1/300000. No bound holds for unbounded angles.", "quantifier": "every circuit of built-in gates without measurement and reset, every number of qubits, every arithmetic with bounded relative error", "why_tests_cant": "tests compare a few small circuits with a tolerance; they cannot bound the error of all circuits", "anchors": ["blueqat/backends/numpy_backend.py: gate_x to gate_u3, run", "blueqat/gate.py: fallback methods"]}
{"id": "C84", "title": "Measurements and resets with rounding", "statement": "When every arithmetic operation and np.linalg.norm have a relative error of at most u, a shot that would find the values s without rounding, with every draw further than 14 d err / W from the probability it is compared with, finds the same values with rounding, records the same bits, uses the same draws and ends within (14 d + 2) err / W of the exact normalised state. Here d is the number of measurements and resets, W > 0 the probability of s, err = (1 + 256 u M)^(7 L) - 1, and 28 d^2 err <= W. So s is recorded with a probability of at least W - 14 d^2 err / W. Values of probability 0 can be recorded: h[0].h[0].m[0] with a draw of 1 - 2^-53 gives 1 and the zero vector.", "quantifier": "every circuit of built-in gates with measurements and resets anywhere, every number of qubits, all draws, every arithmetic with bounded relative error", "why_tests_cant": "the draws and states that rounding sends to another branch are too rare to be met by tests", "anchors": ["blueqat/backends/numpy_backend.py: gate_measure, gate_reset, run"]}
{"id": "C85", "title": "Rounding errors with underflow and overflow", "statement": "When operations on operands of size up to B have an error of at most u times the exact result plus eta, and nothing is known about larger operands, a circuit of L operations on n qubits with angles up to M (3 <= M, 128 M <= B, 1000 u M <= 1) runs without an error on the NumPy backend and ends within ((1 + 300 u M)^(7 L) - 1)(1 + eta/u sqrt(2^n)) of the exact state, as long as (1 + 300 u M)^(7 L) (1 + eta/u sqrt(2^n)) <= 4. Rounding to p binary digits in multiples of 2^low, with anything at all above 2^high, is such an arithmetic. IEEE doubles are one with u = 2^-53, eta = 2^-1075 and B = 2^500: with up to 2000 qubits, a million operations and angles up to 7 the final state is within 1/300000 of the exact one, and no overflow happens on the way. Doubles do not have a bounded relative error.", "quantifier": "every circuit of built-in unitary gates, every number of qubits, every arithmetic with errors bounded in a range of operands", "why_tests_cant": "denormal amplitudes and overflows appear only in rare states and large registers that cannot be enumerated", "anchors": ["blueqat/backends/numpy_backend.py: gate_x, gate_h, gate_u3, gate_cx, gate_ccz, run", "blueqat/gate.py: fallback"]}
{"id": "C86", "title": "Rounding errors on the numba backend", "statement": "A loop of the numba backend is compiled with fastmath, so each assignment computes some function of its operands that may differ by the index it writes. If every such function has an error of at most 5 u times the sizes of the products plus 20 eta (1/10^16 <= u, eta <= u), and the methods compute in an arithmetic with errors u and eta for operands up to B, then a circuit of L operations on n <= 64 qubits with angles up to M runs without an error and ends within ((1 + 300 u M)^(7 L) - 1)(1 + eta/u sqrt(2^n)) of the exact state, and every interleaving of the iterations leaves the same array. Code with one operation after the other, code with fused multiply-adds, and a mixture of two kinds by index all have such errors. With doubles, up to a million operations and angles up to 7 the final state is within 1/300000 of the exact one. The decimal number 0.7071067811865475 in the Hadamard gate is not 1/sqrt 2: without any rounding the state is already not the exact one, and it is within 42 M L / 10^14 of it.", "quantifier": "every circuit of built-in unitary gates, every number of qubits up to 64, every compiled code and arithmetic with bounded errors, every interleaving", "why_tests_cant": "what the compiler does with fastmath depends on the processor and the iteration, and the largest error over all circuits and interleavings cannot be searched by tests", "anchors": ["blueqat/backends/_numba_backend_impl.py: _zgate, _ygate, _hgate, _diaggate, _rzgate, _rygate, _rxgate, _u3gate, _czgate, _crxgate, _crygate, _crzgate, _cphasegate, run", "blueqat/gate.py: fallback"]}
{"id": "C87", "title": "Rounding errors of measurements with underflow and overflow, on both backends", "statement": "In an arithmetic with errors of at most u times the result plus eta (eta <= u^2, operands up to B, divisors from 1/B), with a norm (NumPy) or a sum of squares (numba, whose loop is a parallel reduction compiled with fastmath) that has an error of at most w times (the exact value plus g), a shot that would find the values s without rounding, with every draw further than 14 d err / W from its threshold, finds s, uses as many draws, and ends within (14 d + 2) err / W of the exact state; W is the probability of s, d the number of draws and err at least ((1 + 300 u M)^(7 L) - 1 + v)(1 + 2 g), with v = 6 w for NumPy and 2 w for numba. The draws that find s with rounding have a probability of at least W - 14 d^2 err / W. The sum of squares in any order and grouping with K additions meets this with w = (1 + u)^(K + 1) - 1. With doubles, up to 20 qubits, 2^22 additions in any order, a million operations and angles up to 7, err = 1/300000 will do on both backends. Every interleaving of the loops of a measurement leaves the same array. Without rounding the model is the model of the run.", "quantifier": "every circuit with measurements and resets, every outcome of positive probability, every sequence of draws, every arithmetic, compiled code and order of summation with bounded errors", "why_tests_cant": "the order of a parallel sum changes from run to run, draws near a threshold have a tiny probability, and the largest error over all circuits cannot be searched by tests", "anchors": ["blueqat/backends/_numba_backend_impl.py: _p0calc, _reduce0, _reduce1, _reset1, gate_measure, gate_reset, run", "blueqat/backends/numpy_backend.py: gate_measure, gate_reset, run"]}
{"id": "C88", "title": "Rounded runs with any number of shots, with the cache of the backend", "statement": "In every arithmetic, run(shots=N, returns=..., ignore_global=...) on the numpy and numba backends is N shots of a new backend one after the other: the counter has the number of shots that recorded each key, the state is that of the last shot, the draws are consecutive, and an exception of a shot ends the run; this holds with every cache that an earlier run of a prefix of the circuit left behind, and the cache stays what a new backend computes for a prefix of the circuit. In an arithmetic with bounded errors (as in C87), when the draws of every shot are those of values s with a probability W of at least 28 (1 + d^2) err and differ from each threshold by at least 14 d err divided by the probability of the values before it, the counts are exactly those of the values, and the last state is within (14 d + 2) err / W of the exact one. With independent uniform draws, N rounded shots and N exact shots with the same draws have the same counts except with probability at most 28 N (1 + d + d^2) 2^d err; for doubles with up to 1000 operations err is 1/50000000. Without rounding the model is the model of the run.", "quantifier": "every circuit, number of shots, stream of draws, cache left by a prefix, arithmetic, compiled code, norm and sum with bounded errors", "why_tests_cant": "the agreement of whole runs with exact arithmetic is a statement about probabilities over all streams of draws, and the role of the cache is over all earlier runs", "anchors": ["blueqat/backends/numpy_backend.py: run, _preprocess_run, _postprocess_run", "blueqat/backends/_numba_backend_impl.py: NumbaBackend.run"]}
{"id": "C89", "title": "Removal of the global phase with rounding", "statement": "ignore_global_phase (utils.py) and _ignore_global (numba), with moduli, quotients (Smith's algorithm as in NumPy, CPython's as in numba) and products that have bounded errors and with a rounded threshold, multiply the state by a number of modulus 1 up to a relative error of 120 u + 6 w, the number that turns the first entry whose computed modulus exceeds the threshold to a positive one. If the state is within e of an exact state psi, j is the first entry of psi above 1/10^7 and no modulus up to j is within e + 3 w/10^7 of 1/10^7, the result is within (1 + 2/|psi_j|) e + (120 u + 6 w) (3/2 + g) of what the exact function returns for psi; this holds for whole runs with ignore_global=True on both backends, with e = (14 d + 2) err / W of C88, and in doubles the last term is 3/10^14. Close to the threshold no bound is possible, even without rounding: there are normalised states as close as one likes whose results are at a distance of at least 1. Without rounding the model is that of C53.", "quantifier": "every state of any number of qubits, arithmetic, compiled product and modulus with bounded errors; every circuit, number of shots, cache and stream of draws for the runs", "why_tests_cant": "whether the result is stable depends on which entry is the first above the threshold; tests on a few states do not meet moduli close to it, and error bounds are over all states", "anchors": ["blueqat/utils.py: ignore_global_phase", "blueqat/backends/_numba_backend_impl.py: _ignore_global", "blueqat/backends/numpy_backend.py: run"]}
{"id": "C90", "title": "Probabilities and energies with rounding", "statement": "expect(), with rounded squares and sums and outcomes of a computed probability of 0 left out, returns for a state within e of an exact state each outcome at most once, and the errors of all probabilities together are at most 3 e + (2 * 2^n + 5) u. get_energy() with the exact sampler, which runs a copy of the circuit with rounded changes of basis (rx(-pi/2) with a rounded angle) from the cache of the circuit for each term and adds the rounded products of probabilities and coefficients with signs, returns the expectation of the Hamiltonian (with the sign of Y as in C42) within S (15000 u M (L + k) + (2 * 2^n + 5 + 10 K) u) + 8 K eta, where S is the sum of the sizes of the coefficients, L the number of operators of the circuit, k the largest number of factors of a term and K the number of outcomes of all terms; on both backends. In doubles, for up to 20 qubits and 10000 operators, this is S/5000000 + 1/2^1000. Without rounding the model is that of C41 and C42. Every outcome of positive probability being reported is false: squares underflow.", "quantifier": "every circuit without measurements, Hamiltonian of words with at most one factor on a qubit, arithmetic, compiled code and square with bounded errors, state of the cache of a reachable backend, number of qubits (20 in the theorems for doubles)", "why_tests_cant": "a bound of an error is over all circuits, Hamiltonians and arithmetics; a test compares a few values with a tolerance", "anchors": ["blueqat/vqe.py: expect", "blueqat/vqe.py: AnsatzBase.get_energy", "blueqat/vqe.py: non_sampling_sampler"]}
{"id": "C91", "title": "Energies by sparse matrices with rounding", "statement": "AnsatzBase.get_energy_sparse() of a simplified Hamiltonian with T terms, whose matrix is built by rounded Kronecker products, multiplications by coefficients, powers of i and sums of the terms of a group, multiplied with the state by rounded products and sums column after column, and whose inner product with the state has any order of sums, returns for a state within e of an exact state psi of norm at most 1 the expectation of the Hamiltonian in psi within S (5 e + 15 T u + 4 w) + 400 * 2^n T^2 eta + g, where S is the sum of the sizes of the coefficients and w and g are the errors of np.vdot; for products added in order w = (2 * 2^n + 3) u and g = 11 * 2^n eta. Entries of single terms are exact: multiplications by 0, 1, -1 and i do not round. For runs of circuits with L operators on both backends e = 5000 u M L. In doubles, for up to 20 qubits, 10000 operators and 1000000 terms, the error is at most S/5000000 + 1/2^1000. Without rounding the model is that of the exact energies by sparse matrices; a state of another size is a ValueError in every arithmetic. Unlike get_energy() (C90) the sign of Y is right.", "quantifier": "every circuit without measurements, simplified Hamiltonian with coefficients of the arithmetic, arithmetic, compiled code and inner product with bounded errors, state of the cache of a reachable backend, number of qubits (20 in the theorems for doubles)", "why_tests_cant": "a bound of an error is over all circuits, Hamiltonians and arithmetics; a test compares a few values with a tolerance", "anchors": ["blueqat/vqe.py: AnsatzBase.get_energy_sparse", "blueqat/vqe.py: AnsatzBase.make_sparse", "blueqat/pauli.py: Expr.to_matrix", "blueqat/pauli.py: _kron_1d", "blueqat/pauli.py: _term_to_dataarray"]}
{"id": "C92", "title": "Indices of 32 bits in the numpy backend", "statement": "The numpy backend finds the amplitudes of a qubit by an array of indices of type uint32. For registers of at most 32 qubits, and for the first 32 qubits of larger ones, the masks, and so the gates, are those of exact indices. For each later qubit every index has bit 0: x and h raise ValueError, and z, s, t and phase gates do nothing. That every qubit of every register is acted on as specified is therefore false.", "quantifier": "every number of qubits, target, state, phase", "why_tests_cant": "a register of 33 qubits needs 128 GiB; no test runs one", "anchors": ["blueqat/backends/numpy_backend.py: _NumPyBackendContext.__init__", "blueqat/backends/numpy_backend.py: gate_x", "blueqat/backends/numpy_backend.py: gate_h", "blueqat/backends/numpy_backend.py: gate_z"]}
{"id": "C93", "title": "Probability law of simulated annealing", "statement": "Given uniform independent start spins, proposals and draws, the answers of opt.run() follow Metropolis' Markov chain at the temperatures of the schedule: for all streams there is exactly one history that they allow and it gives the answers, the histories have the probabilities of the chain, and the answers of several shots are independent. The chain is reversible with respect to Boltzmann's law, converges to it unless all energies are equal, and with enough proposals per temperature the answer has Boltzmann's law of the last temperature up to any error, so it is g above the minimum with probability at most 2^n exp(-g/T) plus any error. For constant energies convergence is false: the parity of the number of proposals decides.", "quantifier": "every QUBO matrix, number of spins, schedule, number of shots, stream of random numbers", "why_tests_cant": "a law is a statement about all random numbers; runs of tests are samples", "anchors": ["blueqat/wq.py: Opt.run", "blueqat/wq.py: Opt.qi"]}
{"id": "C94", "title": "Probability law of quantum annealing", "statement": "Given uniform independent start spins, proposals and draws, the answer of opt.sqa() follows the Markov chain of Metropolis on tro copies of the spins with the energy of a path: for all streams there is exactly one history that they allow and its last state is the answer, and the histories have the probabilities of the chain. With enough proposals for each field the answer has Boltzmann's law of the path at the last field up to any error, for every QUBO. That law is given by Trotter's formula: the product of the elements of exp(-E/(P T)) exp((G/(P T)) sum X) around the slices, divided by the trace of the P-th power, so one slice has the probabilities of the diagonal of Trotter's approximation of the thermal state of E - G sum X.", "quantifier": "every QUBO matrix, number of spins and of slices from two on, temperature, fields, stream of random numbers", "why_tests_cant": "a law is a statement about all random numbers, and a limit about all numbers of proposals", "anchors": ["blueqat/wq.py: Opt.sqa", "blueqat/wq.py: Opt.qi"]}
{"id": "C95", "title": "Macros stand for the gates in their bodies", "statement": "A chain of calls on a circuit in which macros occur, however deeply they call each other, has the effect of the gate calls that are left when every call of a macro is replaced by its body: the gates come after those the circuit has, the width is the least that holds them, other circuits are not touched, and the circuit is the value of the chain. If a gate cannot be made, its error is raised and exactly the gates before it have been added. Names of gates always mean gates. A macro may return a gate with its arguments. A macro without return adds its gates and ends the chain with an error; a macro that calls itself raises RecursionError for every limit and leaves one copy of its first gates for each nested call.", "quantifier": "every set of macros, chain, nesting depth, circuit with its earlier gates, and arguments", "why_tests_cant": "macros can be nested in unboundedly many ways and take any arguments", "anchors": ["blueqat/circuit.py: Circuit.__getattr__", "blueqat/circuit.py: GLOBAL_MACROS", "blueqat/circuit.py: _GateWrapper"]}
{"id": "C96", "title": "Matrices of Pauli operators are right and are never shared", "statement": "X.matrix, X[n].matrix and I.matrix give the Pauli matrix of the operator after any number of calls and writes by the user to the arrays that were given out; each answer is a new array, and an array changes only when it is written to itself. The elements are those of to_matrix on one qubit in every layout, and the products of these arrays are those of the table of products of Pauli operators.", "quantifier": "every sequence of calls and writes, every operator and layout", "why_tests_cant": "sharing shows only after particular writes, and there are unboundedly many sequences of writes", "anchors": ["blueqat/pauli.py: _matrix", "blueqat/pauli.py: _PauliImpl.matrix", "blueqat/pauli.py: _PauliCtor.matrix", "blueqat/pauli.py: _I.matrix", "blueqat/pauli.py: _mul_map"]}
{"id": "C97", "title": "Quantum annealing with many slices samples the thermal state", "statement": "As the number tro of slices grows, the law of a slice at the last field G and temperature T tends to the probabilities of the thermal state exp(-(E - G sum X)/T) / trace, where the exponential is the sum of its series. The first slice of the answer of opt.sqa() has these probabilities up to any error with enough slices and then enough proposals for each field. The probabilities are positive and add up to 1, every matrix has an exponential, and the matrix used between slices is the exponential of a multiple of sum X.", "quantifier": "every QUBO matrix, number of spins, temperature and last field above 0, earlier fields, outcome and error above 0", "why_tests_cant": "it is a limit in the number of slices and of proposals", "anchors": ["blueqat/wq.py: Opt.sqa"]}
{"id": "C98", "title": "Repeated time evolutions and QAOA with many steps approach the evolution of the whole Hamiltonian", "statement": "The circuit that appends term.get_time_evolution() of every term with time t/P, P times, tends to exp(i t H) as P grows, on every state and whether or not the terms commute, where exp is the sum of its series. QAOA with P steps and the angles b/P, g/P tends to exp(i (2 pi g H - pi b / 2 sum X)) applied to its initial state, and with a mixer M to exp(i (2 pi g H + pi b M)). The evolution exists, keeps the norm, and is cos t + i sin t P for one string of operators.", "quantifier": "every number of qubits, list of simplified real terms, time, state, angles, initial circuit, mixer, amplitude and error above 0", "why_tests_cant": "it is a limit in the number of steps, for all Hamiltonians and states", "anchors": ["blueqat/pauli.py: Term.get_time_evolution", "blueqat/vqe.py: QaoaAnsatz.get_circuit"]}
{"id": "C99", "title": "QAOA with enough steps reaches the lowest cost, and the example programs find best answers almost surely", "statement": "For every Hamiltonian that is diagonal as an operator and every error there is a number of steps from which on QAOA with the X mixer, starting from the uniform state, has parameters whose mean cost is the lowest one up to the error; more steps are never worse. Running such a problem with a minimizer that finds the lowest energy closely enough measures bits of the lowest cost with a probability as near to 1 as wanted. So maxcut_qaoa can measure maximum cuts of every graph, numpartition_qaoa groups of equal sums if there are any, and factoring_qaoa the factors of products of two odd numbers that fit its bits.", "quantifier": "every diagonal Hamiltonian, error above 0, number of steps from the bound on, minimizer, reachable heap, graph, list of numbers, and product of odd numbers that fits", "why_tests_cant": "it is a statement about all Hamiltonians and the limit of many steps; a run shows one set of parameters", "anchors": ["blueqat/vqe.py: QaoaAnsatz.get_circuit", "blueqat/vqe.py: Vqe.run", "examples/maxcut_qaoa.py", "examples/numpartition_qaoa.py", "examples/factoring_qaoa.py"]}
{"id": "C100", "title": "Energies from measurements scatter around the energy", "statement": "With the measurement sampler of N shots get_energy is the estimate from the values that the draws select: for every term the mean of the products of the measured signs, times the coefficient. Under independent uniform draws the mean of the estimates is the energy of the exact sampler, the mean squared error is at most the sum of the squared coefficients divided by N, and an error of eps or more has a probability of at most this divided by the square of eps.", "quantifier": "every reachable heap, unitary circuit, number of shots above 0, draws, and Hamiltonian whose words are on different qubits of the circuit and on qubit n-1-q with qubit q", "why_tests_cant": "it is a statement about the probability of all results of all numbers of shots; a run shows one result", "anchors": ["blueqat/vqe.py: AnsatzBase.get_energy", "blueqat/vqe.py: get_measurement_sampler", "blueqat/vqe.py: get_measurement_sampler.reduce_bits"]}
