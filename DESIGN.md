# Design of the formal model of Blueqat

Prover: Coq 8.16.1, development in `rocq/theories`, logical root `Verif`.  `_CoqProject` lists the files; `coq_makefile -f _CoqProject -o Makefile && make -j4`
builds everything.  `MANIFEST.json` says for each property which theorems state it and what is missing; `seeded/LOG.jsonl` records the wrong programs that the
theorems were tested against.

## Method

The Python source is mirrored function by function as total Gallina functions.  Exceptions are values (`res A := Ok a | Err exn`), taken branch by branch.  Every
definition of a `Model*.v` file cites the file and lines it mirrors and states its simplifications.

* Amplitudes, angles and coefficients are exact real and complex numbers (pairs over `Coq.Reals`).  Floating point rounding is in `ModelFloat`, `ModelFloatMeasure`, `ModelFloatNumba`, `ModelFloatNumbaMeasure` (one shot on a new backend) `ModelFloatRun` (any number of shots, the cache) `ModelFloatPhase` (the removal of the global phase) `ModelFloatVqe` (probabilities and energies) and `ModelFloatSparse` (energies by sparse matrices) only: C83 and C84 for any arithmetic whose operations have bounded relative error, C85 for circuits without measurements in any arithmetic with underflow and overflow, IEEE doubles among them, C86 for the numba backend, where the code of each assignment of a compiled loop is any function with bounded error that may differ by index, and C87 for measurements and resets with underflow and overflow on both backends, with the sum of a probability in any order, C88 for whole runs with the cache, C89 for the removal of the global phase, C90 for `expect` and `get_energy` with the exact sampler, and C91 for `get_energy_sparse`.  The result of an overflow is an arbitrary number there, which runs never meet; infinities and NaN are not modelled as values.  Dtypes are in `ModelNumbaMemory` only (C81), where they do not change the numbers.
* NumPy arrays are lists; reads and writes through boolean masks are modelled as compress and scatter, as NumPy defines them, not as the bit flip that they are meant
  to implement.  Where sharing matters (C55, C81) arrays are places in a memory.
* `random.random()` is an arbitrary stream of reals; theorems quantify over all streams (in `[0,1)` where it matters).
* Objects with identity and mutation (circuits, their gate lists, backend objects with caches, registries, `Ops` values, arrays) are records in an explicit store, so
  that aliasing, histories and crash points can be stated.
* Loops that could fail to end have fuel; theorems show that the fuel is never used up (fallbacks, C10; reduction of polynomials, C48; annealing, C46).
* Python's `int(str)`, `str(float)` and the reading of printed numbers are parameters (`digit`, `show`, `read`) with explicit hypotheses, with instances in the examples.

Kinds of files:

* `Model*.v`: the code.  `Spec*.v`: what the code is compared with - textbook matrices acting on functions `nat -> C`, arithmetic descriptions of slices, readers of
  OpenQASM and Python text, value semantics without caches or sharing.  Specifications do not call the algorithms of the model; they use its data types (gates, targets,
  operations of a program).
* `Prop*.v`: the property theorems and nothing else, each closed by `exact`, with `Print Assumptions` beneath it.  `Cnn_case`, `Cnn_example` and the like show concrete
  non-trivial cases that meet the hypotheses.  `Cnn_..._refuted` gives a witness where the property is false of the code; `Cnn_..._partial` is the largest true part that
  was found, next to a comment with what is missing.
* `Proof*.v`: lemmas and proofs.

## What is modelled

| source | model | specification | properties |
|---|---|---|---|
| `gate.py` 635-704: `slicing_singlevalue`, `slicing`, `qubit_pairs`, `get_maximum_index`, `find_n_qubits`; CPython's `slice.indices` | `ModelTargets` | `SpecTargets` | C01-C05 |
| `gate.py` 11-632: gate classes, `fallback`, `dagger` | `ModelGate` | `SpecQuantum`, `SpecCircuit` | C06, C09, C11, C12 |
| `gate.py` 38-66, `circuit.py` 93-94: texts | `ModelRepr` | `SpecRepr` | C51 |
| `backends/backendbase.py`: `_get_action`, `_has_action`, `_resolve_fallback`, `_run_gates`, names of the `gate_*` methods | `ModelBackend` | | C10 |
| `backends/numpy_backend.py` | `ModelNumpy`; with arrays in memory `ModelMemory`; statement by statement `ModelCrash` | `SpecQuantum`, `SpecCircuit`, `SpecMeasure`, `SpecRun`, `SpecMemory`, `SpecCrash` | C06-C08, C13-C21, C55 |
| `backends/_numba_backend_impl.py`: index arithmetic in 64 bits, every kernel, run loop | `ModelNumba`, `ModelCrash` | `SpecNumba` | C13, C16, C24-C26 |
| `backends/sympy_backend.py` | `ModelSympy` | `SpecSympy` | C27 |
| `experimental/utils.py` `circuit_to_unitary` | `ModelUnitary` | `SpecUnitary` | C28 |
| `backends/qasm_output_backend.py` | `ModelQasm` | `SpecQasm` | C29, C30 |
| `circuit.py` `Circuit`, `_GateWrapper`: gate calls, `+`, `+=`, `copy`, `dagger`, `run`, `make_cache`, default backends | `ModelCircuit` | `SpecAPI` | C04, C05, C12-C15, C22, C23, C50 |
| `circuit.py` registries, `BlueqatGlobalSetting`, attribute lookup | `ModelRegistry` | `SpecRegistry` | C49, C50 |
| `pauli.py` without matrices | `ModelPauli` | `SpecPauli` | C31-C35, C38-C40 |
| `pauli.py`: `__repr__` of operators, terms and expressions | `ModelPauliRepr` | `SpecPauliText` | C79 |
| `pauli.py` matrices: `_kron_1d`, `_kron_1d_rec`, `_term_to_dataarray`, `_term_to_indices`, `to_matrix` | `ModelPauliMatrix` | `SpecPauliMatrix` | C36, C37 |
| `vqe.py`: `expect`, samplers, energies, `QaoaAnsatz`, `VqeResult` | `ModelVqe` | `SpecVqe` | C41-C43, C56, C57 |
| execution of the texts with measurements and resets | `ModelQasm`, `ModelNumpy` | `SpecQasmRun` | C66 |
| `backends/ibmq_backend.py`, `backends/qasm_parser_backend_generator.py`, `vqe.get_qiskit_sampler` | `ModelIbmq` | `SpecIbmq` | C67, C68 |
| `backends/qgate_backend.py` | `ModelQgate` | `SpecQgate` | C69 to C71 |
| `examples/maxcut_qaoa.py`, `numpartition_qaoa.py`, `factoring_qaoa.py` (also the functions of `qaoa_via_ibmq.py`, `qaoa_via_qgate.py`) | `ModelDemo` | `SpecDemo` | C72 to C75 |
| `vqe.py`: `AnsatzBase.get_objective`, `Vqe.run`, `get_scipy_minimizer` | `ModelVqeLoop` | `SpecVqeLoop` | C65 |
| `wq.py`: `pauli`, `Ei`, `sel`, `mul`, `sqr`, `net`, `diag`, `zeros`, `Opt.reJ`, `Opt.qi`, simulated annealing of `Opt.run` | `ModelWq` | `SpecWq` | C44-C47 |
| `wq.py`: the probability law of simulated annealing in `Opt.run` | `ModelWq` | `SpecAnneal` | C93 |
| `wq.py`: the probability law of quantum annealing in `Opt.sqa`, Trotter's formula | `ModelOpt` | `SpecSqa` | C94 |
| `circuit.py`: macros, `Circuit.__getattr__` followed by calls and subscripts | `ModelMacro` (with `ModelGateCall`) | `SpecMacro` | C95 |
| `pauli.py`: the table `_matrix` and the properties `matrix` | `ModelPauliArray` | `SpecPauliArray` | C96 |
| `wq.py`: quantum annealing in the limit of many slices (the law of C94) | `ModelOpt` | `SpecThermal` | C97 |
| `pauli.py`: `get_time_evolution` repeated in small steps; `vqe.py`: `QaoaAnsatz` with many steps | `ModelPauli`, `ModelVqe` | `SpecEvolve` | C98 |
| `vqe.py`: `QaoaAnsatz`, `Vqe.run`; the programs in `examples`: how low the cost gets with enough steps | `ModelVqe`, `ModelVqeLoop`, `ModelDemo` | `SpecClimb` | C99 |
| `vqe.py`: `get_energy` with `get_measurement_sampler`: the probability law of the energies | `ModelVqe` | `SpecShots`, `SpecLaw` | C100 |
| `wq.py`: `Ei_sqa`, the attributes of `Opt`, `Opt.add`, `run`, `sqa`, `dw` | `ModelOpt` | `SpecOpt` | C58-C60 |
| `wq.py`: `optx`, `optm`, `make_qs`, `Opt.expand_qubo`, `qubo_to_matrix`, `add` with a text | `ModelPoly` | `SpecPoly` | C76, C77 |
| `wq.py`: `Opt.qaoa`, `Opt.sa` | `ModelOptQaoa` | `SpecOptQaoa` | C78 |
| `wq.py`: `counter`, `dbms`, `sigm`, `rbm_hmodel`, `rbm_data_qubo`, `Opt.setRBM`, `rbm_model_qubo`, `fit` | `ModelRbm` | `SpecRbm` | C61-C64 |
| `wq.py`: `nbody_separation`, `qn_to_qubo` | `ModelNbody` | `SpecNbody` | C48 |
| `utils.py`: `to_inttuple`, `ignore_global_phase` | `ModelUtils`, `ModelNumpy` | `SpecUtils` | C52, C53 |
| `circuit.py`: `_GateWrapper`; `gate.py`: constructors, `dagger` and text of gate objects with all attributes | `ModelGateCall` | `SpecGateCall` | C80 |
| `backends/_numba_backend_impl.py` with arrays in memory and dtypes | `ModelNumbaMemory` | `SpecNumbaMemory` | C81 |
| measurements, resets and shots of both simulators as a probability law | `ModelNumpy`, `ModelNumba` | `SpecLaw` | C82 |
| `backends/numpy_backend.py` (gates) and fallbacks of `gate.py` in rounded arithmetic | `ModelFloat` | `SpecFloat`, `SpecFinite` | C83, C85 |
| `backends/numpy_backend.py` (measurement, reset) in rounded arithmetic | `ModelFloatMeasure` | `SpecFloatMeasure`, `SpecLaw` | C84 |
| `backends/_numba_backend_impl.py` (gates) in rounded arithmetic and compiled with fastmath | `ModelFloatNumba` | `SpecFloatNumba` | C86 |
| measurement and reset of both backends in rounded arithmetic with underflow and overflow | `ModelFloatMeasure`, `ModelFloatNumbaMeasure` | `SpecFiniteMeasure` | C87 |
| `run` of both backends in rounded arithmetic: shots, cache, returned values | `ModelFloatRun` | `SpecFloatRun` | C88 |
| `ignore_global_phase`, `_ignore_global` in rounded arithmetic | `ModelFloatPhase` | `SpecFloatPhase` | C89 |
| `expect`, `AnsatzBase.get_energy` with the exact sampler in rounded arithmetic | `ModelFloatVqe` | `SpecFloatVqe` | C90 |
| `AnsatzBase.make_sparse`, `get_energy_sparse` in rounded arithmetic | `ModelFloatSparse` | `SpecFloatSparse` | C91 |
| index array of `_NumPyBackendContext` with its dtype, `gate_x`, `gate_h`, phase gates | `ModelNumpyIndex` | `SpecQuantum` | C92 |
| `experimental/operations.py` | `ModelOps` | `SpecOps` | C54 |

The simplifications are stated in the heads of the model files and at the definitions.  Those that matter most:

* `kwargs` of gates are modelled in `ModelGateCall` only, where C80 shows that the other models' gates stand for gate objects.  Warnings, texts of exceptions and logging are left out.  Slices have integer bounds or none.  Qubit indices of Pauli operators are non-negative.
* All arrays have the default dtype, except in `ModelNumbaMemory`.  The `uint32` index array of numpy_backend is a list of naturals; only `ModelNumpyIndex` has its 32 bits (C92): for at most 32 qubits nothing changes, for later qubits the gates are wrong, so theorems on numpy runs with more than 32 qubits are about the code with a wider index array.
* numba: indices are naturals reduced modulo 2^64 (widths up to 64); parallel loops are all interleavings of single reads and writes of entries in a sequentially
  consistent memory; type inference, compilation and the on-disk cache of numba are not modelled.
* sympy: entries are the complex numbers that the expressions stand for; `_angle_simplify` returns its argument.
* A crash point lies between two statements; an assignment to an attribute is atomic.
* scipy: conversions between sparse layouts and `eliminate_zeros` are taken to keep the entries, `dot` of a sparse matrix to be the sum of products.
* `numpy.random.multinomial` in the state vector sampler returns any list of non-negative counts with the requested sum.
* Sums of sympy in `nbody_separation` are lists of terms that are not collected; sets are iterated in an arbitrary order.
* Polynomials of sympy in `ModelPoly` are collected sums of powers with real coefficients; `subs`, `coeff`, `poly` and `degree` follow sympy's documented results for plain symbols.
* OpenQASM: the reader and the definitions of `qelib1.inc` were written from the OpenQASM 2.0 paper and the file distributed with it (with `swap`, `cswap`); `U` is
  taken up to a global phase.  Whether `1e-05` is a valid literal is left to the hypothesis that printed angles are read back.
* The Python reader of `SpecRepr` accepts a part of Python's expressions: calls, attributes, subscripts, integers, slices, tuples, parameters.

Not modelled:

* The programs qgate and Qiskit themselves (records of arbitrary functions stand for them), `QgateBackend.create_global_phase_gates` (nothing calls it), `_version.py`, `wq.Opt.plot`, the main programs in `examples` (only the groups printed by `numpartition_qaoa.py` are modelled).
* Qiskit: a record of arbitrary functions; where a theorem needs it, a hypothesis says that it executes programs (`executes`, with a model of it in `C67_case`).
* The loop of `scipy.optimize.minimize`: in `Vqe.run` it is any procedure that evaluates the objective finitely often and answers.
* The parser of sympy (texts given to `Opt.add` are sums of products here), symbols with assumptions or other names than `q<i>`; `wq.rands`.
* Macros that do anything else than evaluate one chain on their circuit; threads; garbage collection; `pickle`.
* `Vqe.result` (deprecated; it reads `self._result`, which nothing in the code sets).

## Findings

Where a property is false of the code the theorem named here proves it by a concrete program.  The line says what the code does.

| theorem | what the code does |
|---|---|
| `C02_in_register_refuted` | `slicing_singlevalue` adds the width once to a negative index and does not test the sum: `Circuit(1).x[-2]` addresses qubit -1. |
| `C05_unchanged_refuted` | `_GateWrapper.__getitem__` appends the gate before computing the maximum index, so a refused call leaves the gate in the circuit. |
| `C08_run_norm_refuted` | `run(shots=0, returns='statevector')` returns a vector of zeros. |
| `C11_overlapping_refuted` | `dagger` reverses the gates but not the pairs inside one call: `cx[0:2, 1:3]` is not undone. |
| `C14_dagger_refuted` | `dagger(copy_backends=True)` keeps the cache of the original circuit, so the dagger returns a wrong state. |
| `C15_shared_refuted` | A backend object shared by two circuits of one width continues from the cache of the other circuit. |
| `C16_numpy_refuted`, `C16_numba_refuted`, `C16_numba_measure_refuted` | `cache` and `cache_idx` are not updated together; an interrupt in between makes later runs repeat or skip a gate. |
| `C20_counts_refuted` | A circuit with no qubits counts no shots. |
| `C22_shared_ops_refuted` | `Circuit(n, c.ops)` shares the list of `c`. |
| `C27_twice_refuted`, `C27_width0_refuted`, `C27_outside_refuted` | The sympy backend applies `x[0, 0]` once, raises TypeError for no qubits and ignores indices outside of the register. |
| `C29_cu2_refuted`, `C29_index_refuted`, `C29_slice_refuted` | `cu2` is not in qelib1.inc; negative targets and slices of `ccx`, `cswap` are printed as they are. |
| `C33_mixed_refuted`, `C33_number_refuted`, `C33_identity_refuted`, `C33_zero_refuted` | `Term == Expr` and `1.0*I == 1.0` are False, `X[0] == I` and `hash(I)` raise AttributeError, zero terms with different operators differ. |
| `C34_sum_refuted`, `C34_power_refuted` | `Expr + x` builds a dictionary and loses terms with equal operators; `Pauli ** n` raises TypeError. |
| `C35_small_refuted` | `is_commutable` compares with an absolute `eps`. |
| `C36_zero_refuted` | `Expr.zero().to_matrix(n)` raises ZeroDivisionError. |
| `C39_sign_refuted`, `C39_identity_refuted` | `get_time_evolution` turns Y with the opposite sign; the identity term gives no phase. |
| `C40_term_refuted`, `C40_zero_refuted` | `is_identity` looks at the unsimplified operators; the zero expression is an identity. |
| `C42_y_refuted` | `get_energy` measures Y with the opposite sign. |
| `C43_order_refuted`, `C43_mass_refuted`, `C43_energy_refuted`, `C100_unpaired` | `get_measurement_sampler` reads the register mirrored, and overwrites colliding keys instead of adding. So terms on qubits whose mirror images are not in the term always count as positive. |
| `C45_lower_refuted`, `C46_lower_refuted` | `qi` ignores the entries below the diagonal, `wq.pauli` does not. |
| `C47_mul_refuted`, `C47_net_refuted`, `C47_sel_duplicates_refuted`, `C47_sel_too_many_refuted` | `mul(A, B)` is not the QUBO of (A.x)(B.x); `net` changes its argument and counts repeated pairs once; `sel` with repeated positions or K > N. |
| `C48_qubo_pair_refuted`, `C48_qubo_symbol_refuted` | `qn_to_qubo` loses products with coefficient 1 and raises for symbols with coefficient 1. |
| `C49_unregister_refuted`, `C49_unregistered_refuted` | `unregister_backend` tests GATE_SET: a backend cannot be unregistered unless a gate has the same name, and `unregister_backend` of the name of a gate raises KeyError. |
| `C49_attribute_refuted`, `C49_macro_refuted`, `C49_kept_refuted` | Names of attributes and of gates hide registered items; circuits keep backend objects. |
| `C50_none_refuted` | `set_default_backend(None)` raises ValueError. |
| `C51_empty_refuted`, `C51_tuple_refuted`, `C51_raises_refuted` | The text of a circuit without gates ends in a dot; `x[(3,)]` is printed `x[3]`; after a refused call `repr` raises. |
| `C52_digits_refuted`, `C52_merge_refuted` | `to_inttuple` takes the digits 2 to 9 and digits of other scripts. |
| `C53_canonical_refuted` | Vectors whose entries are all below the threshold are left alone. |
| `C56_measured_refuted` | `VqeResult.get_probs` with a measuring sampler appends a measurement to the circuit of the result. |
| `C58_recorded_refuted`, `C58_one_slice_refuted` | `Ei_sqa`, whose values `sqa` records, has the coupling between slices with the opposite sign of the energy that is annealed; a single slice is coupled with itself. |
| `C59_size_refuted`, `C59_empty_refuted`, `C59_single_refuted`, `C59_stale_refuted` | `Opt.add` ignores a QUBO of another size, and every QUBO after an empty one; `run` takes a 1x1 array for no QUBO: it raises or answers for the QUBO of an earlier run. |
| `C60_coupler_refuted`, `C60_node_refuted` | `dw` drops couplings that the machine has no coupler for (or lists from high to low), and shifts biases when a node is missing. |
| `C62_sign_refuted` | `rbm_hmodel` and `fit` use the weights exp(+energy), the annealer that draws the samples for `fit` favours low energies. |
| `C63_few` | `fit` with one shot raises ValueError. |
| `C64_numbers_refuted` | `counter` joins numbers without a separator: [1, 11] and [11, 1] are counted together. |
| `C65_wide_refuted` | `Vqe.run` without a sampler raises ValueError when the initial circuit is wider than the Hamiltonian; `QaoaAnsatz` accepts it. |
| `C67_hex_refuted` | The ibmq backend reverses hexadecimal texts of registers, which the comment in `vqe.py` says IBMQ devices return: `0x2` becomes `2x0`. |
| `C67_exception_refuted` | `returns="_exception"` raises UnboundLocalError when the import of Qiskit failed: `e` is unbound after the `except` clause. |
| `C68_collide_refuted`, `C68_hex_refuted`, `C68_identity_refuted` | `get_qiskit_sampler` overwrites colliding keys, finds no bit above 100 in hexadecimal texts of zeros, and gives the identity term of a Hamiltonian the energy 0. |
| `C69_swap_tuples_refuted`, `C69_swap_same_refuted` | The qgate backend raises TypeError for `swap[(0, 1), (2, 3)]`, which other backends execute, and accepts `swap[0, 0]`, for which they raise ValueError. |
| `C70_measured_early_refuted` | The counts of the qgate backend are those of the circuit with its measurements moved to the end: `m[0].x[0]` gives "1" and not "0". |
| `C74_single_refuted` | `numpartition_qaoa` of one number, such as `[5]`: the Hamiltonian is constant and has no qubits, the number is printed in neither group. |
| `C75_odd_refuted`, `C75_even_refuted` | `factoring_qaoa` has no state of cost 0 for composite numbers whose larger factor is too long, such as 69 = 3 * 23, nor for any even number. |
| `C75_two_refuted` | `factoring_qaoa` of 2 has a Hamiltonian without qubits; its `bitseparator` raises AssertionError for everything that is measured. |
| `C76_power_refuted` | `expand_qubo` takes the degree of the first generator only: in `q0 + (q1 - 1)**2` the square of `q1` stays, and `qubo_to_matrix` gives wrong energies. |
| `C76_index_refuted` | `qubo_to_matrix` raises IndexError for `q1` alone: symbols must be numbered from 0 without gaps. |
| `C77_fourth_refuted` | `optx` leaves powers above the second, such as `q0**4`, which becomes `q0**2`. |
| `C77_alone_refuted` | `optm` of `q0 + q1` raises GeneratorsNeeded, as for every variable that is in no product with another one. |
| `C77_dropped_refuted` | `optm` silently drops variables beyond its size. |
| `C77_last_refuted` | `make_qs(n)` ends with the symbol n-1; its documentation says n. |
| `C78_shorter_refuted` | `Opt.qaoa` of `[[1, 0], [0, 0]]` measures one bit for two variables; trailing variables without terms are missing. |
| `C79_zero_refuted` | The text of `0*X[1]` is `0*I`, and `0*X[1] == 0*I` is false. |
| `C79_order_refuted` | For every expression `e` with one term, `e == eval(repr(e))` but not `eval(repr(e)) == e`, as a term never equals an expression. |
| `C80_dagger_refuted` | `u2(1, 2, theta=3)` is accepted and its `dagger` raises TypeError: the keyword `theta`, which the gate keeps, is a parameter of the adjoint. |
| `C80_shared_refuted` | `f = c.rx; a = f(1); b = f(2); a[0]` adds `rx(2)`: calls of a gate wrapper return the same object. |
| `C80_stray_refuted` | `Circuit(1).x(1)[0]` is accepted, and then the circuit cannot be printed (TypeError). |
| `C80_unchecked_refuted` | `Circuit(1).rx((1,))[0]` is accepted, and then the circuit has no adjoint (TypeError). |
| `C84_possible_refuted` | In double precision `Circuit(1).h[0].h[0].m[0]`, whose exact outcome is 0, records 1 and returns the zero vector when the draw is 1 - 2^-53: the probability of 0 is rounded to 1 - 2^-51, and nothing checks that the other branch is possible. |
| `C87_possible_refuted` | The same circuit on the numba backend, in doubles with one operation after the other: `_p0calc` finds 1 - 2^-51, so a draw of 1 - 2^-53 records 1 and leaves the zero vector. |
| `C89_close_refuted` | `ignore_global_phase` jumps where the modulus of an entry passes 0.0000001: normalised states as close as one likes get results at a distance of at least 1, so a rounding error of any size can turn the returned state. |
| `C90_outcomes_refuted` | `expect` leaves out outcomes of positive probability whose square underflows in double precision (2^-600 is the witness). |
| `C92_refuted` | The numpy backend's `uint32` indices: on a register of 33 qubits `x` and `h` of qubit 32 raise ValueError, and `z` of it does nothing. |
| `C93_constant_refuted` | Simulated annealing of one spin with constant energy does not converge to the uniform law: every proposal is accepted, so the parity of their number decides. |
| `C85_relative_refuted` | About the assumption of C83 and C84, not about the code: doubles do not have a bounded relative error, as 2^-1000 * 2^-1000 is rounded to 0.  C85 does without this assumption. |
| `C86_literal_refuted` | `_hgate` of the numba backend multiplies by 0.7071067811865475 (line 131), not by 1/sqrt 2: without any rounding, one Hadamard gate does not give the exact state.  C86_literal bounds the difference. |

Read in the source, outside of the theorems: `circuit_to_unitary` runs on the global default backend, not on that of the circuit; `most_common(-1)` is a negative
slice; `Vqe.result` reads `_result`, which nothing sets, and raises AttributeError; the sampling pool of the qgate backend uses `np.int`, which numpy removed in version 1.24; the qgate backend writes "0" for the outcomes of a register without qubits.

## Trusted base

* Coq's kernel; `coqchk` re-checks the compiled files.  No kernel check is switched off, there are no plugins.
* The axioms that `Print Assumptions` lists, see below.  All are from the standard library: `ClassicalDedekindReals.sig_forall_dec`, `ClassicalDedekindReals.sig_not_dec`
  (real numbers), `FunctionalExtensionality.functional_extensionality_dep`, and, where logarithms occur, `Classical_Prop.classic`.  There are none of our own: no `Axiom`, no `Parameter`, no `Variable` outside of a section.
* The reading of the Python source that the model files record, with the simplifications above, and the meaning of CPython, NumPy, SciPy, SymPy and Numba operations
  that they rely on.
* The specifications: that `Spec*.v` and the statements in `Prop*.v` say what the English properties say.

### Print Assumptions of each theorem

**Closed under the global context**

* `PropDemo.v`: C75_bits, C75_length, C75_separator
* `PropGateCall.v`: C80_any_order, C80_attribute, C80_item, C80_last_call, C80_no_parameters, C80_parameters, C80_self
* `PropIbmq.v`: C68_collide_refuted, C68_hex_error, C68_hex_refuted, C68_hex_text, C68_text, C68_text_error
* `PropLaw.v`: C82_sequences, C82_values, C82_values_once
* `PropMacro.v`: C95_error, C95_gate_macro, C95_gates_first, C95_inlined, C95_missing, C95_no_name, C95_no_return, C95_not_called, C95_recursion, C95_refused
* `PropMeasure.v`: C21_shots
* `PropNumba.v`: C24_masks, C24_shifted, C25_finite
* `PropNumpyIndex.v`: C92_case, C92_masks, C92_masks_high, C92_masks_low
* `PropOps.v`: C54_create
* `PropPauli.v`: C33_hash
* `PropPauliArray.v`: C96_kept
* `PropPoly.v`: C77_last_refuted, C77_make_qs
* `PropQgate.v`: C69_operators, C69_swap_same_refuted, C69_swap_tuples_refuted, C69_unknown, C70_runtime, C71_lanes
* `PropRbm.v`: C63_empty, C64_counts, C64_injective, C64_keys, C64_numbers_refuted, C64_total
* `PropRegistry.v`: C49_attribute_refuted, C49_backend_partial, C49_errors, C49_kept_refuted, C49_lookup_partial, C49_macro_refuted, C49_nothing_replaced, C49_refused, C49_resolves_partial, C49_runner_partial, C49_tables, C49_unregister, C49_unregister_backend, C49_unregister_refuted, C49_unregistered_refuted
* `PropRepr.v`: C51_empty_refuted, C51_raises, C51_same_qubits, C51_tuple_refuted
* `PropTargets.v`: C01_slice_list_unique, C01_slices, C01_zero_step, C02_in_register_partial, C02_in_register_refuted, C02_targets, C02_type_error, C02_type_error_single, C02_value_error, C03_arity, C03_in_register, C03_pairs, C03_refused
* `PropUtils.v`: C52_digits_refuted, C52_entries, C52_injective, C52_merge_refuted, C52_refused_partial, C52_string
* `PropVqeLoop.v`: C65_play, C65_start

**`sig_forall_dec`**

* `PropFiniteMeasure.v`: C87_schedule
* `PropFloatSparse.v`: C91_shape
* `PropNumpy.v`: C06_all_vectors, C06_array_values
* `PropOpt.v`: C59_empty_refuted, C59_ignored
* `PropPauli.v`: C32_canonical, C40_term_sound
* `PropPauliArray.v`: C96_read, C96_write
* `PropWq.v`: C47_net_refused

**`sig_forall_dec`, `functional_extensionality_dep`**

* `PropAnneal.v`: C93_positive
* `PropDemo.v`: C72_energy, C72_terms, C72_width, C73_cost, C73_lowest, C73_width, C74_cost, C74_width, C75_cost, C75_even_refuted, C75_exists_partial, C75_odd_refuted, C75_proper, C75_width, C75_zero
* `PropEvolve.v`: C98_generated
* `PropFiniteMeasure.v`: C87_mixed, C87_sums
* `PropFloatNumba.v`: C86_loop, C86_schedule
* `PropFloatRun.v`: C88_mostly
* `PropGateCall.v`: C80_circuit, C80_number_str, C80_shared_refuted, C80_stray_refuted
* `PropNbody.v`: C48_answers, C48_extends, C48_qubo_pair_refuted, C48_qubo_partial, C48_qubo_symbol_refuted, C48_separation
* `PropNumba.v`: C25_reduction
* `PropOpt.v`: C59_more, C59_size_refuted, C59_sum, C60_coupler_refuted, C60_exists, C60_minimal, C60_node_refuted
* `PropOptQaoa.v`: C78_depends, C78_qubits
* `PropPauli.v`: C31_product, C31_terms, C32_expr, C32_expr_unique, C32_idempotent, C32_sound, C32_unique, C33_decides, C33_identity_refuted, C33_mixed_refuted, C33_number, C33_number_refuted, C33_operands, C33_paulis, C33_terms, C33_zero_refuted, C34_add_exact, C34_add_partial, C34_add_right, C34_div, C34_mul, C34_neg, C34_pow, C34_power_refuted, C34_program_partial, C34_sum_refuted, C34_survivors, C35_all_terms, C35_commutator, C35_commute, C35_exprs, C35_is_commutable_partial, C35_size, C35_small_refuted, C36_expr_default_partial, C36_expr_partial, C36_term, C36_term_default, C36_term_simplified, C36_zero_refuted, C37_chars, C40_expr_partial, C40_expr_sound, C40_term_partial, C40_term_refuted, C40_zero_refuted
* `PropPauliArray.v`: C96_products, C96_right, C96_to_matrix
* `PropPauliText.v`: C79_equal, C79_injective, C79_order_refuted, C79_read, C79_zero_refuted
* `PropPoly.v`: C76_add_partial, C76_constant, C76_cubic, C76_expand, C76_first_partial, C76_index, C76_index_refuted, C76_matrix_partial, C76_power_refuted, C76_reduced, C77_alone, C77_alone_refuted, C77_dropped_refuted, C77_fourth_refuted, C77_optm_partial, C77_optx, C77_reduced
* `PropRbm.v`: C61_bipartite, C61_fixed, C61_random, C61_set, C61_set_error, C63_means
* `PropVqe.v`: C41_expect, C41_negative, C42_even, C42_make_sparse
* `PropWq.v`: C44_bit, C44_energy, C45_Ei, C45_energy, C45_lower_refuted, C45_upper, C46_change, C46_change_qubo, C47_mul_energy, C47_mul_partial, C47_mul_refuted, C47_net, C47_net_refuted, C47_sel, C47_sel_answers, C47_sel_duplicates_refuted, C47_sel_energy, C47_sel_positions, C47_sel_too_many_refuted, C47_sqr

**`sig_forall_dec`, `sig_not_dec`, `functional_extensionality_dep`**

* `PropAnneal.v`: C93_balance, C93_constant_refuted, C93_run, C93_stationary, C93_total
* `PropCircuit.v`: C04_inside, C04_least_width, C04_never_shrinks, C05_refused_partial, C05_unchanged_refuted, C11_inverse_partial, C11_overlapping_refuted, C11_program_partial, C12_dagger, C12_twice, C13_history, C13_numba, C13_numpy, C14_copy_numba, C14_copy_numpy, C14_dagger_partial, C14_dagger_refuted, C15_growing_partial, C15_shared_refuted, C16_numba_measure_refuted, C16_numba_partial, C16_numba_refuted, C16_numpy_partial, C16_numpy_refuted, C22_frame, C22_shared_ops_refuted, C23_associative, C23_iadd, C23_unit, C50_copy, C50_global, C50_global_kept, C50_kept, C50_name, C50_none_refuted, C50_selected, C50_set, C50_unknown
* `PropClimb.v`: C99_answer, C99_factors, C99_maxcut, C99_more, C99_partition, C99_reach, C99_run
* `PropDemo.v`: C72_phase, C72_run, C73_reached, C73_run, C74_run, C74_single_refuted, C75_reached, C75_run, C75_two_refuted
* `PropEvolve.v`: C98_exists
* `PropFinite.v`: C85_case
* `PropFiniteMeasure.v`: C87_case, C87_exact, C87_exact_sums, C87_fused, C87_norms, C87_plain
* `PropFloat.v`: C83_angles, C83_exact, C83_norm, C83_probabilities
* `PropFloatMeasure.v`: C84_exact, C84_exact_norm, C84_margin, C84_norm, C84_weaker
* `PropFloatNumba.v`: C86_case, C86_exact, C86_fused, C86_literal_refuted, C86_mixed, C86_plain
* `PropFloatPhase.v`: C89_case_state, C89_exact, C89_exact_turned, C89_numba, C89_numpy
* `PropFloatRun.v`: C88_case, C88_case_cache, C88_exact_numba, C88_exact_numpy, C88_margins, C88_numba_cached, C88_numba_shots, C88_numpy_cached, C88_numpy_shots
* `PropFloatSparse.v`: C91_dot, C91_exact, C91_exact_parts, C91_state
* `PropFloatVqe.v`: C90_case, C90_copies, C90_exact, C90_exact_energy, C90_expect
* `PropGateCall.v`: C80_dagger, C80_dagger_refuted, C80_unchecked_refuted
* `PropIbmq.v`: C67_counts_partial, C67_exception_refuted, C67_hex_refuted, C67_refused, C67_session, C68_identity_refuted, C68_import, C68_sampler_partial
* `PropLaw.v`: C82_box, C82_case, C82_case_weights, C82_counts, C82_events, C82_large, C82_mean, C82_numba, C82_product, C82_spread, C82_state, C82_total, C82_total_shots
* `PropMeasure.v`: C17_measure_gate, C17_measure_one, C17_measure_twice, C18_born_marginal, C18_born_rule, C19_reset, C19_reset_gate, C20_counts, C20_counts_refuted, C21_kind, C21_unknown, C53_canonical_partial, C53_canonical_refuted, C53_canonical_states, C53_factor, C53_first_entry, C53_idempotent
* `PropMemory.v`: C55_cache_shared, C55_case, C55_distinct, C55_exist, C55_kept, C55_results, C55_values
* `PropNumba.v`: C25_loops_start, C25_race_free, C26_gate, C26_run, C26_session
* `PropNumbaMemory.v`: C81_cache_shared, C81_case, C81_distinct, C81_dtype, C81_exist, C81_kept, C81_results, C81_values
* `PropNumpy.v`: C06_gate_matrices, C07_concatenation, C07_run, C08_inner_product, C08_run_norm, C08_run_norm_refuted, C09_fallback, C09_fallback_phase, C10_executable, C10_no_recursion_error, C10_numpy_dispatch, C10_resolved_meaning
* `PropNumpyIndex.v`: C92_acts, C92_high, C92_refuted, C92_steps
* `PropOps.v`: C54_attribute, C54_call, C54_dagger, C54_item, C54_plus, C54_same, C54_to_circuit, C54_unchanged
* `PropOpt.v`: C59_run, C59_single_refuted, C59_stale_refuted
* `PropOptQaoa.v`: C78_empty, C78_qaoa, C78_sa, C78_sa_ends, C78_sa_last, C78_shorter_refuted
* `PropPauli.v`: C38_append, C39_evolution_partial, C39_identity_refuted, C39_sign_refuted
* `PropQasm.v`: C29_cu2_refuted, C29_index_refuted, C29_partial, C29_slice_refuted, C30_apps, C30_partial
* `PropQasmRun.v`: C66_counts_partial, C66_run_partial, C66_shots_partial
* `PropQgate.v`: C69_controlled_u, C69_controlled_u2, C69_executes, C70_both, C70_convert, C70_measured_early_refuted, C70_measured_once, C70_returns, C70_shots, C70_vector, C71_pool
* `PropRbm.v`: C62_data, C62_hidden, C63_bipartite, C63_bounded, C63_default, C63_ends, C63_few, C63_trained
* `PropRepr.v`: C51_exact_partial, C51_only, C51_raises_refuted, C51_repr_partial
* `PropShots.v`: C100_enough, C100_even, C100_far, C100_mean, C100_run_partial, C100_spread, C100_total, C100_unpaired
* `PropSqa.v`: C94_hops_add, C94_hops_derivative, C94_hops_zero, C94_total
* `PropSympy.v`: C27_ignore_global, C27_once, C27_outside_refuted, C27_partial, C27_twice_refuted, C27_width0_refuted, C28_matrix, C28_runs
* `PropThermal.v`: C97_exists
* `PropVqe.v`: C41_sampler, C42_energy_partial, C42_sparse, C42_y_refuted, C43_energy_refuted, C43_mass_refuted, C43_order_refuted, C43_sampler_partial, C43_state_vector, C56_exact_partial, C56_measured_refuted, C56_most_common, C56_most_common_error, C56_most_common_negative, C56_no_vqe, C56_stored, C57_init, C57_plain, C57_refused
* `PropVqeLoop.v`: C65_bound, C65_default, C65_run, C65_sampler_partial, C65_wide, C65_wide_refuted
* `PropWq.v`: C46_ends, C46_last, C46_lower_refuted, C46_run

**`sig_forall_dec`, `sig_not_dec`, `Classical_Prop.classic`, `functional_extensionality_dep`**

* `PropAnneal.v`: C93_answers, C93_converges, C93_ground, C93_history, C93_history_total, C93_last
* `PropEvolve.v`: C98_norm, C98_qaoa, C98_qaoa_init, C98_trotter_partial, C98_word
* `PropFinite.v`: C85_digits, C85_double, C85_double_rounds, C85_error, C85_finite, C85_fixed, C85_linear, C85_relative_refuted, C85_rounding
* `PropFiniteMeasure.v`: C87_double_divides, C87_double_norms, C87_double_numba, C87_double_numba_chance, C87_double_numpy, C87_double_scales, C87_double_sequential, C87_double_sums, C87_numba, C87_numba_chance, C87_numpy, C87_numpy_chance, C87_possible_refuted
* `PropFloat.v`: C83_binary, C83_digits, C83_double, C83_error, C83_fixed, C83_linear
* `PropFloatMeasure.v`: C84_chance, C84_double_norm, C84_possible_refuted, C84_run
* `PropFloatNumba.v`: C86_double, C86_double_fused, C86_double_plain, C86_error, C86_linear, C86_literal
* `PropFloatPhase.v`: C89_case, C89_close_refuted, C89_double_numba, C89_double_numpy, C89_numba_run, C89_numpy_run
* `PropFloatRun.v`: C88_double_numba, C88_double_numpy, C88_numba_agree, C88_numba_counts, C88_numpy_agree, C88_numpy_counts
* `PropFloatSparse.v`: C91_case, C91_double_keeps, C91_double_numba, C91_double_numpy, C91_numba, C91_numpy
* `PropFloatVqe.v`: C90_double_numba, C90_double_numpy, C90_numba, C90_numpy, C90_outcomes_refuted
* `PropOpt.v`: C58_bond, C58_change, C58_ends, C58_one_slice_refuted, C58_recorded, C58_recorded_refuted, C58_run
* `PropRbm.v`: C62_sign_refuted
* `PropSqa.v`: C94_history, C94_history_total, C94_last, C94_positive, C94_run, C94_slice, C94_trotter
* `PropThermal.v`: C97_answer, C97_hops, C97_limit, C97_positive, C97_total

