# Formal model of qforte in Rocq (Coq 8.16)

## Approach

* `theories/*Model*.v` - executable/shallow Gallina models of the code, function by
  function, each definition citing file and lines of /repo.  No proofs.
* `theories/*Spec.v`, `theories/Textbook*.v` - small independent specifications (what a
  gate does to an amplitude, what a fermionic operator does to a determinant, what an
  exponential of an operator is, ...).  They mention no function of the models.
* `theories/*Proofs*.v` and the other unnamed files - lemmas.
* `theories/Prop*.v` - the property theorems `Cnn_...`, each followed by
  `Print Assumptions` and a non-vacuity `Example`.

Naming: `_partial` = only part of the English property (the note in MANIFEST.json says what
is missing); `_refuted` = the English property is false of the code and the theorem proves it
with a concrete or general counterexample.  A property with a `_refuted` theorem is never
reported as "proved" unless the refutation concerns inputs outside its statement.

### Numbers
`double`/`complex<double>` are modelled by exact real/complex numbers over Coq's
standard `R`.  Rounding, overflow, NaN are NOT modelled.  The explicit tolerances of
the code (1e-16, 1e-14, 1e-12, 1e-10) are modelled as exact comparisons against that
real number.  Exactness theorems therefore speak of *clean* data: entries which are
either exactly 0 or above the tolerance; each theorem says which.

### Memory
Vectors are lists with checked access: an out-of-range read or write is an explicit
`None`/error result, so a theorem concluding `Some` also proves absence of
out-of-bounds accesses.  `size_t`/`uint64_t` are `nat`/`N` (no wrap-around; register
sizes above 62 qubits are out of scope) unless the property is about wrap-around.

### Exceptions
C++ `throw` and Python `raise` are values of a result type.

### Plan per property (see MANIFEST.json for the current status)

| Property | Model | Proof method |
|---|---|---|
| C01-C03 | Computer: block loops of apply_{1,2}qubit_gate, safe versions | loops visit disjoint index pairs exactly once; compare with spec `act1`/`act2` on amplitudes |
| C04 | same, target >= n | refutation: access at index 2^n for target = n |
| C05-C08 | make_gate, adjoint, circuit adjoint | algebra on 2x2/4x4 matrices, induction over circuits |
| C09,C10 | simplify loop and evaluate_gate_interaction | loop invariant: removed positions + updated list denote the same operator |
| C11 | normalize_angle with fmod = x - p*trunc(x/p) | real arithmetic, periodicity of sin/cos |
| C12-C14 | circuit editing | list lemmas; refutation for remove_gates tail, set_parameters atomicity |
| C15 | canonicalize_pauli_circuit | stable sort + Pauli group phases; refutation for repeated qubits |
| C16,C17 | QubitOperator | map merge as association list sorted by the code's order |
| C18-C22,C24,C25 | expectation values and measurements | linearity, refutations for defects found |
| C23,C27 | sparse matrices | maps as sorted association lists |
| C26 | initialisation | lists |
| C28-C31 | SQOperator, Jordan-Wigner | permutation parity; Fock space spec on occupation bits |
| C32 | fill_pool | next_permutation enumeration; refutation for non-aufbau references |
| C33,C34 | QubitOpPool | base-4 digits; bilinearity |
| C35,C36 | find_irrep, QubitBasis | bit lemmas |
| C37-C41 | Python utils: state_prep, exponentiate, trotterization, qft, gate helpers | action on basis states |
| C42-C44 | transforms.py organizers, find_irrep/point groups, Z2 tapering ingredients | Pauli group, GF(2) |
| C45-C47 | DIIS + Jacobi solver, SPQE and ADAPT selection | invariants over iteration histories; measurements/optimiser are oracles indexed by iteration |
| C48 | canonical_geig_solve column bookkeeping | refutation/partial; the eigen-solver itself is an oracle with an explicit contract |
| C49 | circuit_to_latex wires | invariants; refutation |
| C50,C51 | gate/circuit comparison, order_terms comparator | relation laws; refutations |
| C52 | measure_circuit with identity gates | refutation |
| C53 | build_eq_dets | fuelled loop proved to need no more fuel than given; set of determinants characterised |
| C54-C55 | import of fermionic terms, Python Jordan-Wigner organizers | comparison with the Fock-space specification of C28-C31 |
| C56,C57 | widths, coefficient editing | list lemmas |
| C58 | qubit_tapering.py | GF(2) elimination invariants, V^2 = 1, sector identity |
| C59,C60 | GSD and spin-adapted pools | enumeration lemmas; spin-free-ness from commutators with the spin operators |
| C61 | compact_excitation_circuits.py | circuits evaluated on the two-level subspaces; compared with the exponential series |
| C62 | get_qubit_operator + UCC.ansatz_circuit | product of exponentials, independent of the circuit type |
| C63,C64 | VQE energy, measure_gradient, ADAPT gradients | derivative (Ranalysis) of the energy of the specified product of exponentials |
| C65,C66 | PQE residuals, orbital energies, MP denominators | projections of H-bar; expectation values of H |
| C67,C68 | spin_operators.py, symmetry_analysis.py | su(2) on the Fock space; weights by eigenvalue |
| C69 | compute_operator_matrix_element, Experiment | adjoint circuit; Born rule |
| C72 | NTSRQK; expm_multiply oracle with the exponential series as contract | existence of matrix exponentials (dominated series); transfer from the sparse matrix to H; refutation of the documented times |
| C73 | qpea/qpe.py circuit builders, run; samples as a list of basis states | controlled evolutions as a function of the ancilla register, inverse QFT from C40's lemmas, Fejer kernel bounds (Jordan's inequality, tail sum) for the success probability |
| C74 | classical post-processing of run | rounding and nearest-candidate argument; counting for majority readouts; concrete refutations |
| C75 | ite/qite.py: pools, S, b, lstsq (oracle: minimiser contract), A, trotterised step, run | normal equations of a Gram system are solvable exactly; projection theorem; Euler factors bound the energy change; induction over steps |
| C76 | ite/qite.py do_qlanczos | loop invariant on the cross of row and column m; Rayleigh quotients as in C70 |
| C77 | helper/io_helper.py, adapters/model_adapters.py, system_factory.py | str.split as a function on characters; decimal numerals through DecimalString; the Ising action computed from string_act |
| C78 | utils/moment_energy_corrections.py | the selection of determinants as in C46; the moments from the first-order expansion of the compiled e^{i dt H} (QiteNorm.eulers_remainder) and unitarity of the ansatz circuit; the sums compared term by term |
| C79 | ucc/spqe.py: get_residual_vector, update_ansatz | the state of C65 and C78; jw_transform of a pool operator on the reference gives plus or minus the determinant (MomentSpace.excitation_apply) |
| C80 | qkd/mrsqk.py: build_refs (SRQK eigensolver: oracle) | insertion sort of the weights; decreasing order and a counting argument for membership of the reference |
| C81 | qkd/mrsqk.py: build_sa_refs, build_classical_CI_mats | configuration classes from build_eq_dets (StateProofs.eq_dets_correct); loop invariant for the CI matrix; inner products of basis states |
| C82 | qkd/mrsqk.py: build_qk_mats, build_sa_qk_mats, run | states as in C70; loop invariant on the upper triangle; Rayleigh quotients of PropQk |
| C83 | adapters/molecule_adapters.py: create_psi_mol (frozen core energy, dressed integrals, Hamiltonian loop) | CAR algebra: a core creator contracts, a hole or virtual annihilates; sums split core/active/virtual; Slater-Condon diagonal |
| C84 | same + sq_operator.cc simplify/jw_transform | linear independence of normal-ordered products, so merged coefficients inherit reality and Hermiticity; then PauliIndep for the Pauli form |
| C85 | create_external_mol; hf_reference loops | fold invariants; spin-orbital sums folded to spatial ones by antisymmetry |
| C86 | abc/algorithm.py constructors, get_initial_computer, penalty terms, the irrep argument (425-452) | case analysis of the arguments; the character tables of C43; uniqueness of simplified forms; square of a simplified Hermitian Pauli operator, Cauchy-Schwarz for the dropped terms |
| C87 | uccnvqe.py run/solve/scipy_solve, uccvqeabc.py gradient_ary_feval and report_iteration, optimizer.py quasi-Newton solver; scipy's minimize is an oracle with two contracts (fun is the objective at x; not above the start) | value of energy_feval from C62/C63; invariant of the solver loop; zero amplitudes give the reference |
| C88 | uccnpqe.py run, uccpqeabc.py solve, get_sum_residual_square and report_iteration, optimizer.py scipy_solver and jacobi_solver | as C87 with C65 for the residuals; exponentials keep the electron number (support of the series); zero residuals on a complete pool: H phi - E phi is orthogonal to every U|J> |
| C89 | as C32, C59, C60 (pools), C62 (ansatz circuits) and C83 (molecular Hamiltonian) | quantum numbers as sums over occupied orbitals; every ladder string shifts them by a constant; support of the exponential series; the pools list only terms with shift zero |
| C90 | ucc/adaptvqe.py run, update_ansatz, solve, scipy_solve, counts; uccvqeabc.py measure_gradient3; optimizer.py; scipy's minimize is an oracle (fun is the objective at x; not above the start) | inductive histories of macro-iterations tracked through the loop; operators with amplitude zero are trivial factors; gradients from C64; uniqueness of slopes for the converged reference |
| C91 | ucc/spqe.py run, update_ansatz, conv_status, get_residual_vector for M_omega='inf' without moment corrections; uccpqeabc.py solve, get_sum_residual_square, report_iteration; optimizer.py; scipy's minimize is an oracle | inductive histories of macro-iterations tracked through the loop; C46's one-step selection lemma, C79's residual and time-step bounds, uniqueness of exponentials |
| C92 | abc/uccvqeabc.py fill_commutator_pool, measure_operators; sq_op_pool.cc get_qubit_op_pool; qubit_op_pool.cc join_as_commutator | uniqueness of Pauli expansions gives that the two simplified products are minus each other's adjoint, hence a Hermitian sum; Cauchy-Schwarz for the dropped part; derivative of the energy from C63 |
| C93 | uccnpqe.py residuals with the pools of sq_op_pool.cc | U|J> for the determinants J of the sector are an orthonormal basis; H phi - E phi has the coefficients 0 (J = reference) and, up to a sign, the residuals; C32 gives one operator for each determinant; Cauchy-Schwarz for the error bound; for molecules H = F - dropped terms (C84) and F keeps the sector (C89), so only the part in the sector counts |
| C94 | spqe.py pool, residuals, selection and runs | as C93 for any ansatz circuit U that keeps the sector; the SPQE pool has one operator for each determinant of the sector (C46), the residuals are the components along U\|J> (C79), and C91 bounds the part of the unused operators |
| C95 | str() of gates, circuits, operators, states (StrModel) | pools included (C95_pools); the text is built from words over disjoint character classes, so it is cut uniquely: labels of library gates have letters and parentheses only, numbers are decimal (stdlib DecimalString is injective), `{:+f}` is an oracle bound by SixDecimals; `{:+f}` of -0.0, nan, inf and locale are not modelled |
| C96 | helper/io_helper.py smart_print (PrintModel) | s[1:-1], split and join undo each other (split_glue, slice_brackets), so the printed text is the text of C95; for computers the join runs over characters |
| C97 | SparseVector / SparseMatrix (SparseModel) | induction over the history of writes; canonical form of sorted association lists |
| C70,C71 | SRQK: fast and Hadamard-test matrices | loop invariant over the growing matrices; Rayleigh quotients; controlled circuits split on the ancilla |

## Trusted base
Coq 8.16.1 kernel; the axioms printed by `Print Assumptions` under each theorem
(standard library only: `ClassicalDedekindReals.sig_forall_dec`,
`ClassicalDedekindReals.sig_not_dec`, `FunctionalExtensionality.functional_extensionality_dep`, `Classical_Prop.classic`,
through `Reals`); the faithfulness of the hand translation (each definition cites its source).

## Oracles (inputs of the models, universally quantified in the theorems)
* `std::sort` (`legal_sort`): any sorted permutation if the comparator is a strict weak order
  on the range; anything (including undefined behaviour) otherwise.  `np.argsort`: any sorting
  permutation.  Iteration order of Python `set` (LatexModel): any permutation.
* Random draws (`legal`): any sequence of outcomes with non-zero probability; statements about
  frequencies are made through the probabilities the code hands to the generator.
* OpenMP: parallel loops are modelled by the reduction over any partition of the index range.
* `scipy.linalg.eig` (EigModel, QkModel): arbitrary function; the theorems that need it state the
  contract (`EigCorrect`, `GoodOverlap`, `KeptFirst`).
* `np.linalg.lstsq` (DiisModel): arbitrary function; NaN input is assumed to raise LinAlgError.
* `np.random.normal` (ResModel), optimisers and measured gradients/residuals inside the ADAPT
  and SPQE macro-iterations (SelectModel): arbitrary functions of the iteration.

## Further simplifications
* Tests such as `imag != 0` or `== 0` on doubles are exact tests on reals; dictionary keys that
  are multiples of 1/2 or 1/4 are integers; division by zero of numpy floats (inf/nan) is only
  modelled where a theorem mentions it.
* Python call conventions: qforte.gate's overloads are resolved in the model by argument count
  and type (PyModel `py_gate2`, `py_gate3`); passing None where a number is needed is
  `PyError "TypeError"`; reading past the end of a list is `PyError "IndexError"`.
* `while` loops without an obvious measure carry fuel; the theorems show the fuel suffices
  (the result is never `OutOfFuel`).
* Counters, printing, timing and files are dropped, except where a property is about them.

## Code not modelled
Floating point rounding; the random number generator itself; numpy/scipy numerics; psi4,
openfermion and PySCF themselves; file I/O (reading JSON, writing summary files); printing
(printing.py, print_options_banner, print_summary_banner) and timing (timer.py, local_timer);
the pybind11 layer beyond overload resolution; the checks that all required attributes of an
algorithm object are set (verify_required_attributes, in abc/*.py); the property setters and
getters of molecular_info.py; helpers.cc
(string joining) and the package initialisation qforte.py.
