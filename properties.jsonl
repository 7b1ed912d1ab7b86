{"id": "C01", "title": "One-qubit gates act as their matrix", "statement": "Computer.apply_gate with any one-qubit library gate on qubit t<n replaces the amplitude of every basis state I by sum_j U[bit_t(I)][j] * amplitude(I with bit t set to j), never touches memory outside the 2^n amplitudes, and increments the one-qubit operation counter by one.", "quantifier": "every register size n, target t<n, gate of the library with any parameter, and complex state vector", "why_tests_cant": "2^n amplitudes, continuous parameters and six block-loop code paths; tests sample a few gates and sizes", "anchors": ["src/qforte/computer.cc:apply_1qubit_gate", "src/qforte/computer.cc:apply_gate"]}
{"id": "C02", "title": "Two-qubit gates act as their matrix", "statement": "Computer.apply_gate with any two-qubit library gate with distinct qubits t,c<n replaces the amplitude of every basis state by the 4x4 matrix acting on (bit_c,bit_t) with row index 2*bit_c+bit_t, in both index orders (t<c and c<t), leaving other qubits alone, and increments the two-qubit counter.", "quantifier": "every n, every ordered pair t<>c below n, every library gate and parameter, every state vector", "why_tests_cant": "thirteen different loop nests selected by matrix entries and by qubit order; the pairs (t,c,n) are unbounded", "anchors": ["src/qforte/computer.cc:apply_2qubit_gate"]}
{"id": "C03", "title": "Optimised and reference simulators agree", "statement": "apply_circuit and apply_circuit_safe leave the computer in the same state (same amplitudes and same operation counters) for every circuit of library gates on qubits inside the register.", "quantifier": "every circuit length, gate sequence, register size and starting state", "why_tests_cant": "the two implementations are compared by tests only on a few random circuits", "anchors": ["src/qforte/computer.cc:apply_circuit", "src/qforte/computer.cc:apply_circuit_safe", "src/qforte/computer.cc:apply_gate_safe"]}
{"id": "C04", "title": "Out-of-range qubits are rejected", "statement": "Applying a gate whose target or control is not a qubit of the register either raises an error or leaves the state unchanged; it never reads or writes outside the amplitude vector.", "quantifier": "every n and every gate with a qubit index >= n", "why_tests_cant": "memory errors do not show up in ordinary unit tests; all index values must be covered", "anchors": ["src/qforte/computer.cc:apply_1qubit_gate", "src/qforte/computer.cc:apply_2qubit_gate"]}
{"id": "C05", "title": "Every library gate is unitary", "statement": "For each gate type accepted by gate(...) and every real parameter the gate matrix U (2x2 block for one-qubit gates, 4x4 for two-qubit gates) satisfies U^dagger U = 1; any other label, or a wrong one/two-qubit shape, raises invalid_argument.", "quantifier": "all labels and all real parameters", "why_tests_cant": "continuous parameter space", "anchors": ["src/qforte/make_gate.cc:make_gate"]}
{"id": "C06", "title": "Circuits preserve the norm", "statement": "Applying any circuit of library gates to any state leaves <psi|psi> unchanged.", "quantifier": "all circuits, all states, all register sizes", "why_tests_cant": "unbounded circuits", "anchors": ["src/qforte/computer.cc:apply_circuit", "src/qforte/make_gate.cc"]}
{"id": "C07", "title": "Gate.adjoint is the conjugate transpose", "statement": "The matrix of g.adjoint() is the conjugate transpose of the matrix of g on the same qubits; for parametrised rotation gates the adjoint is the same gate with the negated parameter; adjoint of adjoint acts as g.", "quantifier": "every library gate, controlled gate and parameter", "why_tests_cant": "continuous parameters, label bookkeeping", "anchors": ["src/qforte/gate.cc:Gate::adjoint"]}
{"id": "C08", "title": "Circuit.adjoint undoes the circuit", "statement": "Applying a circuit and then its adjoint (or the adjoint first) restores every state.", "quantifier": "every circuit of library gates and every state", "why_tests_cant": "unbounded circuits", "anchors": ["src/qforte/circuit.cc:Circuit::adjoint", "src/qforte/computer.cc:apply_circuit"]}
{"id": "C09", "title": "Circuit.simplify preserves the unitary", "statement": "simplify() either raises without effect on meaning or leaves a circuit with the same action on every state and never more gates than before.", "quantifier": "every sequence of library gates on any qubits", "why_tests_cant": "the rewriting moves a gate past arbitrarily many others; correctness depends on every commuting pair in between", "anchors": ["src/qforte/circuit.cc:Circuit::simplify", "src/qforte/gate.cc:evaluate_gate_interaction"]}
{"id": "C10", "title": "Reported commutation is real", "statement": "If evaluate_gate_interaction(g1,g2) reports that two library gates commute, applying them in either order gives the same state.", "quantifier": "all pairs of library gates, parameters and qubit assignments", "why_tests_cant": "pair table x parameters x overlaps", "anchors": ["src/qforte/gate.cc:evaluate_gate_interaction"]}
{"id": "C11", "title": "Rotation parameters are normalised without changing the gate", "statement": "gate(type,...,parameter) stores a parameter within half a period of zero that differs from the given one by a whole number of periods, and the gate equals the one for the un-normalised angle.", "quantifier": "all real angles", "why_tests_cant": "continuous domain", "anchors": ["src/qforte/make_gate.cc:normalize_angle", "src/qforte/make_gate.cc:make_gate"]}
{"id": "C12", "title": "Circuit editing behaves like list editing", "statement": "insert_gate, remove_gate, replace_gate, swap_gates, add_gate, add_circuit, insert_circuit and remove_gates act on the gate list like the corresponding list operation when positions are in range, and raise leaving the circuit unchanged otherwise; every gate range, including one ending at the last gate, can be removed.", "quantifier": "all circuits and positions", "why_tests_cant": "boundary positions on all lengths", "anchors": ["src/qforte/circuit.cc:Circuit::insert_gate", "src/qforte/circuit.cc:Circuit::remove_gates"]}
{"id": "C13", "title": "set_parameters / get_parameters round trip", "statement": "set_parameters(p) with as many values as parametrised gates makes get_parameters return p up to the 1e-12 skip tolerance and angle normalisation, changes nothing but parameters, and with a wrong number of values raises and leaves the circuit unchanged.", "quantifier": "all circuits and parameter vectors", "why_tests_cant": "all lengths and values", "anchors": ["src/qforte/circuit.cc:Circuit::set_parameters", "src/qforte/circuit.cc:Circuit::get_parameters"]}
{"id": "C14", "title": "CNOT count", "statement": "get_num_cnots counts one per CNOT/cX/aCNOT/acX and three per A/SWAP gate, is additive under concatenation and unchanged by adjoint.", "quantifier": "all circuits", "why_tests_cant": "unbounded circuits", "anchors": ["src/qforte/circuit.cc:Circuit::get_num_cnots"]}
{"id": "C15", "title": "Pauli canonicalisation preserves the operator", "statement": "canonicalize_pauli_circuit rewrites a Pauli circuit into one with strictly increasing targets and no identity, and prefactor times new circuit acts on every state exactly as the old circuit did.", "quantifier": "all Pauli circuits", "why_tests_cant": "phase bookkeeping over arbitrary repetition patterns", "anchors": ["src/qforte/circuit.cc:Circuit::canonicalize_pauli_circuit"]}
{"id": "C16", "title": "QubitOperator.simplify preserves the operator and merges terms", "statement": "simplify leaves a list of pairwise different canonical Pauli circuits whose coefficients are above 1e-12, and the operator differs from the original only by the dropped coefficients.", "quantifier": "all Pauli operators", "why_tests_cant": "unbounded sums with cancellation", "anchors": ["src/qforte/qubit_operator.cc:QubitOperator::simplify"]}
{"id": "C17", "title": "operator_product is the product of operators", "statement": "A.operator_product(B) turns A into the operator product A*B (B acts first).", "quantifier": "all pairs of Pauli operators in canonical form", "why_tests_cant": "bilinear in unbounded sums", "anchors": ["src/qforte/qubit_operator.cc:QubitOperator::operator_product"]}
{"id": "C18", "title": "Applying an operator is linear combination of circuits", "statement": "apply_operator(sum_k c_k U_k) maps every state psi to sum_k c_k U_k psi, the empty operator giving the zero vector.", "quantifier": "all operators of library gates and all states", "why_tests_cant": "unbounded sums", "anchors": ["src/qforte/computer.cc:apply_operator"]}
{"id": "C19", "title": "Exact expectation values", "statement": "direct_op_exp_val(O), direct_circ_exp_val, direct_oppl_exp_val, direct_idxd_oppl_exp_val and direct_oppl_exp_val_w_mults return <psi|O|psi> (scaled by the pool coefficients) and leave the state as it was.", "quantifier": "all states, operators, pools", "why_tests_cant": "continuous states, unbounded operators", "anchors": ["src/qforte/computer.cc:direct_op_exp_val", "src/qforte/computer.cc:direct_oppl_exp_val"]}
{"id": "C20", "title": "Parallel Pauli expectation values agree with the serial ones", "statement": "direct_pauli_circ_exp_val(P) (the OpenMP path of direct_op_exp_val) returns <psi|P|psi> for every Pauli circuit.", "quantifier": "all Pauli circuits and all states, any partition of the blocks among threads", "why_tests_cant": "depends on number of Y letters, lowest qubit and block partition", "anchors": ["src/qforte/computer.cc:direct_pauli_circ_exp_val", "src/qforte/computer.cc:get_pauli_permuted_idx"]}
{"id": "C21", "title": "Gate expectation value", "statement": "direct_gate_exp_val(g) returns <psi|g|psi> and leaves the state as it was.", "quantifier": "all gates and states", "why_tests_cant": "continuous states", "anchors": ["src/qforte/computer.cc:direct_gate_exp_val"]}
{"id": "C22", "title": "Dense and sparse matrices act as matrices", "statement": "apply_matrix(M) and apply_sparse_matrix(M) replace the state psi by M psi.", "quantifier": "all square matrices of size 2^n and all states", "why_tests_cant": "continuous inputs", "anchors": ["src/qforte/computer.cc:apply_matrix", "src/qforte/computer.cc:apply_sparse_matrix"]}
{"id": "C23", "title": "sparse_matrix agrees with the simulator", "statement": "apply_sparse_matrix(X.sparse_matrix(n)) and apply_circuit / apply_operator give the same state for gates, circuits and operators, and sparse_matrix raises when a qubit is out of range.", "quantifier": "all circuits, operators and states", "why_tests_cant": "exponentially large matrices", "anchors": ["src/qforte/gate.cc:Gate::sparse_matrix", "src/qforte/circuit.cc:Circuit::sparse_matrix", "src/qforte/qubit_operator.cc:QubitOperator::sparse_matrix", "src/qforte/sparse_tensor.cc"]}
{"id": "C24", "title": "perfect_measure_circuit is the Pauli expectation value", "statement": "perfect_measure_circuit(P) equals <psi|P|psi> for a Pauli string and restores the state.", "quantifier": "all Pauli strings on distinct qubits and all states", "why_tests_cant": "continuous states", "anchors": ["src/qforte/computer.cc:perfect_measure_circuit"]}
{"id": "C25", "title": "Measurements leave the simulated state alone and return legal outcomes", "statement": "measure_circuit returns n_measurements values each +1 or -1, measure_readouts and measure_z_readouts_fast return bits for the requested qubits, all outcomes have non-zero probability, and the stored state is unchanged, whatever the random generator yields.", "quantifier": "all states, circuits, shot counts and random outcomes", "why_tests_cant": "randomness", "anchors": ["src/qforte/computer.cc:measure_circuit", "src/qforte/computer.cc:measure_readouts", "src/qforte/computer.cc:measure_z_readouts_fast"]}
{"id": "C26", "title": "State initialisation", "statement": "Computer(n) and reset() give |0...0>, null_state gives the zero vector, set_state gives exactly the listed amplitudes (last wins on duplicates, zero elsewhere), and none of them changes the register size.", "quantifier": "all n and all lists of basis states below 2^n", "why_tests_cant": "unbounded", "anchors": ["src/qforte/computer.cc:set_state", "src/qforte/computer.cc:reset", "src/qforte/computer.cc:Computer"]}
{"id": "C27", "title": "Sparse matrix algebra", "statement": "left_multiply(L) computes the matrix product L*M, add(M,f) computes this+f*M, make_identity the identity, get/set_element behave like a total matrix with zero default, up to dropping entries of modulus at most 1e-16.", "quantifier": "all sparse matrices", "why_tests_cant": "map bookkeeping over unbounded maps", "anchors": ["src/qforte/sparse_tensor.cc"]}
{"id": "C28", "title": "Fermionic canonical order keeps the sign", "statement": "SQOperator canonical ordering sorts creation and annihilation lists in descending order and multiplies the coefficient by the sign of the permutation, for any list of distinct orbitals.", "quantifier": "all operator strings of any length", "why_tests_cant": "permutation parity over all n! orders", "anchors": ["src/qforte/sq_operator.cc:canonicalize_helper", "src/qforte/sq_operator.cc:permutation_phase"]}
{"id": "C29", "title": "SQOperator.simplify merges equal terms", "statement": "After simplify no two terms share creation and annihilation lists, coefficients below 1e-12 are dropped, and the fermionic operator is unchanged up to them.", "quantifier": "all second-quantised operators", "why_tests_cant": "unbounded sums", "anchors": ["src/qforte/sq_operator.cc:SQOperator::simplify"]}
{"id": "C30", "title": "Jordan-Wigner is faithful", "statement": "jw_transform maps every second-quantised operator with non-repeating indices to a Pauli operator whose action on every basis state equals that of the fermionic operator (occupation change and parity sign).", "quantifier": "all operators, all numbers of orbitals, all basis states", "why_tests_cant": "2^n basis states, unbounded strings", "anchors": ["src/qforte/sq_operator.cc:jw_transform", "src/qforte/sq_operator.cc:jw_helper"]}
{"id": "C31", "title": "Products that vanish are mapped to zero", "statement": "jw_transform of a term that is zero as an operator (a repeated creation or annihilation index) contributes nothing.", "quantifier": "all terms with a repeated index", "why_tests_cant": "unbounded lists", "anchors": ["src/qforte/sq_operator.cc:jw_helper"]}
{"id": "C32", "title": "Excitation pools contain every allowed excitation exactly once", "statement": "fill_pool('S'...'SDTQPH') produces, for every determinant with the same alpha and beta electron numbers as the reference, total irrep zero and excitation rank between 1 and the maximum, exactly one anti-Hermitian operator T-T^dagger.", "quantifier": "all references and orbital counts", "why_tests_cant": "combinatorial number of determinants", "anchors": ["src/qforte/sq_op_pool.cc:fill_pool"]}
{"id": "C33", "title": "complete_qubit pool is the full Pauli basis", "statement": "fill_pool('complete_qubit',n) yields 4^n operators, each a different Pauli string on n qubits, every string exactly once; 'cqoy' yields exactly those with an odd number of Y.", "quantifier": "all n", "why_tests_cant": "4^n strings", "anchors": ["src/qforte/qubit_op_pool.cc:fill_pool", "src/qforte/qubit_op_pool.cc:to_base4"]}
{"id": "C34", "title": "Pool joins compute products and commutators", "statement": "join_op_from_left/right and join_as_commutator replace each pool operator A by H*A, A*H and H*A-A*H as operators; square yields conj(c_I) c_J A_I A_J over the documented index pairs.", "quantifier": "all pools and operators", "why_tests_cant": "unbounded sums", "anchors": ["src/qforte/qubit_op_pool.cc:join_as_commutator", "src/qforte/qubit_op_pool.cc:square"]}
{"id": "C35", "title": "Irrep of a set of spin orbitals", "statement": "find_irrep is independent of the order of the indices, additive (xor) under concatenation, zero for doubly occupied pairs, and index errors are the caller's only failure.", "quantifier": "all orbital lists", "why_tests_cant": "unbounded lists", "anchors": ["src/qforte/find_irrep.cc"]}
{"id": "C36", "title": "Basis state bit operations", "statement": "QubitBasis get/set/flip bit act on exactly one bit: get after set returns the value, other bits keep their value, flip is an involution and indexes stay inside the register.", "quantifier": "all 64-bit states and positions", "why_tests_cant": "2^64 states", "anchors": ["src/qforte/qubit_basis.h"]}
{"id": "C37", "title": "Reference preparation", "statement": "build_refprep(ref) applied to |0...0> gives exactly the determinant whose occupied spin orbitals are the ones of ref; integer_to_ref and ref_to_basis_idx are mutually inverse.", "quantifier": "all non-empty lists of at most 64 occupations 0/1 (preparation: all lists); the empty list and other entries raise", "why_tests_cant": "all lengths", "anchors": ["src/qforte/utils/state_prep.py"]}
{"id": "C38", "title": "Pauli exponentials", "statement": "exponentiate_pauli_string(c,P) for imaginary c and a Pauli string on distinct qubits is a circuit acting as exp(cP); the controlled variants act as exp(cP) when the control (or open control) is satisfied and as identity otherwise; a non-imaginary c raises.", "quantifier": "all Pauli strings and coefficients", "why_tests_cant": "continuous angle, unbounded strings", "anchors": ["src/qforte/utils/exponentiate.py"]}
{"id": "C39", "title": "Trotter circuits", "statement": "trotterize(O,factor,m,1) acts, together with its returned phase, as the m-fold repetition of the ordered product over terms of exp(factor*c_k*P_k/m); orders above one raise.", "quantifier": "all operators, factors and Trotter numbers", "why_tests_cant": "unbounded", "anchors": ["src/qforte/utils/trotterization.py"]}
{"id": "C40", "title": "QFT circuit", "statement": "qft_circuit on qubits na..nb implements the discrete Fourier transform (up to its documented bit order) and rev_qft_circuit its inverse.", "quantifier": "all register widths and states", "why_tests_cant": "exponential states", "anchors": ["src/qforte/utils/qft.py"]}
{"id": "C41", "title": "Toffoli and Fredkin helpers", "statement": "The Toffoli(i,j,k) and Fredkin(i,j,k) circuits act as doubly controlled NOT and controlled SWAP.", "quantifier": "all triples of distinct qubits and all states", "why_tests_cant": "all index orders", "anchors": ["src/qforte/helper/advance_gates_helper.py"]}
{"id": "C42", "title": "Pauli-string algebra of the Python helpers", "statement": "pauli_condense, join_organizers and combine_like_terms keep the operator represented by an organizer.", "quantifier": "all organizers", "why_tests_cant": "unbounded strings", "anchors": ["src/qforte/utils/transforms.py"]}
{"id": "C43", "title": "Point group products", "statement": "The point group product tables used for symmetry are the bitwise xor group in Cotton order: associative, commutative, self-inverse, with the totally symmetric irrep as unit.", "quantifier": "all supported groups and irreps", "why_tests_cant": "all triples", "anchors": ["src/qforte/utils/point_groups.py"]}
{"id": "C44", "title": "Qubit tapering finds symmetries", "statement": "The symmetry generators that find_Z2_symmetries returns are Pauli strings on the qubits of the Hamiltonian; each commutes with every term of the Hamiltonian and with all the others; no product of them is a multiple of the identity; every Pauli string commuting with the terms and the generators is a product of generators; the function fails exactly when only the identity commutes with all terms; the qubit paired with a generator (containing Y or Z) is one whose sigma_x anticommutes with it and commutes with the others.", "quantifier": "all Hamiltonians whose terms are Pauli strings (no qubit twice in a term), both values of taper_from_least, any tie order of np.argsort", "why_tests_cant": "GF(2) elimination over arbitrary sizes", "anchors": ["src/qforte/utils/qubit_tapering.py"]}
{"id": "C45", "title": "DIIS history is bounded", "statement": "The DIIS bookkeeping never keeps more than the maximal number of vectors and keeps amplitude and error histories aligned.", "quantifier": "all iteration histories", "why_tests_cant": "histories of any length", "anchors": ["src/qforte/maths/optimizer.py", "src/qforte/abc/uccpqeabc.py"]}
{"id": "C46", "title": "SPQE operator selection", "statement": "The selection step adds exactly the operators above the cumulative threshold, never adds an operator twice, and keeps operator and amplitude lists the same length.", "quantifier": "all residual vectors and histories", "why_tests_cant": "histories of any length", "anchors": ["src/qforte/ucc/spqe.py"]}
{"id": "C47", "title": "ADAPT ansatz growth", "statement": "Each ADAPT-VQE macro-iteration adds the pool operator with the largest gradient magnitude (or stops), keeping operator and amplitude lists equally long.", "quantifier": "all gradient histories", "why_tests_cant": "histories of any length", "anchors": ["src/qforte/ucc/adaptvqe.py"]}
{"id": "C48", "title": "Generalised eigenproblem", "statement": "canonical_geig_solve returns pairs (e,C) that solve H C = S C e in the kept subspace, sorted by energy, also when small overlap eigenvalues are dropped.", "quantifier": "all Hermitian H,S", "why_tests_cant": "continuous", "anchors": ["src/qforte/maths/eigsolve.py"]}
{"id": "C49", "title": "Circuit drawing", "statement": "circuit_to_latex draws every gate on its own wires in order and all wires of equal length for every circuit.", "quantifier": "all circuits", "why_tests_cant": "all shapes", "anchors": ["src/qforte/utils/circuit_to_latex.py"]}
{"id": "C50", "title": "Gate and circuit equality", "statement": "== on gates is an equivalence relation and < a strict order compatible with it, so that maps keyed by circuits merge exactly the equal ones.", "quantifier": "all gates and circuits", "why_tests_cant": "relations over all pairs and triples", "anchors": ["src/qforte/gate.cc:operator==", "src/qforte/gate.cc:operator<"]}
{"id": "C51", "title": "Ordering of operator terms", "statement": "order_terms sorts the terms with a valid strict weak ordering, so its result does not depend on the initial order and check_op_equivalence is reliable.", "quantifier": "all operators", "why_tests_cant": "sorting contract over all triples", "anchors": ["src/qforte/qubit_operator.cc:order_terms"]}
{"id": "C52", "title": "Identity gates in a measured circuit contribute a factor one", "statement": "perfect_measure_circuit(P) is unchanged when identity gates are added to the Pauli string P.", "quantifier": "all states and Pauli strings with identity gates", "why_tests_cant": "tests use strings without identity gates; the claim ranges over every position of an identity gate and every state", "anchors": ["src/qforte/computer.cc:perfect_measure_circuit", "src/qforte/computer.cc:measure_circuit"]}
{"id": "C53", "title": "Spin-equivalent determinants", "statement": "build_eq_dets(ref) returns, without duplicates, exactly the determinants obtained from ref by moving the electrons of singly occupied spatial orbitals to the other spin while keeping |Sz|, and always terminates although the list grows while it is iterated; open_shell tells whether there is a singly occupied orbital.", "quantifier": "all occupation lists", "why_tests_cant": "The loop iterates over the list it extends: termination, completeness and absence of duplicates have to hold for every number of open shells.", "anchors": ["src/qforte/utils/state_prep.py:build_eq_dets", "src/qforte/utils/state_prep.py:open_shell", "src/qforte/utils/state_prep.py:flip_spin"]}
{"id": "C54", "title": "Import of fermionic terms", "statement": "fermop_to_sq_excitation converts every operator whose terms are k creators followed by k annihilators into the list of its index strings and coefficients, and raises ValueError for every other operator.", "quantifier": "all lists of terms with any number of ladder operators", "why_tests_cant": "the acceptance condition ranges over all orders of creation and annihilation operators", "anchors": ["src/qforte/utils/transforms.py:fermop_to_sq_excitation"]}
{"id": "C55", "title": "Python Jordan-Wigner organizers and circuits", "statement": "get_single_term_jw_organizer, get_jw_organizer and get_ucc_jw_organizer return organizers that act as the fermionic operator (respectively T minus its adjoint) up to words with coefficient at most 1e-10; organizer_to_circuit followed by circuit_to_organizer is the identity and the circuits represent the organizer when no word has two letters on one qubit.", "quantifier": "all index strings, amplitudes, and organizers", "why_tests_cant": "any number of ladder operators and terms, all states", "anchors": ["src/qforte/utils/transforms.py:get_single_term_jw_organizer", "src/qforte/utils/transforms.py:get_ucc_jw_organizer", "src/qforte/utils/transforms.py:organizer_to_circuit"]}
{"id": "C56", "title": "Number of qubits of circuits and operators", "statement": "Circuit.num_qubits and QubitOperator.num_qubits are the least register size on which every gate of the circuit (of every term) acts.", "quantifier": "all circuits and operators", "why_tests_cant": "least upper bound over any number of gates and terms", "anchors": ["src/qforte/circuit.cc:num_qubits", "src/qforte/qubit_operator.cc:num_qubits"]}
{"id": "C57", "title": "Editing coefficients of operators and pools", "statement": "set_coeffs replaces exactly the coefficients and rejects a list of the wrong length, set_op_coeffs does so for every operator of a pool, and add_term, add_op and mult_coeffs add the term, add the operator and scale the operator.", "quantifier": "all operators, pools and coefficient lists", "why_tests_cant": "any number of terms, all states", "anchors": ["src/qforte/qubit_operator.cc:set_coeffs", "src/qforte/qubit_op_pool.cc:set_op_coeffs", "src/qforte/qubit_operator.cc:add_term"]}
{"id": "C58", "title": "Qubit tapering preserves the operator in the chosen sector", "statement": "The operator returned as unitary by find_Z2_symmetries is its own inverse, preserves inner products and turns the i-th generator into sigma_x on the i-th tapered qubit; taper_operator returns an operator on the remaining qubits that acts as the transformed operator does in the sector selected by the signs, up to terms below the cutoff; taper_reference removes exactly the tapered positions.", "quantifier": "all Pauli Hamiltonians, operators commuting with the generators, sign lists, reference lists", "why_tests_cant": "operator identities over arbitrary numbers of qubits, generators and terms, including which terms the cutoff drops", "anchors": ["src/qforte/utils/qubit_tapering.py"]}
{"id": "C59", "title": "GSD operator pool", "statement": "fill_pool('GSD') yields every generalised single and double replacement of electrons among the spin orbitals that conserves Sz and point-group symmetry exactly once up to overall sign, as T - T^dagger with pool coefficient 1, and nothing else, for every number of orbitals, reference and irrep labelling.", "quantifier": "all even numbers of spin orbitals, references, irrep labels, all legal results of std::sort", "why_tests_cant": "tests compare pool sizes of a few molecules; completeness and absence of duplicates quantify over all orbital counts and symmetry labellings", "anchors": ["src/qforte/sq_op_pool.cc: SQOpPool::fill_pool (GSD)"]}
{"id": "C60", "title": "Spin-adapted operator pool", "statement": "fill_pool('sa_SD') raises an error unless the reference has equal numbers n of alpha and beta electrons; otherwise it yields, exactly once each, one operator with pool coefficient 1 for every symmetry-allowed singlet single excitation and every symmetry-allowed pair of singlet double excitations from the n lowest into the higher spatial orbitals, each a real multiple of the textbook singlet operator with squared coefficients summing to 2, and each commuting with the spin raising and lowering operators; for an aufbau reference these orbitals are exactly the occupied and empty ones. Unknown pool types raise an error.", "quantifier": "all numbers of orbitals, all 0/1 references, all irrep labellings, all legal results of std::sort, all states acted on", "why_tests_cant": "tests check the pool of one molecule; completeness, spin symmetry and normalisation quantify over all orbital counts and index coincidences i=j, a=b", "anchors": ["src/qforte/sq_op_pool.cc: SQOpPool::set_orb_spaces, SQOpPool::fill_pool (sa_SD)"]}
{"id": "C61", "title": "compact excitation circuits are the exponential of the excitation", "statement": "For every rank, every pair of index lists of equal length without common index (written in descending order for fermions, any order for qubit excitations) and every real theta, compact_excitation_circuit(theta, creation, annihilation, qubit_excitations) returns a circuit that acts on every state as exp(theta (T - T^dagger)), including the fermionic sign of all spectator orbitals; the same holds for the two-body excitations with one repeated index of the GSD pool. Lists of different length, or two repeated indices, raise ValueError; a non-real amplitude raises. (The repeated-index claim is false for q^ p^ s q with p<q<s: the controlled Z of the sign staircase is put on the repeated qubit.)", "quantifier": "all ranks, all index lists, all real amplitudes, all input states, all numbers of qubits", "why_tests_cant": "the number of gates is exponential in the rank and the sign depends on all spectator orbitals; tests compare energies of a few ansaetze", "anchors": ["src/qforte/utils/compact_excitation_circuits.py:compact_excitation_circuit, fermion_sign_circuit, qubit_excitation, multi_qubit_controlled_Ry"]}
{"id": "C62", "title": "The UCC ansatz circuit is the product of the exponentials of the selected operators", "statement": "For a pool built by SQOpPool.fill_pool (\"S\" to \"SDTQPH\", \"GSD\" or \"sa_SD\"), any list of valid pool positions and any real amplitudes t_1.. t_n, UCC.ansatz_circuit returns without error a circuit U. With compact excitations U acts on every state as exp(t_n A_n) ... exp(t_1 A_1), where A_k is the chosen operator (fermionic, or with qubit ladder operators when qubit_excitations is set); without compact excitations, for amplitudes that are zero or larger than 1e-8 in modulus, U is the product of trotter_number copies of exp(t_n A_n/m) ... exp(t_1 A_1/m), so with one Trotter step both branches give the same state. For \"sa_SD\" every A_k is the sum of a_j(T_j - T_j^dagger) over its parts, and the parts are exponentiated one after the other. A position outside the pool is undefined behaviour, an operator with one term in the compact branch is an IndexError, an unknown order type is invalid_argument.", "quantifier": "all references, irreps, pool types, selections of any length, real amplitudes, Trotter numbers, both values of qubit_excitations, all states of any number of qubits, every legal result of std::sort", "why_tests_cant": "the statement ranges over all excitation patterns, register sizes, amplitudes and states; tests compare energies of a few molecules", "anchors": ["src/qforte/abc/ansatz.py:UCC.ansatz_circuit", "src/qforte/sq_op_pool.cc:SQOpPool::get_qubit_operator", "src/qforte/sq_operator.cc:jw_transform", "src/qforte/utils/trotterization.py:trotterize", "src/qforte/utils/compact_excitation_circuits.py"]}
{"id": "C63", "title": "The VQE gradient is the gradient of the VQE energy", "statement": "For a UCC VQE object with a pool of operators a(T - T^dagger) of coefficient one, a Hamiltonian that is a real combination of Pauli strings, any selection of operators and real amplitudes: energy_feval(params) returns <psi|H|psi> for the state psi that the ansatz exponentials prepare from the reference (with and without the OpenMP path), and measure_gradient(params) returns an array whose k-th element is the derivative of that energy with respect to the k-th amplitude. This holds for compact excitation circuits, and for trotterized circuits with trotter_number = 1; for trotter_number > 1 it is false, although the option is accepted. An object without amplitudes raises IndexError.", "quantifier": "all registers, reference circuits, Hamiltonians, pools, selections of any length, real amplitudes (angles not below the simulator thresholds), both values of qubit_excitations and compact_excitations, every legal sort", "why_tests_cant": "a derivative is a statement about the energies at all amplitudes near a point; tests compare with finite differences at a few points of a few molecules", "anchors": ["src/qforte/abc/uccvqeabc.py:UCCVQE.measure_gradient", "src/qforte/abc/algorithm.py:AnsatzAlgorithm.energy_feval", "src/qforte/abc/algorithm.py:AnsatzAlgorithm.build_Uvqc", "src/qforte/abc/algorithm.py:Algorithm.measure_energy", "src/qforte/abc/ansatz.py:UCC.ansatz_circuit"]}
{"id": "C64", "title": "The ADAPT-VQE selection gradients are energy derivatives", "statement": "measure_gradient3 returns one number for every operator A of the pool, in pool order: the derivative at x = 0 of the energy when exp(xA) is appended to the current ansatz, i.e. 2 Re <H psi|A psi>; the operators of the pool still act as before.", "quantifier": "all registers, Hamiltonians, pools of operators a(T - T^dagger), current ansatz circuits of any length, both values of qubit_excitations, every legal sort", "why_tests_cant": "a derivative for every operator, state and Hamiltonian; tests see the selected operators of a few molecules", "anchors": ["src/qforte/abc/uccvqeabc.py:UCCVQE.measure_gradient3", "src/qforte/ucc/adaptvqe.py:ADAPTVQE.update_ansatz"]}
{"id": "C65", "title": "UCCN-PQE residuals are the projections of the Schroedinger equation", "statement": "For a pool of antihermitian operators a(T - T^dagger) that excite (or de-excite) the reference determinant, fill_excited_dets lists for each operator the determinant and the real phase with A_mu|Phi_0> = phase |I_mu>, and leaves the operators' meaning unchanged; get_residual_vector then returns, for all amplitudes, r_mu = <U A_mu Phi_0|H|U Phi_0> with U the (Trotterized or compact) exponential product, never raising for a real Hamiltonian; it raises ValueError exactly if a residual is not real, draws each residual from a normal distribution around it if a noise factor is given, raises ValueError for the sa_SD pool and fill_excited_dets raises ValueError for an operator that destroys the reference.", "quantifier": "all references of at most 64 spin orbitals, pools, amplitudes, Hamiltonians, Trotter numbers, noise draws", "why_tests_cant": "The residual is an identity between states of arbitrary size for continuous amplitudes; tests check one molecule's converged energy.", "anchors": ["src/qforte/ucc/uccnpqe.py: fill_excited_dets, get_residual_vector, initialize_ansatz", "src/qforte/qubit_basis.h", "src/qforte/abc/ansatz.py: ansatz_circuit"]}
{"id": "C66", "title": "Orbital energies and Moller-Plesset denominators of the quasi-Newton update", "statement": "get_res_over_mpdenom divides every residual by the sum of the energies of the orbitals the excitation empties minus the sum of those it fills, whichever of the two terms of the operator comes first; supplied HF energies are used for both spins of a spatial orbital; computed energies are E(Phi) - E(Phi without i) for occupied and E(Phi with i) - E(Phi) for empty orbitals (only if the occupied orbitals are the lowest: refuted otherwise).", "quantifier": "all references, pools, residual vectors, Hamiltonians", "why_tests_cant": "The sign convention must hold for each operator of every pool and every reference; tests only use closed-shell aufbau references.", "anchors": ["src/qforte/abc/ansatz.py: build_orb_energies, get_res_over_mpdenom"]}
{"id": "C67", "title": "Spin operators", "statement": "For an even number of qubits total_spin_z, total_spin_lowering, total_spin_raising and total_spin_squared return simplified Pauli operators on that register that act exactly as S_z, S-, S+ and S^2 = S_x^2+S_y^2+S_z^2 of the spin orbitals (2p up, 2p+1 down); they satisfy the angular momentum commutators, S- is the adjoint of S+, S^2 commutes with S_z, and high-spin determinants are eigenstates with eigenvalue s(s+1). For an odd number the operators act on one qubit more.", "quantifier": "all register sizes, all states, all legal sort results", "why_tests_cant": "The identities hold between sums whose size grows with the register; tests compare a few small cases.", "anchors": ["src/qforte/utils/spin_operators.py: total_spin_squared, total_spin_z, total_spin_lowering, total_spin_raising"]}
{"id": "C68", "title": "Symmetry analysis of a state", "statement": "symmetry_check never raises for an even register and valid irreps, leaves the state unchanged, reports the exact mean and variance of N, S_z and S^2, the exact weight of every particle number, S_z and irrep sector and of the target sector; each family of weights adds up to the squared norm, <N> and <S_z> are the weighted averages, variances are non-negative and vanish exactly for eigenstates; serial and OpenMP builds agree for every schedule.", "quantifier": "all even registers, states, orbital irreps, targets, schedules", "why_tests_cant": "The bookkeeping of sectors must be right for every determinant of every register.", "anchors": ["src/qforte/utils/symmetry_analysis.py: symmetry_check", "src/qforte/find_irrep.cc: find_irrep"]}
{"id": "C69", "title": "Matrix elements and Experiment averages are exact", "statement": "compute_operator_matrix_element(n, U_bra, U_ket, Q) returns <0|U_bra^dagger Q U_ket|0> (the overlap when Q is None). Experiment.perfect_experimental_avg returns the real part of the expectation value of the operator in the generated state; experimental_avg never leaves the interval +-sum|Re c_k|, and has no statistical error when the generated state is an eigenstate of every term.", "quantifier": "all register sizes, bra/ket circuits, operators of any length, numbers of shots and random draws", "why_tests_cant": "tests evaluate a few circuits; the claim covers every circuit, operator and every sequence of random outcomes", "anchors": ["src/qforte/utils/compute_matrix_element.py:compute_operator_matrix_element", "src/qforte/experiment/experiment.py:Experiment.perfect_experimental_avg", "src/qforte/experiment/experiment.py:Experiment.experimental_avg"]}
{"id": "C70", "title": "SRQK builds the Krylov matrices of its Trotterized states and its energies are variational", "statement": "After SRQK.run the overlap matrix holds <Psi_m|Psi_n> and the effective Hamiltonian <Psi_m|H|Psi_n> for Psi_m the Trotter approximation of exp(-i m dt H) applied to the reference; the overlap has unit diagonal; every returned eigenvalue is the energy expectation value of a combination of the Psi_m, so the ground state energy is never below the spectrum of H, and it is the smallest eigenvalue. Any target root below the number of kept states can be requested.", "quantifier": "all Hamiltonians (real combinations of Pauli strings), reference circuits, time steps, Trotter numbers, subspace dimensions, target roots", "why_tests_cant": "tests run one molecule with one dt; the claim is for every Hamiltonian, reference, time step and dimension", "anchors": ["src/qforte/qkd/srqk.py:SRQK.run", "src/qforte/qkd/srqk.py:SRQK.build_qk_mats_fast", "src/qforte/abc/qsdabc.py:QSD.common_run"]}
{"id": "C71", "title": "The Hadamard-test (realistic) SRQK matrices equal the simulator-only (fast) ones", "statement": "With fast=False SRQK measures every matrix element with a Hadamard test on one ancilla: matrix_element(m, n, use_op) returns exactly <Psi_m|Psi_n> (or <Psi_m|H|Psi_n>), so the overlap and Hamiltonian matrices built in the realistic mode are the same matrices as those built in the fast mode.", "quantifier": "all Hamiltonians (real combinations of Pauli strings), reference circuits, time steps, Trotter numbers, subspace dimensions, pairs of states", "why_tests_cant": "tests compare the two modes on a couple of molecules; the agreement needs every controlled Trotter circuit, phase and ancilla rotation to be right for every Hamiltonian", "anchors": ["src/qforte/qkd/srqk.py: SRQK.build_qk_mats_realistic, SRQK.matrix_element", "src/qforte/utils/trotterization.py: trotterize_w_cRz"]}
{"id": "C72", "title": "NTSRQK builds the Krylov matrices of the exactly evolved states", "statement": "NTSRQK.run fills the overlap and Hamiltonian matrices with <Psi_m|Psi_n> and <Psi_m|H|Psi_n> for Psi_m = exp(-i m dt H) applied to the reference, for m = 0..s, and its energies are variational. It raises in the realistic mode.", "quantifier": "all Hamiltonians (real combinations of Pauli strings), reference circuits, time steps, subspace dimensions", "why_tests_cant": "tests check one final energy; the energy hardly depends on the evolution times, so that wrong times go unnoticed", "anchors": ["src/qforte/qkd/nt_srqk.py: NTSRQK.run, NTSRQK.build_qk_mats", "src/qforte/utils/exp_ops.py: get_scipy_csc_from_op, apply_time_evolution_op"]}
{"id": "C73", "title": "QPE reads out the phases of the Trotterized evolution with the promised probability", "statement": "The circuit of QPE.run leaves the ancilla register in the state whose readout is the phase estimate of the Trotterized evolution exp(-iHt) (identity terms included): the amplitude of every basis state is the textbook sum, the readouts are the ancilla bits of the samples in the fast and in the measured mode, with num_precise_bits and success_prob a run reports each eigenphase up to 2^-num_precise_bits with at least success_prob times the weight of its eigenstate, the nearest representable phase with at least 4/pi^2 times that weight, and when the phase is representable every run is exact and the energy is recovered.", "quantifier": "all Hamiltonians (real combinations of Pauli strings), reference circuits, evolution times, Trotter numbers, numbers of ancilla qubits, success probabilities below 1, spectral decompositions of the reference, samples", "why_tests_cant": "the tests run one Hamiltonian at one time with sampled results; the success bound is about all phases and all amplitudes", "anchors": ["src/qforte/qpea/qpe.py:run", "src/qforte/qpea/qpe.py:get_dynamics_circ", "src/qforte/qpea/qpe.py:get_qft_circuit", "src/qforte/qpea/qpe.py:get_Uhad", "src/qforte/qpea/qpe.py:get_z_circuit"]}
{"id": "C74", "title": "QPE turns readouts into the right phase and energy", "statement": "From the readouts QPE computes the phases 0.z1z2..., the mode, a final readout obtained by averaging every bit over the runs, and the energy -2 pi (phase + k)/t closest to guess_energy; the documentation promises the correct energy when guess_energy is within 2 pi/t of it, and the final readout is meant to be the result of the runs.", "quantifier": "all readouts, numbers of runs, guesses, evolution times, energies", "why_tests_cant": "the branch of the logarithm and the averaging only go wrong for particular guesses and mixtures of readouts", "anchors": ["src/qforte/qpea/qpe.py:run"]}
{"id": "C75", "title": "QITE: each step is the least-squares unitary approximation of the imaginary time step, and a run is a chain of such steps", "statement": "QITE.run(beta, db, expansion_type, ...) takes int(beta/db) steps from the prepared state. In each step it determines real coefficients x such that i sum_I x_I sigma_I |psi> is the best approximation (in the norm of the state space) of H|psi>/sqrt(1 - 2 db E) within the span of the expansion operators kept (all of them, or with sparseSb those with |b_I| above b_thresh), and applies exactly the Trotter product formula for exp(-i db sum_I x_I sigma_I) restricted to |x_I| > x_thresh, up to a recorded global phase. The state stays normalised, the recorded energies are the expectation values along the trajectory (hence never below the ground state energy), the energy change is -2 db sqrt(1-2 db E) ||A psi||^2 up to second order in db, _Uqite prepares the final state, and the CNOT, parameter and measurement counters count what was applied. The expansion pools contain exactly the documented operators; other names and complete_qubit above 6 qubits raise ValueError; db = 0 and lanczos_gap = 0 raise ZeroDivisionError. Every legal step size makes progress.", "quantifier": "every register size, state preparation, Hamiltonian, expansion pool, thresholds, db, beta and least squares solver", "why_tests_cant": "a test compares final energies of a few molecules; optimality of every step and the error bound of the energy change are statements over all states and Hamiltonians", "anchors": ["src/qforte/ite/qite.py: QITE.run, build_expansion_pool, build_S, build_sparse_S_b, build_b, do_qite_step, evolve"]}
{"id": "C76", "title": "QLanczos matrices are the overlaps and Hamiltonian elements of the QITE states; its energy is variational", "statement": "With do_lanczos=True, QITE.run stores the states after 0, lanczos_gap, 2 lanczos_gap, ... steps; the matrices of do_qlanczos are s_mn = <psi_m|psi_n> and h_mn = <psi_m|H|psi_n> of these states, both filled completely by conjugation of the lower triangle, and _Egs_lanczos is the first eigenvalue of the last generalised eigenproblem, which is the energy of a combination of these states and therefore not below the ground state energy.", "quantifier": "every QITE run, number of steps, gap and eigensolver output", "why_tests_cant": "one run exercises one gap and one trajectory; the identity of all matrix elements and the variational bound range over all runs", "anchors": ["src/qforte/ite/qite.py: QITE.evolve, QITE.do_qlanczos"]}
{"id": "C77", "title": "Circuits and operators built from text are the ones written; the TFIM Hamiltonian is the transverse-field Ising model", "statement": "build_circuit(s) returns, in order, exactly the gates written in s as label_target, label_target_control or label_target_angle, separated by any white space, for arbitrarily many gates and arbitrarily large qubit numbers, and raises on a word without a target; build_operator('c1, gates; c2, gates; ...') returns the operator with these coefficients and circuits in order. create_TFIM(n, h, J) is the operator -h sum_i Z_i - J sum_i X_i X_{i+1} for every n, with n+(n-1) terms acting on qubits below n, and its reference |0...0> has energy -h n. system_factory calls exactly the adapter named by system_type and build_type and raises TypeError otherwise.", "quantifier": "every list of gates, every white space layout, every qubit number, n, h, J", "why_tests_cant": "the tests parse a few fixed strings with one digit qubit numbers; the claim is about all texts and all n", "anchors": ["src/qforte/helper/io_helper.py: build_circuit, build_operator", "src/qforte/adapters/model_adapters.py: create_TFIM", "src/qforte/system/system_factory.py: system_factory"]}
{"id": "C78", "title": "Moment energy corrections approach the exact Moller-Plesset and Epstein-Nesbet sums", "statement": "construct_moment_space(max_moment_rank=r) collects exactly the determinants of the totally symmetric irrep with the reference's numbers of alpha and beta electrons that differ from it by 1..r electrons, each once, with the Moller-Plesset denominator (sum of orbital energies of holes minus particles) and the exact energy of the determinant; a rank that is negative or not an int raises TypeError. compute_moment_energies then appends E + sum |M_D|^2/d_D up to an error that vanishes linearly with moment_dt, where M_D is the exact moment <D|U^dagger H U|Phi>; the corrections never raise the energy when the denominators are not positive; moment_dt = 0 raises ZeroDivisionError. The space is the totally symmetric one also when the reference has another symmetry.", "quantifier": "all references, irreps, orbital energies, Hamiltonians of Pauli strings with real coefficients, ansatz operators and amplitudes, ranks and step sizes", "why_tests_cant": "a test compares one molecule with stored numbers; the selection of determinants and the first-order error bound must hold for every system and step", "anchors": ["src/qforte/utils/moment_energy_corrections.py: construct_moment_space, compute_moment_energies"]}
{"id": "C79", "title": "SPQE residuals are the projected ones, and the residuals used for selection approach them", "statement": "SPQE.get_residual_vector(t) returns for each operator K of the ansatz the residual <U K Phi|H|U Phi> of the circuit U(t) (exactly with the Jacobi optimizer, up to sign otherwise, same norm), raises ValueError if one of them is not real, which cannot happen for real Hamiltonians without an odd number of Y, and AssertionError if the number of amplitudes is wrong. The amplitudes that update_ansatz reads off U^dagger e^{i dt H} U|Phi>, divided by dt, have the moduli of the exact moments <D|U^dagger H U|Phi> up to dt W^2/2 with W the sum of the absolute coefficients of H, so its convergence test compares the exact squared norm up to a corresponding error.", "quantifier": "all references, symmetry labels, pools built by SPQE, ansatz operators, amplitudes, Hamiltonians and step sizes", "why_tests_cant": "tests run one molecule to one stored energy; the relation to the exact residual must hold at every iteration for every system and dt", "anchors": ["src/qforte/ucc/spqe.py: get_residual_vector, update_ansatz", "src/qforte/utils/trotterization.py: trotterize"]}
{"id": "C80", "title": "MRSQK selects the reference determinants of largest weight in the target state", "statement": "After its SRQK calculation, MRSQK.build_refs() picks num_refs determinants (twice as many with spin adaptation): the ones with the largest weights sum_m |c_m|^2 |<I|psi_m>|^2 of the target root, in decreasing order, or with use_phase_based_selection the ones of largest probability in the target eigenstate; the Hartree-Fock reference is always among them. Fails: the reference not being among the heaviest raises NameError; with phase based selection and complex eigenvectors the amplitudes are combined with conjugated coefficients; when SRQK dropped linearly dependent states, unsquared amplitudes are compared.", "quantifier": "all SRQK states, eigenvectors, target roots, numbers of references and qubit counts up to 64", "why_tests_cant": "the selection depends on real eigenvectors; tests run one molecule whose eigenvectors keep all states and contain the reference", "anchors": ["src/qforte/qkd/mrsqk.py:MRSQK.build_refs", "src/qforte/helper/idx_org.py:sorted_largest_idxs"]}
{"id": "C81", "title": "MRSQK spin adapted references are orthonormal configurations of the CI vector", "statement": "MRSQK.build_sa_refs() completes the selected determinants to all determinants with the same spatial occupations and |Sz|, diagonalizes the exact Hamiltonian matrix in them, and returns num_refs references, each the normalised part of the CI eigenvector in one configuration; different references are orthogonal; the eigenvector is the target root unless the first determinant is absent from the lowest root. fast=False raises NotImplementedError and too few configurations give no result. Fails: the configurations are ranked by the square of their last coefficient, not by their weight, so a lighter configuration can be chosen.", "quantifier": "all lists of determinants, Hamiltonians that are real sums of Pauli strings, eigensolver results, target roots and numbers of references", "why_tests_cant": "the configurations range over all occupation lists and the coefficients over reals; the wrong ranking shows only when two configurations compete", "anchors": ["src/qforte/qkd/mrsqk.py:MRSQK.build_sa_refs", "src/qforte/qkd/mrsqk.py:MRSQK.build_classical_CI_mats", "src/qforte/utils/state_prep.py:build_eq_dets"]}
{"id": "C82", "title": "MRSQK builds the Krylov matrices of the evolved references and its energies are variational", "statement": "An MRSQK run returns the overlap matrix and Hamiltonian matrix of the states U_m Phi_i, U_m the Trotter formula for exp(-i m dt H), at position i(s+1)+m, for determinants and for spin adapted references; every returned eigenvalue is a Rayleigh quotient of a state in their span, so no energy lies below the spectrum of H and the ground energy is not above the target one. Fails: with diagonalize_each_step (the default) an excited target root always raises; the vacuum determinant as first reference raises UnboundLocalError.", "quantifier": "all reference lists, Hamiltonians, time steps, Trotter numbers and numbers of Krylov states, eigensolvers meeting their contract", "why_tests_cant": "the bounds must hold for all Hamiltonians and references; a test compares one energy with full CI", "anchors": ["src/qforte/qkd/mrsqk.py:MRSQK.build_qk_mats", "src/qforte/qkd/mrsqk.py:MRSQK.build_sa_qk_mats", "src/qforte/qkd/mrsqk.py:MRSQK.run", "src/qforte/maths/eigsolve.py:canonical_geig_solve"]}
{"id": "C83", "title": "Frozen-core molecular Hamiltonian assembled from integrals", "statement": "The second-quantised Hamiltonian that the molecule adapter builds from the nuclear repulsion energy and the one- and two-electron integrals (Mulliken order) is the electronic Hamiltonian of the molecule. With frozen core and frozen virtual orbitals its matrix elements between active-space states equal those of the full Hamiltonian between the same states with the core doubly occupied and the frozen virtuals empty. Every determinant has the textbook energy over the original integrals; the closed-shell reference has the closed-shell Hartree-Fock energy, whatever is frozen.", "quantifier": "all numbers of orbitals, all numbers of frozen core and virtual orbitals that fit, all real-orbital integrals, all pairs of states, all determinants", "why_tests_cant": "tests compare energies of a few small molecules; a wrong index order or a missing exchange term only shows for particular integrals and particular numbers of frozen orbitals", "anchors": ["src/qforte/adapters/molecule_adapters.py: create_psi_mol"]}
{"id": "C84", "title": "Qubit Hamiltonian of a molecule is a real combination of Pauli strings with an even number of Y", "statement": "For every molecule the Jordan-Wigner transformed Hamiltonian has real coefficients, canonical distinct Pauli strings on the register of active spin orbitals, and an even number of Y in every string, and acts as the assembled operator up to dropped terms of size at most 1e-12; the same holds for any real, Hermitian, particle-conserving operator. Simplification keeps reality and Hermiticity because the normal-ordered form of an operator is unique.", "quantifier": "all real Hermitian particle-conserving second-quantised operators, in particular all molecular Hamiltonians, all legal orderings of std::sort", "why_tests_cant": "dropping small terms could break Hermiticity for some integrals; only a proof covers all coefficient patterns around the threshold", "anchors": ["src/qforte/adapters/molecule_adapters.py: create_psi_mol", "src/qforte/sq_operator.cc: simplify, jw_transform"]}
{"id": "C85", "title": "Molecules from files, and Hartree-Fock references", "statement": "A molecule read from a file has the Hamiltonian scalar + sum h_pq a^p aq + 1/4 sum <pq||rs> a^p a^q as ar; with antisymmetrised spin-orbital integrals of a molecule it is the same operator that the psi4 adapter builds, and symmetric tables give a real Hermitian Pauli operator. The reference of a file puts the alpha electrons in the lowest even and the beta electrons in the lowest odd spin orbitals, with IndexError exactly when they do not fit; the reference of a psi4 molecule gives every active orbital the occupation of its position within its irrep, past the frozen ones.", "quantifier": "all tables of integrals, all numbers of spin orbitals and electrons, all irreps, occupations and orbital orders", "why_tests_cant": "index conventions (factor 1/4, order s r of the annihilators) agree by accident on symmetric small cases", "anchors": ["src/qforte/adapters/molecule_adapters.py: create_external_mol, create_psi_mol"]}
{"id": "C86", "title": "Construction of algorithm objects and Hamiltonians with penalty terms", "statement": "Constructing an algorithm with an occupation list (or none: the Hartree-Fock reference), a circuit or a simulator succeeds exactly when the argument is of the announced kind and the Hamiltonian acts on as many qubits as the reference (for a simulator also: fast mode, the class can be started from one, equal number of qubits); otherwise ValueError. The algorithm then starts from that determinant, from the circuit applied to |0>, or from the simulator's state. With a penalty dictionary the Hamiltonian is replaced by H + sum_i s_i (O_i - e_i)^2 up to the terms dropped by simplify: it stays Hermitian (and real), states with the wanted eigenvalues keep their energy, and non-negative scaling factors lower no energy; projective algorithms and lists of different length are refused. With a point group the irrep argument selects an irrep of its table (default: the totally symmetric one), other values are refused, and every determinant of the SPQE pool transforms as that irrep; without a point group the argument has no effect.", "quantifier": "all Hamiltonians, references, circuits, simulators, all lists of penalty operators, eigenvalues and scaling factors, all states", "why_tests_cant": "the energies are compared for all states and all operators, and acceptance is characterised for all arguments", "anchors": ["src/qforte/abc/algorithm.py:Algorithm.__init__", "src/qforte/abc/algorithm.py:AnsatzAlgorithm.__init__", "src/qforte/abc/algorithm.py:get_initial_computer"]}
{"id": "C87", "title": "Complete UCCN-VQE runs", "statement": "After UCCNVQE.run() with an optimizer of scipy or the quasi-Newton solver, the reported ground state energy is exactly the energy of the normalised state prod exp(t_mu(tau_mu - tau_mu^dagger))|ref> at the reported amplitudes (one per pool operator), it is never below the lowest eigenvalue and, for scipy's optimizers, never above the energy of the reference; the optimizer is given this energy as its objective and its exact gradient; the quasi-Newton solver makes at most opt_maxiter passes and if it stops earlier the gradient before the last update was below opt_thresh; the numbers of parameters, non-zero parameters and Pauli term measurements are those of the run; gradient-free methods run without analytic gradients; the threshold reaches the optimizer; the summary file has a header and one line per iteration.", "quantifier": "every Hamiltonian, pool of excitations, reference circuit, admissible amplitudes, optimizer obeying its contract, options, ansatz type, Trotter number and thread schedule", "why_tests_cant": "tests run a few molecules to a tolerance with one or two optimizers; the claim ranges over all systems and every behaviour of the optimizer", "anchors": ["src/qforte/ucc/uccnvqe.py:UCCNVQE.run", "src/qforte/ucc/uccnvqe.py:UCCNVQE.solve", "src/qforte/ucc/uccnvqe.py:UCCNVQE.scipy_solve", "src/qforte/abc/uccvqeabc.py:UCCVQE.gradient_ary_feval", "src/qforte/abc/uccvqeabc.py:UCCVQE.report_iteration", "src/qforte/maths/optimizer.py:jacobi_solver"]}
{"id": "C88", "title": "Complete UCCN-PQE runs", "statement": "After UCCNPQE.run() the reported energy is exactly the energy of the normalised ansatz state at the reported amplitudes and not below the lowest eigenvalue; with scipy's optimizers the sum of the squared residuals <Phi_mu|U^dagger H U|Phi_0> at the reported amplitudes is not above that of the reference; the quasi-Newton solver makes at most opt_maxiter passes and if it stops earlier the residual vector before the last update was shorter than opt_thresh; when all residuals of a pool that reaches every determinant of the reference's electron number vanish, the state is an eigenstate and the energy its eigenvalue; only occupation-list references and the seven documented optimizers are accepted; measurement counts and the summary file are those of the run.", "quantifier": "every Hamiltonian, pool of excitations of an occupation-list reference, admissible amplitudes, optimizer obeying its contract, options, ansatz type and thread schedule", "why_tests_cant": "tests compare final energies of small molecules with FCI values to a tolerance; the claims hold for all systems, pools and optimizer behaviours", "anchors": ["src/qforte/ucc/uccnpqe.py:UCCNPQE.run", "src/qforte/abc/uccpqeabc.py:UCCPQE.solve", "src/qforte/abc/uccpqeabc.py:UCCPQE.get_sum_residual_square", "src/qforte/abc/uccpqeabc.py:UCCPQE.report_iteration", "src/qforte/maths/optimizer.py:scipy_solver", "src/qforte/maths/optimizer.py:jacobi_solver"]}
{"id": "C89", "title": "UCC ans\u00e4tze conserve electron number, S_z and irrep", "statement": "For every pool that SQOpPool.fill_pool builds (particle-hole excitations of any order, GSD, sa_SD), every choice of pool operators and real amplitudes, compact or Trotterised circuits, fermionic or qubit excitations: the circuit returned by UCC.ansatz_circuit maps a combination of determinants with given electron number, S_z and point-group irrep to a combination of determinants with the same three quantum numbers. The molecular Hamiltonian assembled from symmetry-allowed integrals does so too.", "quantifier": "all numbers of orbitals, references, irrep assignments, pool types, index and amplitude vectors, initial states in a symmetry sector; all symmetry-allowed integrals and frozen-orbital choices", "why_tests_cant": "tests compare energies of a few molecules; leakage out of the symmetry sector for some pool, irrep assignment or amplitude vector shows only for that input", "anchors": ["src/qforte/abc/ansatz.py:UCC.ansatz_circuit", "src/qforte/sq_op_pool.cc:SQOpPool::fill_pool", "src/qforte/adapters/molecule_adapters.py:create_psi_mol"]}
{"id": "C90", "title": "A complete ADAPT-VQE run returns the energy of the ansatz it grew", "statement": "ADAPTVQE.run(): the run that returns performed a sequence of macro-iterations, each measuring the energy gradient of every pool operator at the current state, adding operators by the selection rule with amplitude zero, and re-optimizing all amplitudes. Egs is the energy expectation value of the product of exponentials of the selected operators with the final amplitudes, hence not below the ground state energy; the recorded energies never increase and start at or below that of the reference when the optimizer never returns a worse point; a run that reports convergence ended at a state whose pool gradient norm is below avqe_thresh, and otherwise used adapt_maxiter macro-iterations; the resource counts are the sums over the macro-iterations.", "quantifier": "all Hamiltonians (Hermitian, Pauli form), pools of simplified excitation operators, references, thresholds, iteration limits, selection modes, compact or Trotter ansatz, all minimizers that return a point with its value, and all histories of macro-iterations", "why_tests_cant": "The number of macro-iterations, the operators chosen and every value depend on the pool, the Hamiltonian and an external minimizer; a test sees a few molecules with BFGS.", "anchors": ["src/qforte/ucc/adaptvqe.py: ADAPTVQE.run, update_ansatz, solve, scipy_solve, conv_status, get_num_ham_measurements, get_num_commut_measurements", "src/qforte/abc/uccvqeabc.py: measure_gradient3, report_iteration", "src/qforte/maths/optimizer.py: jacobi_solver"]}
{"id": "C91", "title": "A complete SPQE run grows an ansatz whose residuals it has measured", "statement": "SPQE.run() with M_omega = 'inf': the pool holds one operator for every target determinant, the run that returns performed a sequence of macro-iterations, each measuring the squared residuals of the unused operators (exact up to a stated time-step error), adding operators by the selection rule with amplitude zero, and solving for all amplitudes by quasi-Newton steps or by minimizing the sum of squared residuals. Egs is the energy expectation value of the product of exponentials with the final amplitudes, hence not below the ground state energy; no operator is used twice and the n-body counts count the ansatz; a converged run has used the whole pool or its exact unused residuals are below spqe_thresh up to the time-step error, any other run used spqe_maxiter + 1 macro-iterations; measurement and residual counts are the sums over the macro-iterations. A converged reference and the slow mode raise exceptions.", "quantifier": "all Hamiltonians (Hermitian, real Pauli form), occupation-list references, irreps, rank limits, thresholds, time steps, iteration limits, both selection modes, both solvers, compact or Trotter ansatz, all minimizers that return a point with its value, all histories", "why_tests_cant": "The operators chosen and the number of iterations depend on the Hamiltonian and an external minimizer; a test sees a few molecules with one optimizer.", "anchors": ["src/qforte/ucc/spqe.py: SPQE.run, update_ansatz, conv_status, get_residual_vector", "src/qforte/abc/uccpqeabc.py: UCCPQE.solve, get_sum_residual_square, report_iteration", "src/qforte/maths/optimizer.py: jacobi_solver, scipy_solver"]}
{"id": "C92", "title": "Gradients measured as commutators", "statement": "Filling the commutator pool succeeds for every Hermitian Hamiltonian and every pool of operators T - T^dagger, leaves the pool's operators acting as before, and measuring the commutators (all, or a selection of indices) in the state prepared by a circuit returns, per operator K, the slope of the energy at t = 0 of exp(t K) applied to the state (the number that measure_gradient3 computes), up to 3e-12 * 4^n for coefficients that are dropped as negligible; the check that the imaginary parts vanish never fails; slow mode is refused. For qubit excitations the same should hold with the qubit operators.", "quantifier": "all registers, Hermitian Hamiltonians, pools of excitations of any length up to rank 6, preparation circuits, index selections and thread schedules", "why_tests_cant": "Every operator pool, Hamiltonian and state; that the commutator stays Hermitian although negligible terms are dropped in both products is an algebraic fact about all coefficients.", "anchors": ["src/qforte/abc/uccvqeabc.py:85-116", "src/qforte/qubit_op_pool.cc:106-127", "src/qforte/sq_op_pool.cc:72-80"]}
{"id": "C93", "title": "PQE residuals are the energy variance", "statement": "With a pool of all particle-hole excitations that conserve S_z and the irrep (pool type S, SD, ... up to the number of electrons or of empty spin orbitals), built by fill_pool for a reference whose alpha and beta orbitals are filled from below, the sum of the squared magnitudes of the PQE residuals equals the squared norm of H phi - E phi, phi being the PQE state and E its energy, H keeping the symmetry sector of the reference (for other H: of its components on the determinants of the sector). So the residuals vanish exactly when phi is an eigenstate of H, the error of E with respect to any eigenvalue times the overlap of phi with its eigenvector is at most the norm of the residual vector, and a quasi-Newton run that stops before opt_maxiter passes has reached ||H phi - E phi|| < opt_thresh with the amplitudes before the last update. With an optimizer that never returns a worse point than its start, the energy variance of the final state of a run is at most that of the reference determinant.", "quantifier": "every reference, irreps, pool type that spans the sector, Hermitian Hamiltonian that keeps the sector, admissible amplitudes, kind of excitation operators, ansatz type and library behaviour", "why_tests_cant": "tests check energies of single molecules; that small residuals certify an eigenstate must hold for every Hamiltonian and every amplitude vector", "anchors": ["src/qforte/ucc/uccnpqe.py:UCCNPQE.get_residual_vector", "src/qforte/ucc/uccnpqe.py:UCCNPQE.run", "src/qforte/sq_op_pool.cc:SQOpPool::fill_pool", "src/qforte/maths/optimizer.py:jacobi_solver"]}
{"id": "C94", "title": "SPQE residuals are the energy variance", "statement": "When the SPQE pool reaches the whole symmetry sector of the reference (target irrep that of the reference, rank limit not below the number of electrons or of empty spin orbitals), the sum over all pool determinants of the squared residuals equals the squared norm of H phi - E phi, phi being the SPQE state for any ansatz and usable amplitudes and E its energy, H keeping the sector (for other H: of its components on the determinants of the sector). It is the sum of the squared residuals of the operators of the ansatz and of the unused operators. So the residuals of the whole pool vanish exactly when phi is an eigenstate; for the result of a run ||H phi - Egs phi||^2 is the sum of the final squared residuals of its operators plus a rest, which for a converged run is 0 (all operators used) or below spqe_thresh^2 up to the stated error of the time step; and the error of Egs with respect to any eigenvalue, times the overlap of phi with the eigenvector, is at most the square root of that sum.", "quantifier": "every reference, irreps, rank request, real Hermitian Hamiltonian that keeps the sector, ansatz, usable amplitudes, kind of excitation operators, ansatz type, optimizer behaviour and option values", "why_tests_cant": "tests check energies of single molecules; that the stopping criterion of SPQE bounds the energy variance must hold for every Hamiltonian and every history of selections", "anchors": ["src/qforte/ucc/spqe.py:SPQE.update_ansatz", "src/qforte/ucc/spqe.py:SPQE.get_residual_vector", "src/qforte/ucc/spqe.py:SPQE.run", "src/qforte/ucc/spqe.py:SPQE.solve"]}
{"id": "C95", "title": "Printed forms", "statement": "str() of a gate shows exactly its label, target and control: two gates from the library print the same text iff these agree. repr() of a gate determines these and the 2x2 or 4x4 matrix to six decimals. str() of a circuit shows the gates, last one first, and two circuits print the same text iff their gates have the same labels, targets and controls in the same order; for gates made by gate() without a parameter equal text means equal circuits. str() of a QubitOperator determines the circuits of its terms and str() of an SQOperator the creators and annihilators of its terms, in order, and both determine the coefficients to six decimals; the same holds for every entry of an SQOpPool or QubitOpPool, in order. Two computers of the same size that print the same text show the same basis states, with amplitudes that agree to six decimals. The parameter of a rotation, the matrix of a controlled gate and amplitudes below the print threshold cannot be read from the text, and build_circuit never accepts the text of a circuit.", "quantifier": "all gates and circuits of library gates, all qubit and second quantized operators and pools of them, all states of at most 64 qubits, all print thresholds, all number formatters that round to six decimals", "why_tests_cant": "that two different objects never print the same is a statement about all pairs of gates, circuits, operators and states", "anchors": ["src/qforte/gate.cc: Gate::str", "src/qforte/circuit.cc: Circuit::str", "src/qforte/qubit_operator.cc: QubitOperator::str", "src/qforte/sq_operator.cc: SQOperator::str", "src/qforte/computer.cc: Computer::str", "src/qforte/qubit_basis.cc: QubitBasis::str", "src/qforte/helpers.cc: join, to_string", "src/qforte/gate.cc: Gate::repr", "src/qforte/sq_op_pool.cc: SQOpPool::str", "src/qforte/qubit_op_pool.cc: QubitOpPool::str"]}
{"id": "C96", "title": "smart_print", "statement": "smart_print of a circuit prints the gates as a product in parentheses, the first gate on the right, applied to |Psi>; of an operator it prints the sum of its coefficients and circuits, one term per line, in order; of a computer it prints the text of the state.", "quantifier": "all circuits, operators and computers of at most 64 qubits, all number formatters", "why_tests_cant": "all objects", "anchors": ["src/qforte/helper/io_helper.py: smart_print"]}
{"id": "C97", "title": "Sparse vectors and matrices as dictionaries", "statement": "After any sequence of set_element calls on a new SparseVector or SparseMatrix, get_element returns the last value set for the index (pair), or zero if it was never set; to_map and to_vec_map contain exactly the indices that were set, each once and in increasing order, with the last value (zeros included) and without empty rows; two histories with the same last values make the same object.", "quantifier": "all sequences of set_element calls", "why_tests_cant": "histories of any length", "anchors": ["src/qforte/sparse_tensor.cc", "src/qforte/bindings.cc"]}
