{
 "C01": [
  "partial",
  "Proved for every register, target, state and every sharp library gate (all labels except Rx/Ry/A unconditionally). In exact arithmetic Rx at an odd multiple of pi is applied as X (C01_Rx_pi_refuted): the chained comparison computer.cc:398 compares a bool with 1.0; in doubles cos(pi/2)*2=1.2e-16 just exceeds the 1e-16 threshold and masks it."
 ],
 "C02": [
  "partial",
  "Proved for every register, ordered pair, state and every sharp library gate; same exclusion as C01 (controlled Rx at pi)."
 ],
 "C03": [
  "partial",
  "Proved for all circuits of sharp library gates in range."
 ],
 "C04": [
  "partial",
  "Refuted for target = n (out-of-bounds access); the harmless case target > n for one-qubit gates is proved."
 ],
 "C05": [
  "proved",
  ""
 ],
 "C06": [
  "proved",
  "Specification level for all library circuits; for the thresholded simulator under sharpness."
 ],
 "C07": [
  "proved",
  ""
 ],
 "C08": [
  "proved",
  ""
 ],
 "C11": [
  "proved",
  ""
 ],
 "C26": [
  "proved",
  ""
 ],
 "C09": [
  "partial",
  "Proved with no hypotheses beyond library gates for all circuits without controlled-U (never raises, same action, not longer); for circuits with controlled-U whenever simplify returns normally. Refuted part: with a controlled-U gate simplify may raise std::out_of_range after having merged gates, leaving a circuit with a different action."
 ],
 "C10": [
  "proved",
  ""
 ],
 "C12": [
  "partial",
  "All operations proved against a gate-by-gate specification; refuted: remove_gates cannot remove a range ending at the last gate, and pos2<pos1 is undefined behaviour."
 ],
 "C13": [
  "partial",
  "Right number of values: proved for all circuits without controlled-U gates (for which make_gate(\"cU\") throws). Wrong number: refuted (modified before raising; too few values read out of bounds)."
 ],
 "C14": [
  "proved",
  ""
 ],
 "C50": [
  "partial",
  "< proved a strict total order whose equivalence is identity for all circuits without controlled-U. Refuted: == is not transitive, == and < can hold together, controlled-U gates with different matrices compare equal."
 ],
 "C15": [
  "partial",
  "Word and circuit semantics proved for every Pauli string; the canonical form is proved; the phase refutation (the returned coefficient is for the reverse order, conj for circuit application order) and the exception for non-Pauli gates are stated. See C15_* theorems."
 ],
 "C16": [
  "partial",
  "simplify proved to preserve the action up to terms of magnitude <=1e-12, to produce canonical distinct strings, to be idempotent and to depend only on the operator represented, for distinct-target strings; for repeated targets the conj defect makes the unrestricted claim false (refuted theorem)."
 ],
 "C17": [
  "partial",
  "operator_product proved equal to composition (up to dropped negligible terms) for distinct-target Pauli strings, and to depend only on the composed operator; not proved outside that class, where C15's defect makes it false."
 ],
 "C33": [
  "partial",
  "complete_qubit and cqoy pools proved complete, duplicate-free and exact for every n>=1; n=0 refuted (out of bounds access)."
 ],
 "C34": [
  "partial",
  "joins, commutator and square proved for pools of distinct-target Pauli strings up to dropped negligible terms."
 ],
 "C51": [
  "partial",
  "comparator is not a strict weak order (refuted); initial order irrelevant for every deterministic sort; equivalence check without reordering exact; operators equal as linear maps get the same order and are declared equivalent after reordering."
 ],
 "C18": [
  "partial",
  "Proved for every state and every operator of sharp library circuits in range (unconditional for Pauli operators); empty operator gives zero. Same exclusion as C01."
 ],
 "C19": [
  "partial",
  "Serial path proved for every state, operator, pool, index list and multiplier list (sharp circuits in range), with the state left unchanged. The OpenMP path is C20."
 ],
 "C20": [
  "partial",
  "Refuted: the value is (-1)^(number of Y) <psi|P|psi>, for every legal schedule (so schedules do not matter, and strings with an even number of Y are right); a single Y is a counterexample. Non-Pauli first labels raise."
 ],
 "C21": [
  "partial",
  "Refuted: the function always returns 0 and leaves the gate applied to the state (proved for every state and gate)."
 ],
 "C22": [
  "partial",
  "apply_sparse_matrix proved for every state and every matrix built through the API. apply_matrix multiplies by the complex conjugate (proved), so it is right exactly for real matrices; a complex matrix refutes the claim."
 ],
 "C23": [
  "partial",
  "Gates (sharp at 1e-14): exact. Pauli circuits: exact. All circuits and operators: equal up to the entries dropped at 1e-16 with an explicit bound. Out-of-range qubits raise. The empty operator is refuted (identity versus zero)."
 ],
 "C24": [
  "proved",
  ""
 ],
 "C25": [
  "proved",
  "Includes the Born rule for values and readouts, for every state and Pauli string; +-1/bits/state unchanged for every circuit and every draw."
 ],
 "C27": [
  "proved",
  ""
 ],
 "C52": [
  "partial",
  "Refuted: an identity gate is measured as Z."
 ],
 "C28": [
  "proved",
  "canonical_order_single_term and canonical_order: both index lists become descending permutations and the coefficient gets exactly the sign (-1)^(number of inversions) (permutation with distinct indices); the fermionic operator is unchanged. The term sort std::sort is an arbitrary legal sort."
 ],
 "C29": [
  "proved",
  "SQOperator.simplify: the kept terms are canonically ordered, pairwise different, above the threshold; everything else dropped is below 1e-12; the represented operator is kept + dropped."
 ],
 "C30": [
  "partial",
  "Faithfulness proved for terms with pairwise different creation (annihilation) indices and at most 39 ladder operators: beyond that every Pauli coefficient is 2^-40 < 1e-12 and the product is dropped by the simplification threshold. Both the fermionic and the qubit_excitation variant."
 ],
 "C31": [
  "partial",
  "Refuted in general: a^_p a^_p a_q is transformed to +-a_q (C31_vanishing_product_refuted, for every p and q); proved when the repeated pair comes last."
 ],
 "C32": [
  "partial",
  "Exact contents proved for every reference (C32_pool_contents), completeness for aufbau references with occupied orbitals below 31 (C32_aufbau_pool_partial), meaning of the operators (C32_operator_meaning). The unrestricted property is false: references that are not aufbau in each spin string lose determinants (C32_non_aufbau_refuted) and an occupied 32nd spin orbital overflows the int multiplier (C32_int_overflow_refuted)."
 ],
 "C35": [
  "proved",
  "find_irrep: order independent, xor-additive, zero on doubly occupied orbitals, fails (undefined access) exactly when an orbital has no irrep."
 ],
 "C36": [
  "proved",
  "QubitBasis: the 64-bit formulas equal the mathematical bit operations used in the simulator specification; str shows the bits."
 ],
 "C37": [
  "proved",
  ""
 ],
 "C38": [
  "partial",
  "Plain and controlled exponentials proved (power-series exponential, also on the simulator). Refuted: a non-empty word of identity gates raises TypeError; the controlled exponential of the empty word is an uncontrolled phase."
 ],
 "C39": [
  "partial",
  "trotterize proved; trotterize_w_cRz proved for operators without identity terms; refuted with identity terms (their phase is not controlled)."
 ],
 "C40": [
  "partial",
  "forward and reverse circuits proved to be the DFT and its inverse; rev_qft refuted: it is the forward transform."
 ],
 "C41": [
  "proved",
  ""
 ],
 "C53": [
  "proved",
  ""
 ],
 "C42": [
  "partial",
  "pauli_condense is proved for words with at most two letters per qubit and refuted for three (X X X becomes the identity); combine_like_terms, join_organizers and join_H_Am_organizers (commutator) are proved for all organizers in normal form, up to words with coefficient at most 1e-10 that the code drops"
 ],
 "C54": [
  "partial",
  "normal-ordered operators are accepted; the exact acceptance condition is proved; the claim that nothing else is accepted is refuted (a_0 a^_1 is read as a^_0 a_1)"
 ],
 "C55": [
  "proved",
  "single terms exactly; sums up to words with coefficient at most 1e-10 that the code drops; T - T^dagger requires terms of even length"
 ],
 "C56": [
  "proved",
  ""
 ],
 "C57": [
  "proved",
  ""
 ],
 "C43": [
  "proved",
  ""
 ],
 "C48": [
  "partial",
  "proved without sorting when the dropped overlap eigenvalues come last and eig returns orthonormal eigenvectors of S; refuted when a dropped eigenvalue is not last (wrong column is used) and with sort_ret_vals=True (vectors are permuted inconsistently; the energies are sorted correctly); the Hermiticity check misses negative imaginary parts"
 ],
 "C45": [
  "partial",
  "bounded and aligned histories, optimal DIIS weights (when lstsq solves its system) and the solver loop proved; refuted: with diis_max_dim < 2 the histories grow, a zero residual raises LinAlgError, opt_maxiter=0 raises"
 ],
 "C46": [
  "partial",
  "Pool contents for every reference and the complete macro-iteration history for M_omega='inf', every residual and optimiser history: exact cumulative/single selection, no operator twice, equal lengths, n-body counts, stop reason. Missing because false of the code: a reference already below the threshold raises IndexError; spqe_maxiter is exceeded by one iteration; the sampled variant (finite M_omega) can add an operator twice or raise KeyError (all as _refuted theorems)."
 ],
 "C47": [
  "partial",
  "Every gradient and optimiser history, default and cumulative mode: each macro-iteration adds the first largest gradient (resp. the exact cumulative set), lists stay equally long, stop reason. Missing because false of the code: converged reference raises IndexError, zero gradient with zero threshold and add_equiv_ops with equal gradients raise UnboundLocalError (as _refuted theorems). PropAdaptTie: C47_equivalent_operators_partial says exactly which second operator add_equiv_ops adds (the largest among those before the largest in the pool, within 1e-5) and when it raises; C47_later_equivalent_refuted: an equal gradient later in the pool is not added; C47_cumulative_order fixes the order of the operators of a cumulative step, ties included."
 ],
 "C44": [
  "proved",
  "for terms that are Pauli strings (no qubit twice); C44_repeated_qubit_refuted: a raw term X0 Y0 is taken for Y0 and gives a \"symmetry\" that does not commute; np.argsort is any legal oracle"
 ],
 "C58": [
  "partial",
  "V exact, involutive, isometric and the taper_operator sector identity for <= 79 generators that all contain Y or Z; refuted: for H = X0 the \"unitary\" is sqrt(2) X0; taper_reference proved for descending positions, refuted for other orders (documented warning)"
 ],
 "C49": [
  "partial",
  "Model of circuit_to_latex with the iteration order of Python sets as oracle. Proved: exactly when the call succeeds; then every gate is drawn at its own place in circuit order, nothing else is drawn, and all rows of a picture have equal length; lines end on targets for consecutive qubits iterated in increasing order; depth limit for neighbouring qubits. Refuted in general: empty circuits, untouched qubits in between and other two-qubit gates raise; depth limit can be exceeded without bound; rows misplaced for sets not iterated in increasing order."
 ],
 "C59": [
  "proved",
  ""
 ],
 "C60": [
  "proved",
  "Contents, meaning, normalisation and spin symmetry of the sa_SD pool for every reference, label set and legal sort; C60_non_aufbau_refuted records that for closed-shell references that are not aufbau the operators use the lowest, not the occupied, orbitals."
 ],
 "C61": [
  "partial",
  "Proved for every rank and every descending, disjoint pair of lists (fermionic) and for every duplicate-free disjoint pair (qubit excitations), plus the one-repeated-index pairs except q^ p^ s q with p<q<s, for which the claim is refuted for every p+2<s and sin(theta)<>0 (the cZ of the sign staircase lands on the repeated qubit). Full statement: any one-repeated-index pair."
 ],
 "C62": [
  "proved",
  "Exact arithmetic; std::sort is any sorted permutation when the comparator is a strict weak ordering of the range (shown here for the strings of one excitation). Amplitudes below 1e-8 in the Trotter branch are outside the theorem because Pauli strings below 1e-12 are dropped."
 ],
 "C63": [
  "partial",
  "C63_energy_partial and C63_gradient_partial: exact for operators of rank at most 6 with pool coefficient one, compact circuits with angles not rounded by the simulator or one Trotter step with amplitudes zero or above 1e-8. False for trotter_number = 2 (C63_trotter_steps_refuted). Not covered: the spin-adapted pool (there the parts of the double excitations do not commute and the code differentiates as if they did)."
 ],
 "C64": [
  "partial",
  "C64_adapt_gradients_partial: derivative for every pool of operators a(T - T^dagger) of rank at most 6; C64_values gives 2 Re <H psi|K psi> for every pool, also the spin-adapted one."
 ],
 "C65": [
  "partial",
  "Exact arithmetic; amplitudes must be zero or above 1e-8 (Trotter) or have angles the simulator does not round to zero (compact); operators with disjoint index sets of rank at most 6. The counters are not modelled."
 ],
 "C66": [
  "partial",
  "Refuted for computed energies when the occupied orbitals are not the lowest ones (C66_computed_energies_refuted); division by a zero denominator (inf/nan in numpy) is not modelled."
 ],
 "C67": [
  "proved",
  "Exact-arithmetic model; the odd case is characterized (operators of one qubit more)."
 ],
 "C68": [
  "proved",
  "Exact reals: the code's comparison imag != 0 on floating-point values is modelled exactly; the dictionary keyed by floats is modelled with integers (the floats are exact multiples of 1/4). Odd registers are outside the statement."
 ],
 "C69": [
  "proved",
  "compute_operator_matrix_element, Experiment.perfect_experimental_avg, experimental_avg (bound, eigenstates)"
 ],
 "C70": [
  "partial",
  "matrices for every run that returns; variational and completion theorems assume scipy.linalg.eig returns orthonormal eigenvectors of S with the dropped eigenvalues last (otherwise C48 shows the solver pairs the wrong columns); refuted: target_root >= 1 with the default diagonalize_each_step=True raises IndexError at the first step"
 ],
 "C71": [
  "proved",
  "Hadamard-test circuits with multiplexed/controlled evolution modelled gate by gate; ideal expectation readout (Re/Im of sigma+)."
 ],
 "C72": [
  "partial",
  "expm_multiply is an oracle whose contract is the exponential series (proved satisfiable). Refuted: the times are m*dt/s, not m*dt as documented (C72_documented_times_refuted); s = 0 and Hamiltonians not touching the last qubit raise ValueError. Matrices proved exactly for the times m*dt/s when no partial sum of the Hamiltonian has a matrix element that is tiny but non-zero; variational/completion theorems under the eig contract of C70."
 ],
 "C73": [
  "proved",
  "exact state, readouts in both modes, distribution over any orthogonal spectral decomposition of the reference, success_prob and 4/pi^2 bounds, exact runs; sampling itself (the random draws) and success_prob > 1 are outside the model"
 ],
 "C74": [
  "partial",
  "proved: the chosen energy is the closest candidate, it is the right one within pi/|t| of the guess, a strict majority readout is reported by both estimates, the exceptions; refuted: the documented window of 2 pi/t (only pi/t is correct), and the bitwise average can be a readout that never occurred"
 ],
 "C75": [
  "partial",
  "Proved for 1 - 2 db E > 0 (guaranteed for whole runs when 2|db| times the coefficient sum of H is below 1) and a least squares solver that returns a minimiser. Refuted without it: when 1 - 2 db E < 0 the code takes the square root of a negative number; with sparseSb the nan entries are silently filtered out, the state does not move and the same energy is recorded again, without sparseSb lstsq raises. 1 - 2 db E = 0 is not modelled. FitsInt bounds the excitation pools (31 occupied, 64 orbitals)."
 ],
 "C76": [
  "partial",
  "Matrices proved for every run that returns; completion and the variational bound when the dropped overlap eigenvalues come last in the eigensolver's output (as in C48/C70) and the eigensolver is correct."
 ],
 "C77": [
  "partial",
  "The form label_target_control_parameter (cR, cRz, A) never parses although make_gate has such gates (C77_controlled_rotation_refuted); build_operator of the empty string raises instead of giving the empty operator (C77_empty_operator_refuted). float() and complex() of a string are oracles."
 ],
 "C78": [
  "partial",
  "C78_space: the determinants, denominators and determinant energies, exactly. C78_energies and C78_corrections_partial: both corrected energies within error_bound (vanishing with dt, C78_limit) of the exact ones, for every ansatz of operators that compile to their exponential. C78_rank_rejected, C78_zero_step. C78_reference_symmetry_refuted: with a reference of another symmetry the space has no determinant of that symmetry. Missing: ranks above 19, zero denominators, sa_SD pools, rounding."
 ],
 "C79": [
  "partial",
  "C79_residuals_partial, C79_selection_partial, C79_convergence_partial for every pool C46_pool builds; the operators of the ansatz are at most sixfold excitations with representable amplitudes (C62). C79_length_mismatch. Missing: ranks above 6 in the ansatz (19 in the pool), finite M_omega, rounding (the test for an exactly zero imaginary part)."
 ],
 "C80": [
  "partial",
  "C80_selection_partial, C80_phase_selection_partial, C80_succeeds_partial, C80_raises. Refuted: C80_name_error_refuted (initial_ref is undefined), C80_phase_conjugate_refuted, C80_truncated_refuted. Missing: rounding; more than 64 qubits."
 ],
 "C81": [
  "partial",
  "C81_references_partial, C81_orthonormal_partial, C81_heaviest_partial (configurations of equal size with even coefficients), C81_completes_partial, C81_raises. Refuted: C81_importance_refuted. Missing: division by a zero weight (nan in numpy), S^2 of the references (a property of the eigenvector scipy returns)."
 ],
 "C82": [
  "partial",
  "C82_states, C82_matrices, C82_completes_partial, C82_variational_partial for given references, C82_whole_run_partial for a run with spin adapted references. Refuted: C82_excited_root_refuted, C82_vacuum_refuted. Missing: overlap eigenvalues dropped in the middle of the list (as in C48), rounding."
 ],
 "C83": [
  "proved",
  "psi4 is not modelled: its integrals are arbitrary functions with the symmetries of real orbitals; exact real arithmetic"
 ],
 "C84": [
  "proved",
  "operators with repeated creators or annihilators (which jw_transform mishandles, see C30) are excluded; the adapter never produces them"
 ],
 "C85": [
  "proved",
  "json reading and point-group labels are not modelled; files with repeated indices p = q or r = s are excluded from the Pauli form theorem"
 ],
 "C86": [
  "partial",
  "Acceptance and starting state proved for every argument; penalised Hamiltonian proved equal to H + sum s_i (O_i - e_i)^2 up to an explicit bound from the dropped terms, Hermitian and real, for penalty operators that are simplified (as jw_transform returns them). For an operator with a term below 1e-12 the square is formed with different factors and need not be Hermitian (refuted theorem). The irrep argument and the symmetry of the SPQE pool are proved for every supported group."
 ],
 "C87": [
  "partial",
  "Amplitudes must be admissible (thresholds in gate construction), exact reals, scipy's minimize by contract. Refuted: slow mode always raises (NameError); gradient-free methods in scipy's spelling keep analytic gradients and end in AttributeError; the threshold is dropped for lower-case names; the summary file raises after the second iteration."
 ],
 "C88": [
  "partial",
  "Amplitudes must be admissible (thresholds in gate construction), exact reals, scipy's minimize by contract, moment corrections off; the eigenstate theorem also needs a pool that reaches every determinant of the reference's electron number and a number-conserving Hamiltonian (for the pools fill_pool builds see C93). Refuted: slow mode always raises."
 ],
 "C89": [
  "proved",
  "All pools fill_pool builds, both circuit branches and both kinds of excitations; amplitudes zero or above 1e-8 in the Trotterised branch (C62). The Hamiltonian statement is about the fermionic operator, before the Jordan-Wigner transform drops terms below 1e-12."
 ],
 "C90": [
  "partial",
  "Proved: the history of a run, its energy and variational bound, monotone energies, convergence, counts, success. Partial: amplitudes with which the generated circuit is an exact product of exponentials; minimizers that return a point with its value. Refuted parts: a reference that is already converged raises IndexError; slow mode; summary file with two optimizer iterations; Hamiltonian count doubles when asked again and is 0 for Jacobi; the gradients of the last test are not counted."
 ],
 "C91": [
  "partial",
  "Proved of complete runs (M_omega = inf, no moment corrections): pool, history of macro-iterations, the reported energies and their variational bound for usable amplitudes, convergence up to an explicit time-step error, iteration limit, counts, and that the run returns when the optimizer succeeds and the reference is not converged. Refuted: a converged reference raises IndexError, the slow mode never returns. Missing: amplitudes with small nonzero angles (dropped by the exponentiation threshold), finite M_omega, floating-point rounding; scipy is an oracle with a stated contract."
 ],
 "C92": [
  "partial",
  "Proved for fermionic operators, serially and with any thread schedule (Hamiltonian with an even number of Y in every string); the commutators are proved Hermitian, so the assertion passes. For qubit excitations refuted: fill_commutator_pool ignores the option and always uses the Jordan-Wigner fermionic operators; an example returns -2 where the slope is +2."
 ],
 "C93": [
  "partial",
  "Equality of the squared residual norm with the energy variance, the equivalence with eigenstates, the energy error bound and the converged run are proved for every full pool of the six types. Partial: amplitudes must be admissible (thresholds in gate construction), exact reals; references filled from below (for others the pool is incomplete, C32). For the molecular Hamiltonian of create_psi_mol (symmetry-adapted real integrals) the bounds hold for the electronic Hamiltonian itself, up to the terms below 1e-12 that jw_transform drops (C93_molecule_partial). Complete runs with a scipy optimizer: the variance of the final state is at most that of the reference (C93_optimizer_run_partial)."
 ],
 "C94": [
  "partial",
  "ideal reals; dt-dependent error of the measured residuals stated explicitly; final residuals of the ansatz operators appear in the bound and are not bounded by opt_thresh for every optimizer (C91); stated for fast=True and non-sa_SD pools as in C91 Without the assumption that the qubit Hamiltonian keeps the sector: C94_run_sector_partial, and C94_molecule_partial for the electronic Hamiltonian of a molecule."
 ],
 "C95": [
  "partial",
  "C95_repr_text and C95_repr_partial: repr determines the matrix to six decimals. C95_gate_text, C95_circuit_text, C95_operator_text, C95_sq_text and C95_state_text and C95_pool_text give the exact texts; C95_pool_partial and C95_qubit_pool_partial (with texts C95_pool_text, C95_qubit_pool_text) say that equal text of two SQ or qubit pools means equal operators in order up to rounding of coefficients; C95_gate_partial and C95_circuit_partial say that the text of gates and circuits is exactly label, target and control; C95_plain_circuit gives equal circuits for parameterless gates; C95_operator_partial, C95_sq_operator and C95_state_partial give coefficients, circuits, ladder operators and shown basis states (amplitudes to six decimals), for every formatter that prints a sign and |x| rounded to six decimals. Not recoverable from the text, with proved counterexamples: parameters, controlled matrices, amplitudes below the threshold (C95_*_refuted); the text is never accepted by build_circuit (C95_roundtrip_refuted)."
 ],
 "C96": [
  "partial",
  "C96_circuit and C96_operator give the exact output. False for computers: \"\\n\".join(Inputobj.str()) iterates over the characters, so every character gets its own line and the text of the state is never printed (C96_computer_refuted, C96_computer_partial). str of a complex number is an oracle."
 ],
 "C97": [
  "proved",
  "all histories of set_element; std::map is the list of its pairs in increasing key order."
 ]
}