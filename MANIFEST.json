{
 "claims": [
  {
   "property": "C01",
   "status": "partial",
   "theorems": [
    "C01_one_qubit_gate_action_partial",
    "C01_sharp_unless_Rx_Ry_A",
    "C01_sharp_angles",
    "C01_Rx_pi_refuted",
    "C01_textbook_gate_applied_partial",
    "C01_textbook_matrix"
   ],
   "note": "Proved for every register, target, state and every sharp library gate (all labels except Rx/Ry/A unconditionally). In exact arithmetic Rx at an odd multiple of pi is applied as X (C01_Rx_pi_refuted): the chained comparison computer.cc:398 compares a bool with 1.0; in doubles cos(pi/2)*2=1.2e-16 just exceeds the 1e-16 threshold and masks it."
  },
  {
   "property": "C02",
   "status": "partial",
   "theorems": [
    "C02_two_qubit_gate_action_partial",
    "C02_textbook_gate_applied_partial",
    "C02_textbook_matrix",
    "C02_control_gate"
   ],
   "note": "Proved for every register, ordered pair, state and every sharp library gate; same exclusion as C01 (controlled Rx at pi)."
  },
  {
   "property": "C03",
   "status": "partial",
   "theorems": [
    "C03_fast_equals_reference_partial"
   ],
   "note": "Proved for all circuits of sharp library gates in range."
  },
  {
   "property": "C04",
   "status": "partial",
   "theorems": [
    "C04_target_n_out_of_bounds_refuted",
    "C04_target_above_n_ignored_partial"
   ],
   "note": "Refuted for target = n (out-of-bounds access); the harmless case target > n for one-qubit gates is proved."
  },
  {
   "property": "C05",
   "status": "proved",
   "theorems": [
    "C05_library_gates_unitary",
    "C05_make_gate_accepts_exactly_the_labels"
   ],
   "note": ""
  },
  {
   "property": "C06",
   "status": "proved",
   "theorems": [
    "C06_circuits_preserve_inner_products",
    "C06_simulator_preserves_norm_partial"
   ],
   "note": "Specification level for all library circuits; for the thresholded simulator under sharpness."
  },
  {
   "property": "C07",
   "status": "proved",
   "theorems": [
    "C07_adjoint_matrix",
    "C07_adjoint_undoes_gate",
    "C07_adjoint_is_library_gate"
   ],
   "note": ""
  },
  {
   "property": "C08",
   "status": "proved",
   "theorems": [
    "C08_circuit_adjoint_undoes",
    "C08_circuit_adjoint_is_adjoint"
   ],
   "note": ""
  },
  {
   "property": "C09",
   "status": "partial",
   "theorems": [
    "C09_simplify_preserves_action",
    "C09_simplify_any_library_gates_partial",
    "C09_exception_changes_circuit_refuted"
   ],
   "note": "Proved with no hypotheses beyond library gates for all circuits without controlled-U (never raises, same action, not longer); for circuits with controlled-U whenever simplify returns normally. Refuted part: with a controlled-U gate simplify may raise std::out_of_range after having merged gates, leaving a circuit with a different action."
  },
  {
   "property": "C10",
   "status": "proved",
   "theorems": [
    "C10_reported_commutation_is_real",
    "C10_evaluation_total"
   ],
   "note": ""
  },
  {
   "property": "C11",
   "status": "proved",
   "theorems": [
    "C11_parameter_normalised",
    "C11_normalisation_idempotent"
   ],
   "note": ""
  },
  {
   "property": "C12",
   "status": "partial",
   "theorems": [
    "C12_insert_gate",
    "C12_remove_gate",
    "C12_replace_gate",
    "C12_swap_gates",
    "C12_add_circuit",
    "C12_insert_circuit",
    "C12_remove_gates_partial",
    "C12_remove_tail_refuted",
    "C12_reversed_range_refuted"
   ],
   "note": "All operations proved against a gate-by-gate specification; refuted: remove_gates cannot remove a range ending at the last gate, and pos2<pos1 is undefined behaviour."
  },
  {
   "property": "C13",
   "status": "partial",
   "theorems": [
    "C13_set_parameter",
    "C13_set_parameter_raises",
    "C13_set_parameters_partial",
    "C13_too_many_values_raise",
    "C13_too_many_values_modify_refuted",
    "C13_too_few_values_refuted"
   ],
   "note": "Right number of values: proved for all circuits without controlled-U gates (for which make_gate(\"cU\") throws). Wrong number: refuted (modified before raising; too few values read out of bounds)."
  },
  {
   "property": "C14",
   "status": "proved",
   "theorems": [
    "C14_cnot_count",
    "C14_additive",
    "C14_adjoint"
   ],
   "note": ""
  },
  {
   "property": "C15",
   "status": "partial",
   "theorems": [
    "C15_canonicalize_distinct_qubits_partial",
    "C15_canonicalize_conjugate_prefactor_partial",
    "C15_repeated_qubit_refuted",
    "C15_non_pauli_raises"
   ],
   "note": "Word and circuit semantics proved for every Pauli string; the canonical form is proved; the phase refutation (the returned coefficient is for the reverse order, conj for circuit application order) and the exception for non-Pauli gates are stated. See C15_* theorems."
  },
  {
   "property": "C16",
   "status": "partial",
   "theorems": [
    "C16_simplify_canonical",
    "C16_simplify_preserves_operator_partial",
    "C16_simplify_any_pauli_reversed_partial",
    "C16_repeated_qubit_refuted",
    "C16_simplify_idempotent"
   ],
   "note": "simplify proved to preserve the action up to terms of magnitude <=1e-12, to produce canonical distinct strings, to be idempotent and to depend only on the operator represented, for distinct-target strings; for repeated targets the conj defect makes the unrestricted claim false (refuted theorem)."
  },
  {
   "property": "C17",
   "status": "partial",
   "theorems": [
    "C17_product_canonical",
    "C17_product_of_operators_partial",
    "C17_lazy_product_exact_partial",
    "C17_repeated_qubit_refuted"
   ],
   "note": "operator_product proved equal to composition (up to dropped negligible terms) for distinct-target Pauli strings, and to depend only on the composed operator; not proved outside that class, where C15's defect makes it false."
  },
  {
   "property": "C18",
   "status": "partial",
   "theorems": [
    "C18_apply_operator_partial",
    "C18_empty_operator_gives_zero",
    "C18_pauli_operator"
   ],
   "note": "Proved for every state and every operator of sharp library circuits in range (unconditional for Pauli operators); empty operator gives zero. Same exclusion as C01."
  },
  {
   "property": "C19",
   "status": "partial",
   "theorems": [
    "C19_direct_op_exp_val_partial",
    "C19_direct_circ_exp_val_partial",
    "C19_direct_oppl_exp_val_partial",
    "C19_direct_idxd_oppl_exp_val_partial",
    "C19_direct_oppl_exp_val_w_mults_partial"
   ],
   "note": "Serial path proved for every state, operator, pool, index list and multiplier list (sharp circuits in range), with the state left unchanged. The OpenMP path is C20."
  },
  {
   "property": "C20",
   "status": "partial",
   "theorems": [
    "C20_parallel_value_up_to_sign_partial",
    "C20_parallel_equals_serial_even_Y_partial",
    "C20_schedule_irrelevant",
    "C20_non_pauli_label_raises",
    "C20_direct_op_exp_val_even_Y_partial",
    "C20_single_Y_refuted"
   ],
   "note": "Refuted: the value is (-1)^(number of Y) <psi|P|psi>, for every legal schedule (so schedules do not matter, and strings with an even number of Y are right); a single Y is a counterexample. Non-Pauli first labels raise."
  },
  {
   "property": "C21",
   "status": "partial",
   "theorems": [
    "C21_returns_zero_and_applies_gate_partial",
    "C21_gate_exp_val_refuted",
    "C21_state_changed_refuted"
   ],
   "note": "Refuted: the function always returns 0 and leaves the gate applied to the state (proved for every state and gate)."
  },
  {
   "property": "C22",
   "status": "partial",
   "theorems": [
    "C22_apply_sparse_matrix",
    "C22_apply_matrix_conjugate_partial",
    "C22_apply_real_matrix_partial",
    "C22_complex_matrix_refuted"
   ],
   "note": "apply_sparse_matrix proved for every state and every matrix built through the API. apply_matrix multiplies by the complex conjugate (proved), so it is right exactly for real matrices; a complex matrix refutes the claim."
  },
  {
   "property": "C23",
   "status": "partial",
   "theorems": [
    "C23_sharp_unless_Rx_Ry_A",
    "C23_gate_agrees_partial",
    "C23_pauli_circuit_agrees_partial",
    "C23_circuit_agrees_within_dropped_entries_partial",
    "C23_operator_agrees_within_dropped_entries_partial",
    "C23_gate_out_of_range_raises",
    "C23_circuit_out_of_range_raises",
    "C23_empty_operator_refuted"
   ],
   "note": "Gates (sharp at 1e-14): exact. Pauli circuits: exact. All circuits and operators: equal up to the entries dropped at 1e-16 with an explicit bound. Out-of-range qubits raise. The empty operator is refuted (identity versus zero)."
  },
  {
   "property": "C24",
   "status": "proved",
   "theorems": [
    "C24_perfect_measure_circuit"
   ],
   "note": ""
  },
  {
   "property": "C25",
   "status": "proved",
   "theorems": [
    "C25_measure_circuit_values",
    "C25_measure_circuit_possible_values",
    "C25_measure_circuit_born_rule",
    "C25_measure_readouts_bits",
    "C25_measure_readouts_possible",
    "C25_measure_readouts_born_rule",
    "C25_z_readouts"
   ],
   "note": "Includes the Born rule for values and readouts, for every state and Pauli string; +-1/bits/state unchanged for every circuit and every draw."
  },
  {
   "property": "C26",
   "status": "proved",
   "theorems": [
    "C26_new_computer",
    "C26_reset",
    "C26_null_state",
    "C26_set_state",
    "C26_set_state_out_of_range"
   ],
   "note": ""
  },
  {
   "property": "C27",
   "status": "proved",
   "theorems": [
    "C27_set_get",
    "C27_default_zero",
    "C27_identity",
    "C27_left_multiply",
    "C27_add"
   ],
   "note": ""
  },
  {
   "property": "C28",
   "status": "proved",
   "theorems": [
    "C28_canonical_order_sign",
    "C28_canonical_order_preserves_operator"
   ],
   "note": "canonical_order_single_term and canonical_order: both index lists become descending permutations and the coefficient gets exactly the sign (-1)^(number of inversions) (permutation with distinct indices); the fermionic operator is unchanged. The term sort std::sort is an arbitrary legal sort."
  },
  {
   "property": "C29",
   "status": "proved",
   "theorems": [
    "C29_simplify_canonical",
    "C29_simplify_merges"
   ],
   "note": "SQOperator.simplify: the kept terms are canonically ordered, pairwise different, above the threshold; everything else dropped is below 1e-12; the represented operator is kept + dropped."
  },
  {
   "property": "C30",
   "status": "partial",
   "theorems": [
    "C30_transform_canonical",
    "C30_jordan_wigner_faithful_partial",
    "C30_qubit_excitations_partial",
    "C30_spec_anticommutes"
   ],
   "note": "Faithfulness proved for terms with pairwise different creation (annihilation) indices and at most 39 ladder operators: beyond that every Pauli coefficient is 2^-40 < 1e-12 and the product is dropped by the simplification threshold. Both the fermionic and the qubit_excitation variant."
  },
  {
   "property": "C31",
   "status": "partial",
   "theorems": [
    "C31_vanishing_at_end_partial",
    "C31_vanishing_product_refuted"
   ],
   "note": "Refuted in general: a^_p a^_p a_q is transformed to +-a_q (C31_vanishing_product_refuted, for every p and q); proved when the repeated pair comes last."
  },
  {
   "property": "C32",
   "status": "partial",
   "theorems": [
    "C32_pool_contents",
    "C32_aufbau_pool_partial",
    "C32_operator_meaning",
    "C32_non_aufbau_refuted",
    "C32_int_overflow_refuted"
   ],
   "note": "Exact contents proved for every reference (C32_pool_contents), completeness for aufbau references with occupied orbitals below 31 (C32_aufbau_pool_partial), meaning of the operators (C32_operator_meaning). The unrestricted property is false: references that are not aufbau in each spin string lose determinants (C32_non_aufbau_refuted) and an occupied 32nd spin orbital overflows the int multiplier (C32_int_overflow_refuted)."
  },
  {
   "property": "C33",
   "status": "partial",
   "theorems": [
    "C33_complete_pool",
    "C33_odd_y_pool",
    "C33_unknown_type_raises",
    "C33_zero_qubits_refuted"
   ],
   "note": "complete_qubit and cqoy pools proved complete, duplicate-free and exact for every n>=1; n=0 refuted (out of bounds access)."
  },
  {
   "property": "C34",
   "status": "partial",
   "theorems": [
    "C34_join_from_right_partial",
    "C34_join_from_right_lazy_partial",
    "C34_join_from_left_partial",
    "C34_commutator_partial",
    "C34_square_partial"
   ],
   "note": "joins, commutator and square proved for pools of distinct-target Pauli strings up to dropped negligible terms."
  },
  {
   "property": "C35",
   "status": "proved",
   "theorems": [
    "C35_find_irrep"
   ],
   "note": "find_irrep: order independent, xor-additive, zero on doubly occupied orbitals, fails (undefined access) exactly when an orbital has no irrep."
  },
  {
   "property": "C36",
   "status": "proved",
   "theorems": [
    "C36_basis_bits",
    "C36_get_set_flip",
    "C36_str"
   ],
   "note": "QubitBasis: the 64-bit formulas equal the mathematical bit operations used in the simulator specification; str shows the bits."
  },
  {
   "property": "C37",
   "status": "proved",
   "theorems": [
    "C37_refprep",
    "C37_index",
    "C37_ref",
    "C37_string",
    "C37_rejects"
   ],
   "note": ""
  },
  {
   "property": "C38",
   "status": "partial",
   "theorems": [
    "C38_exponential",
    "C38_controlled",
    "C38_real_raises",
    "C38_identity_refuted"
   ],
   "note": "Plain and controlled exponentials proved (power-series exponential, also on the simulator). Refuted: a non-empty word of identity gates raises TypeError; the controlled exponential of the empty word is an uncontrolled phase."
  },
  {
   "property": "C39",
   "status": "partial",
   "theorems": [
    "C39_trotterize",
    "C39_controlled_partial",
    "C39_raises",
    "C39_controlled_identity_refuted"
   ],
   "note": "trotterize proved; trotterize_w_cRz proved for operators without identity terms; refuted with identity terms (their phase is not controlled)."
  },
  {
   "property": "C40",
   "status": "partial",
   "theorems": [
    "C40_qft",
    "C40_reverse_circuit",
    "C40_rev_qft_refuted"
   ],
   "note": "forward and reverse circuits proved to be the DFT and its inverse; rev_qft refuted: it is the forward transform."
  },
  {
   "property": "C41",
   "status": "proved",
   "theorems": [
    "C41_toffoli",
    "C41_fredkin"
   ],
   "note": ""
  },
  {
   "property": "C42",
   "status": "partial",
   "theorems": [
    "C42_pauli_condense_partial",
    "C42_pauli_condense_refuted",
    "C42_condense_identity_rejected",
    "C42_combine_like_terms",
    "C42_join_organizers",
    "C42_join_commutator"
   ],
   "note": "pauli_condense is proved for words with at most two letters per qubit and refuted for three (X X X becomes the identity); combine_like_terms, join_organizers and join_H_Am_organizers (commutator) are proved for all organizers in normal form, up to words with coefficient at most 1e-10 that the code drops"
  },
  {
   "property": "C43",
   "status": "proved",
   "theorems": [
    "C43_irreps",
    "C43_product",
    "C43_unit",
    "C43_find_irrep",
    "C43_char_table"
   ],
   "note": ""
  },
  {
   "property": "C44",
   "status": "proved",
   "theorems": [
    "C44_generators_are_symmetries",
    "C44_generators_independent",
    "C44_generators_maximal",
    "C44_outcome",
    "C44_paired_qubits",
    "C44_repeated_qubit_refuted"
   ],
   "note": "for terms that are Pauli strings (no qubit twice); C44_repeated_qubit_refuted: a raw term X0 Y0 is taken for Y0 and gives a \"symmetry\" that does not commute; np.argsort is any legal oracle"
  },
  {
   "property": "C45",
   "status": "partial",
   "theorems": [
    "C45_history_bounded_and_aligned",
    "C45_switched_off_grows_refuted",
    "C45_diis_optimal",
    "C45_combination",
    "C45_zero_update_refuted",
    "C45_solver",
    "C45_zero_iterations_refuted"
   ],
   "note": "bounded and aligned histories, optimal DIIS weights (when lstsq solves its system) and the solver loop proved; refuted: with diis_max_dim < 2 the histories grow, a zero residual raises LinAlgError, opt_maxiter=0 raises"
  },
  {
   "property": "C46",
   "status": "partial",
   "theorems": [
    "C46_pool",
    "C46_rank_request_rejected",
    "C46_run_partial",
    "C46_converged_reference_refuted",
    "C46_iteration_limit_refuted",
    "C46_progress",
    "C46_sampled_duplicate_refuted",
    "C46_sampled_key_error_refuted"
   ],
   "note": "Pool contents for every reference and the complete macro-iteration history for M_omega='inf', every residual and optimiser history: exact cumulative/single selection, no operator twice, equal lengths, n-body counts, stop reason. Missing because false of the code: a reference already below the threshold raises IndexError; spqe_maxiter is exceeded by one iteration; the sampled variant (finite M_omega) can add an operator twice or raise KeyError (all as _refuted theorems)."
  },
  {
   "property": "C47",
   "status": "partial",
   "theorems": [
    "C47_run_partial",
    "C47_cumulative_run_partial",
    "C47_one_per_iteration",
    "C47_cumulative_progress",
    "C47_converged_reference_refuted",
    "C47_zero_gradient_refuted",
    "C47_equivalent_operators_refuted",
    "C47_equivalent_operators_partial",
    "C47_later_equivalent_refuted",
    "C47_cumulative_order"
   ],
   "note": "Every gradient and optimiser history, default and cumulative mode: each macro-iteration adds the first largest gradient (resp. the exact cumulative set), lists stay equally long, stop reason. Missing because false of the code: converged reference raises IndexError, zero gradient with zero threshold and add_equiv_ops with equal gradients raise UnboundLocalError (as _refuted theorems). PropAdaptTie: C47_equivalent_operators_partial says exactly which second operator add_equiv_ops adds (the largest among those before the largest in the pool, within 1e-5) and when it raises; C47_later_equivalent_refuted: an equal gradient later in the pool is not added; C47_cumulative_order fixes the order of the operators of a cumulative step, ties included."
  },
  {
   "property": "C48",
   "status": "partial",
   "theorems": [
    "C48_kept_subspace_partial",
    "C48_full_rank_partial",
    "C48_sorted_energies",
    "C48_imaginary_rejected",
    "C48_sorted_vectors_refuted",
    "C48_dropped_refuted",
    "C48_negative_imaginary_refuted"
   ],
   "note": "proved without sorting when the dropped overlap eigenvalues come last and eig returns orthonormal eigenvectors of S; refuted when a dropped eigenvalue is not last (wrong column is used) and with sort_ret_vals=True (vectors are permuted inconsistently; the energies are sorted correctly); the Hermiticity check misses negative imaginary parts"
  },
  {
   "property": "C49",
   "status": "partial",
   "theorems": [
    "C49_drawing_partial",
    "C49_failure",
    "C49_lines_partial",
    "C49_depth_partial",
    "C49_every_circuit_refuted",
    "C49_depth_refuted",
    "C49_depth_unbounded_refuted",
    "C49_lines_refuted"
   ],
   "note": "Model of circuit_to_latex with the iteration order of Python sets as oracle. Proved: exactly when the call succeeds; then every gate is drawn at its own place in circuit order, nothing else is drawn, and all rows of a picture have equal length; lines end on targets for consecutive qubits iterated in increasing order; depth limit for neighbouring qubits. Refuted in general: empty circuits, untouched qubits in between and other two-qubit gates raise; depth limit can be exceeded without bound; rows misplaced for sets not iterated in increasing order."
  },
  {
   "property": "C50",
   "status": "partial",
   "theorems": [
    "C50_strict_order_partial",
    "C50_equality_reflexive_symmetric",
    "C50_equality_without_parameters_partial",
    "C50_equality_not_transitive_refuted",
    "C50_less_and_equal_refuted",
    "C50_controlled_U_equal_refuted"
   ],
   "note": "< proved a strict total order whose equivalence is identity for all circuits without controlled-U. Refuted: == is not transitive, == and < can hold together, controlled-U gates with different matrices compare equal."
  },
  {
   "property": "C51",
   "status": "partial",
   "theorems": [
    "C51_order_canonical",
    "C51_equal_operators_are_equivalent",
    "C51_comparator_refuted",
    "C51_initial_order_irrelevant_partial",
    "C51_equivalence_of_reordered_partial",
    "C51_equivalence_without_reordering"
   ],
   "note": "comparator is not a strict weak order (refuted); initial order irrelevant for every deterministic sort; equivalence check without reordering exact; operators equal as linear maps get the same order and are declared equivalent after reordering."
  },
  {
   "property": "C52",
   "status": "partial",
   "theorems": [
    "C52_identity_gate_measured_as_Z_refuted"
   ],
   "note": "Refuted: an identity gate is measured as Z."
  },
  {
   "property": "C53",
   "status": "proved",
   "theorems": [
    "C53_eq_dets",
    "C53_contains_ref",
    "C53_open_shell"
   ],
   "note": ""
  },
  {
   "property": "C54",
   "status": "partial",
   "theorems": [
    "C54_normal_ordered_accepted",
    "C54_accepted_iff_partial",
    "C54_input_check_refuted"
   ],
   "note": "normal-ordered operators are accepted; the exact acceptance condition is proved; the claim that nothing else is accepted is refuted (a_0 a^_1 is read as a^_0 a_1)"
  },
  {
   "property": "C55",
   "status": "proved",
   "theorems": [
    "C55_single_term",
    "C55_jw_organizer",
    "C55_ucc_organizer",
    "C55_transposed_is_adjoint",
    "C55_organizer_circuit",
    "C55_organizer_circuit_distinct"
   ],
   "note": "single terms exactly; sums up to words with coefficient at most 1e-10 that the code drops; T - T^dagger requires terms of even length"
  },
  {
   "property": "C56",
   "status": "proved",
   "theorems": [
    "C56_circuit_width",
    "C56_operator_width"
   ],
   "note": ""
  },
  {
   "property": "C57",
   "status": "proved",
   "theorems": [
    "C57_set_coeffs",
    "C57_pool_set_coeffs",
    "C57_pool_set_op_coeffs",
    "C57_operator_meaning"
   ],
   "note": ""
  },
  {
   "property": "C58",
   "status": "partial",
   "theorems": [
    "C58_taper_reference",
    "C58_taper_reference_raises",
    "C58_taper_reference_ascending_refuted",
    "C58_unitary_partial",
    "C58_unitary_x_only_refuted",
    "C58_taper_operator_partial",
    "C58_hamiltonian_qualifies",
    "C58_taper_operator_invalid_signs"
   ],
   "note": "V exact, involutive, isometric and the taper_operator sector identity for <= 79 generators that all contain Y or Z; refuted: for H = X0 the \"unitary\" is sqrt(2) X0; taper_reference proved for descending positions, refuted for other orders (documented warning)"
  },
  {
   "property": "C59",
   "status": "proved",
   "theorems": [
    "C59_gsd_pool"
   ],
   "note": ""
  },
  {
   "property": "C60",
   "status": "proved",
   "theorems": [
    "C60_sa_pool",
    "C60_spin_free",
    "C60_aufbau_orbitals",
    "C60_non_aufbau_refuted",
    "C60_unknown_type"
   ],
   "note": "Contents, meaning, normalisation and spin symmetry of the sa_SD pool for every reference, label set and legal sort; C60_non_aufbau_refuted records that for closed-shell references that are not aufbau the operators use the lowest, not the occupied, orbitals."
  },
  {
   "property": "C61",
   "status": "partial",
   "theorems": [
    "C61_fermionic_partial",
    "C61_qubit",
    "C61_fermionic_shared_partial",
    "C61_qubit_shared",
    "C61_shared_middle_refuted",
    "C61_not_conserving",
    "C61_two_shared",
    "C61_complex_amplitude"
   ],
   "note": "Proved for every rank and every descending, disjoint pair of lists (fermionic) and for every duplicate-free disjoint pair (qubit excitations), plus the one-repeated-index pairs except q^ p^ s q with p<q<s, for which the claim is refuted for every p+2<s and sin(theta)<>0 (the cZ of the sign staircase lands on the repeated qubit). Full statement: any one-repeated-index pair."
  },
  {
   "property": "C62",
   "status": "proved",
   "theorems": [
    "C62_compact",
    "C62_trotter",
    "C62_branches_agree",
    "C62_excitation_pools",
    "C62_gsd_pool",
    "C62_sa_pool",
    "C62_index",
    "C62_one_term",
    "C62_order_type"
   ],
   "note": "Exact arithmetic; std::sort is any sorted permutation when the comparator is a strict weak ordering of the range (shown here for the strings of one excitation). Amplitudes below 1e-8 in the Trotter branch are outside the theorem because Pauli strings below 1e-12 are dropped."
  },
  {
   "property": "C63",
   "status": "partial",
   "theorems": [
    "C63_hamiltonian_self_adjoint",
    "C63_energy_partial",
    "C63_gradient_partial",
    "C63_no_amplitudes_raises",
    "C63_trotter_steps_refuted"
   ],
   "note": "C63_energy_partial and C63_gradient_partial: exact for operators of rank at most 6 with pool coefficient one, compact circuits with angles not rounded by the simulator or one Trotter step with amplitudes zero or above 1e-8. False for trotter_number = 2 (C63_trotter_steps_refuted). Not covered: the spin-adapted pool (there the parts of the double excitations do not commute and the code differentiates as if they did)."
  },
  {
   "property": "C64",
   "status": "partial",
   "theorems": [
    "C64_adapt_gradients_partial",
    "C64_values"
   ],
   "note": "C64_adapt_gradients_partial: derivative for every pool of operators a(T - T^dagger) of rank at most 6; C64_values gives 2 Re <H psi|K psi> for every pool, also the spin-adapted one."
  },
  {
   "property": "C65",
   "status": "partial",
   "theorems": [
    "C65_excited_determinants",
    "C65_residuals_partial",
    "C65_spin_adapted_raises",
    "C65_destroying_raises"
   ],
   "note": "Exact arithmetic; amplitudes must be zero or above 1e-8 (Trotter) or have angles the simulator does not round to zero (compact); operators with disjoint index sets of rank at most 6. The counters are not modelled."
  },
  {
   "property": "C66",
   "status": "partial",
   "theorems": [
    "C66_update",
    "C66_supplied_energies",
    "C66_computed_energies_partial",
    "C66_computed_energies_refuted"
   ],
   "note": "Refuted for computed energies when the occupied orbitals are not the lowest ones (C66_computed_energies_refuted); division by a zero denominator (inf/nan in numpy) is not modelled."
  },
  {
   "property": "C67",
   "status": "proved",
   "theorems": [
    "C67_spin_z",
    "C67_ladders",
    "C67_spin_squared",
    "C67_algebra",
    "C67_high_spin",
    "C67_odd"
   ],
   "note": "Exact-arithmetic model; the odd case is characterized (operators of one qubit more)."
  },
  {
   "property": "C68",
   "status": "proved",
   "theorems": [
    "C68_symmetry_check",
    "C68_weights_total",
    "C68_variances"
   ],
   "note": "Exact reals: the code's comparison imag != 0 on floating-point values is modelled exactly; the dictionary keyed by floats is modelled with integers (the floats are exact multiples of 1/4). Odd registers are outside the statement."
  },
  {
   "property": "C69",
   "status": "proved",
   "theorems": [
    "C69_matrix_element",
    "C69_perfect_average",
    "C69_sampled_average_bounded",
    "C69_eigenstate_average_exact"
   ],
   "note": "compute_operator_matrix_element, Experiment.perfect_experimental_avg, experimental_avg (bound, eigenstates)"
  },
  {
   "property": "C70",
   "status": "partial",
   "theorems": [
    "C70_krylov_states",
    "C70_matrices",
    "C70_completes_partial",
    "C70_variational_partial",
    "C70_excited_root_refuted"
   ],
   "note": "matrices for every run that returns; variational and completion theorems assume scipy.linalg.eig returns orthonormal eigenvectors of S with the dropped eigenvalues last (otherwise C48 shows the solver pairs the wrong columns); refuted: target_root >= 1 with the default diagonalize_each_step=True raises IndexError at the first step"
  },
  {
   "property": "C71",
   "status": "proved",
   "theorems": [
    "C71_matrix_element",
    "C71_realistic_matrices",
    "C71_modes_agree"
   ],
   "note": "Hadamard-test circuits with multiplexed/controlled evolution modelled gate by gate; ideal expectation readout (Re/Im of sigma+)."
  },
  {
   "property": "C72",
   "status": "partial",
   "theorems": [
    "C72_exponential_exists",
    "C72_matrices_partial",
    "C72_completes_partial",
    "C72_variational_partial",
    "C72_realistic_raises",
    "C72_one_state_raises",
    "C72_narrow_hamiltonian_raises",
    "C72_documented_times_refuted"
   ],
   "note": "expm_multiply is an oracle whose contract is the exponential series (proved satisfiable). Refuted: the times are m*dt/s, not m*dt as documented (C72_documented_times_refuted); s = 0 and Hamiltonians not touching the last qubit raise ValueError. Matrices proved exactly for the times m*dt/s when no partial sum of the Hamiltonian has a matrix element that is tiny but non-zero; variational/completion theorems under the eig contract of C70."
  },
  {
   "property": "C73",
   "status": "proved",
   "theorems": [
    "C73_run_completes",
    "C73_exact_run",
    "C73_common_eigenstate",
    "C73_state",
    "C73_evolution_defined",
    "C73_readouts",
    "C73_distribution",
    "C73_success_probability",
    "C73_nearest_phase"
   ],
   "note": "exact state, readouts in both modes, distribution over any orthogonal spectral decomposition of the reference, success_prob and 4/pi^2 bounds, exact runs; sampling itself (the random draws) and success_prob > 1 are outside the model"
  },
  {
   "property": "C74",
   "status": "partial",
   "theorems": [
    "C74_energy_closest",
    "C74_energy_recovered",
    "C74_documented_window_refuted",
    "C74_majority",
    "C74_bitwise_average_refuted",
    "C74_raises"
   ],
   "note": "proved: the chosen energy is the closest candidate, it is the right one within pi/|t| of the guess, a strict majority readout is reported by both estimates, the exceptions; refuted: the documented window of 2 pi/t (only pi/t is correct), and the bitwise average can be a readout that never occurred"
  },
  {
   "property": "C75",
   "status": "partial",
   "theorems": [
    "C75_step",
    "C75_energy_change",
    "C75_energy_decrease",
    "C75_complete_pool",
    "C75_complete_pool_limit",
    "C75_cqoy_pool",
    "C75_unknown_pool",
    "C75_excitation_pools",
    "C75_gsd_pool",
    "C75_run",
    "C75_zero_step_raises",
    "C75_zero_gap_raises",
    "C75_realistic_raises",
    "C75_negative_norm_stalls_refuted"
   ],
   "note": "Proved for 1 - 2 db E > 0 (guaranteed for whole runs when 2|db| times the coefficient sum of H is below 1) and a least squares solver that returns a minimiser. Refuted without it: when 1 - 2 db E < 0 the code takes the square root of a negative number; with sparseSb the nan entries are silently filtered out, the state does not move and the same energy is recorded again, without sparseSb lstsq raises. 1 - 2 db E = 0 is not modelled. FitsInt bounds the excitation pools (31 occupied, 64 orbitals)."
  },
  {
   "property": "C76",
   "status": "partial",
   "theorems": [
    "C76_matrices",
    "C76_completes_partial",
    "C76_variational_partial"
   ],
   "note": "Matrices proved for every run that returns; completion and the variational bound when the dropped overlap eigenvalues come last in the eigensolver's output (as in C48/C70) and the eigensolver is correct."
  },
  {
   "property": "C77",
   "status": "partial",
   "theorems": [
    "C77_build_circuit_partial",
    "C77_controlled_rotation_refuted",
    "C77_missing_target_raises",
    "C77_white_space",
    "C77_signed_qubit",
    "C77_build_operator_partial",
    "C77_empty_operator_refuted",
    "C77_tfim",
    "C77_tfim_reference",
    "C77_system_factory"
   ],
   "note": "The form label_target_control_parameter (cR, cRz, A) never parses although make_gate has such gates (C77_controlled_rotation_refuted); build_operator of the empty string raises instead of giving the empty operator (C77_empty_operator_refuted). float() and complex() of a string are oracles."
  },
  {
   "property": "C78",
   "status": "partial",
   "theorems": [
    "C78_space",
    "C78_rank_rejected",
    "C78_reference_symmetry_refuted",
    "C78_energies",
    "C78_limit",
    "C78_default_step",
    "C78_zero_step",
    "C78_corrections_partial"
   ],
   "note": "C78_space: the determinants, denominators and determinant energies, exactly. C78_energies and C78_corrections_partial: both corrected energies within error_bound (vanishing with dt, C78_limit) of the exact ones, for every ansatz of operators that compile to their exponential. C78_rank_rejected, C78_zero_step. C78_reference_symmetry_refuted: with a reference of another symmetry the space has no determinant of that symmetry. Missing: ranks above 19, zero denominators, sa_SD pools, rounding."
  },
  {
   "property": "C79",
   "status": "partial",
   "theorems": [
    "C79_residuals_partial",
    "C79_length_mismatch",
    "C79_selection_partial",
    "C79_convergence_partial"
   ],
   "note": "C79_residuals_partial, C79_selection_partial, C79_convergence_partial for every pool C46_pool builds; the operators of the ansatz are at most sixfold excitations with representable amplitudes (C62). C79_length_mismatch. Missing: ranks above 6 in the ansatz (19 in the pool), finite M_omega, rounding (the test for an exactly zero imaginary part)."
  },
  {
   "property": "C80",
   "status": "partial",
   "theorems": [
    "C80_selection_partial",
    "C80_phase_selection_partial",
    "C80_succeeds_partial",
    "C80_name_error_refuted",
    "C80_raises",
    "C80_phase_conjugate_refuted",
    "C80_truncated_refuted",
    "C80_srqk_states"
   ],
   "note": "C80_selection_partial, C80_phase_selection_partial, C80_succeeds_partial, C80_raises. Refuted: C80_name_error_refuted (initial_ref is undefined), C80_phase_conjugate_refuted, C80_truncated_refuted. Missing: rounding; more than 64 qubits."
  },
  {
   "property": "C81",
   "status": "partial",
   "theorems": [
    "C81_references_partial",
    "C81_orthonormal_partial",
    "C81_heaviest_partial",
    "C81_raises",
    "C81_importance_refuted",
    "C81_completes_partial"
   ],
   "note": "C81_references_partial, C81_orthonormal_partial, C81_heaviest_partial (configurations of equal size with even coefficients), C81_completes_partial, C81_raises. Refuted: C81_importance_refuted. Missing: division by a zero weight (nan in numpy), S^2 of the references (a property of the eigenvector scipy returns)."
  },
  {
   "property": "C82",
   "status": "partial",
   "theorems": [
    "C82_states",
    "C82_matrices",
    "C82_completes_partial",
    "C82_variational_partial",
    "C82_excited_root_refuted",
    "C82_vacuum_refuted",
    "C82_whole_run_partial"
   ],
   "note": "C82_states, C82_matrices, C82_completes_partial, C82_variational_partial for given references, C82_whole_run_partial for a run with spin adapted references. Refuted: C82_excited_root_refuted, C82_vacuum_refuted. Missing: overlap eigenvalues dropped in the middle of the list (as in C48), rounding."
  },
  {
   "property": "C83",
   "status": "proved",
   "theorems": [
    "C83_full_hamiltonian",
    "C83_frozen_orbitals",
    "C83_frozen_overlaps",
    "C83_determinant_energies",
    "C83_closed_shell_energy"
   ],
   "note": "psi4 is not modelled: its integrals are arbitrary functions with the symmetries of real orbitals; exact real arithmetic"
  },
  {
   "property": "C84",
   "status": "proved",
   "theorems": [
    "C84_normal_form_unique",
    "C84_jordan_wigner_real_hermitian",
    "C84_molecular_hamiltonian"
   ],
   "note": "operators with repeated creators or annihilators (which jw_transform mishandles, see C30) are excluded; the adapter never produces them"
  },
  {
   "property": "C85",
   "status": "proved",
   "theorems": [
    "C85_external_hamiltonian",
    "C85_external_same_as_molecule",
    "C85_external_pauli",
    "C85_external_reference",
    "C85_hf_reference"
   ],
   "note": "json reading and point-group labels are not modelled; files with repeated indices p = q or r = s are excluded from the Pauli form theorem"
  },
  {
   "property": "C86",
   "status": "partial",
   "theorems": [
    "C86_irrep",
    "C86_spqe_pool_symmetry",
    "C86_penalized_hamiltonian",
    "C86_meaning_of_penalties",
    "C86_target_states_keep_their_energy",
    "C86_penalties_do_not_lower_energies",
    "C86_penalty_refused",
    "C86_negligible_term_refuted",
    "C86_occupation_list",
    "C86_circuit",
    "C86_computer",
    "C86_other_arguments_refused",
    "C86_idle_qubits_refused"
   ],
   "note": "Acceptance and starting state proved for every argument; penalised Hamiltonian proved equal to H + sum s_i (O_i - e_i)^2 up to an explicit bound from the dropped terms, Hermitian and real, for penalty operators that are simplified (as jw_transform returns them). For an operator with a term below 1e-12 the square is formed with different factors and need not be Hermitian (refuted theorem). The irrep argument and the symmetry of the SPQE pool are proved for every supported group."
  },
  {
   "property": "C87",
   "status": "partial",
   "theorems": [
    "C87_vqe_energy_partial",
    "C87_vqe_not_above_reference",
    "C87_objective_and_gradient_partial",
    "C87_jacobi_converged",
    "C87_jacobi_counts",
    "C87_vqe_counts",
    "C87_slow_mode_refuted",
    "C87_slow_mode_name_error",
    "C87_gradient_free_spelling_refuted",
    "C87_gradient_free",
    "C87_threshold",
    "C87_threshold_spelling_refuted",
    "C87_summary_file_refuted",
    "C87_optimizer_case"
   ],
   "note": "Amplitudes must be admissible (thresholds in gate construction), exact reals, scipy's minimize by contract. Refuted: slow mode always raises (NameError); gradient-free methods in scipy's spelling keep analytic gradients and end in AttributeError; the threshold is dropped for lower-case names; the summary file raises after the second iteration."
  },
  {
   "property": "C88",
   "status": "partial",
   "theorems": [
    "C88_pqe_energy_partial",
    "C88_residuals_not_worse_partial",
    "C88_jacobi_converged",
    "C88_zero_residuals",
    "C88_dispatch",
    "C88_slow_mode_refuted",
    "C88_summary_file",
    "C88_counts",
    "C88_run_succeeds_partial",
    "C88_zero_residuals_eigenstate_partial",
    "C88_eigenstate_zero_residuals_partial",
    "C88_optimizer_case"
   ],
   "note": "Amplitudes must be admissible (thresholds in gate construction), exact reals, scipy's minimize by contract, moment corrections off; the eigenstate theorem also needs a pool that reaches every determinant of the reference's electron number and a number-conserving Hamiltonian (for the pools fill_pool builds see C93). Refuted: slow mode always raises."
  },
  {
   "property": "C89",
   "status": "proved",
   "theorems": [
    "C89_excitation_pools",
    "C89_gsd_pool",
    "C89_sa_pool",
    "C89_molecular_hamiltonian"
   ],
   "note": "All pools fill_pool builds, both circuit branches and both kinds of excitations; amplitudes zero or above 1e-8 in the Trotterised branch (C62). The Hamiltonian statement is about the fermionic operator, before the Jordan-Wigner transform drops terms below 1e-12."
  },
  {
   "property": "C90",
   "status": "partial",
   "theorems": [
    "C90_history_partial",
    "C90_energy_partial",
    "C90_converged_partial",
    "C90_never_worse_partial",
    "C90_counts",
    "C90_ham_count",
    "C90_jacobi_ham_count_refuted",
    "C90_commutator_count",
    "C90_slow_mode_refuted",
    "C90_summary_file_refuted",
    "C90_converged_reference_refuted",
    "C90_run_succeeds_partial",
    "C90_optimizer_case"
   ],
   "note": "Proved: the history of a run, its energy and variational bound, monotone energies, convergence, counts, success. Partial: amplitudes with which the generated circuit is an exact product of exponentials; minimizers that return a point with its value. Refuted parts: a reference that is already converged raises IndexError; slow mode; summary file with two optimizer iterations; Hamiltonian count doubles when asked again and is 0 for Jacobi; the gradients of the last test are not counted."
  },
  {
   "property": "C91",
   "status": "partial",
   "theorems": [
    "C91_optimizer_case",
    "C91_slow_mode_refuted",
    "C91_history_partial",
    "C91_energy_partial",
    "C91_converged_partial",
    "C91_counts",
    "C91_converged_reference_refuted",
    "C91_run_succeeds_partial"
   ],
   "note": "Proved of complete runs (M_omega = inf, no moment corrections): pool, history of macro-iterations, the reported energies and their variational bound for usable amplitudes, convergence up to an explicit time-step error, iteration limit, counts, and that the run returns when the optimizer succeeds and the reference is not converged. Refuted: a converged reference raises IndexError, the slow mode never returns. Missing: amplitudes with small nonzero angles (dropped by the exponentiation threshold), finite M_omega, floating-point rounding; scipy is an oracle with a stated contract."
  },
  {
   "property": "C92",
   "status": "partial",
   "theorems": [
    "C92_commutator_gradients_partial",
    "C92_slow_mode_refused",
    "C92_option_ignored",
    "C92_qubit_excitations_refuted"
   ],
   "note": "Proved for fermionic operators, serially and with any thread schedule (Hamiltonian with an even number of Y in every string); the commutators are proved Hermitian, so the assertion passes. For qubit excitations refuted: fill_commutator_pool ignores the option and always uses the Jordan-Wigner fermionic operators; an example returns -2 where the slope is +2."
  },
  {
   "property": "C93",
   "status": "partial",
   "theorems": [
    "C93_sector_variance_partial",
    "C93_variance_partial",
    "C93_eigenstate_partial",
    "C93_energy_error_partial",
    "C93_converged_run_partial",
    "C93_molecule_partial",
    "C93_optimizer_run_partial"
   ],
   "note": "Equality of the squared residual norm with the energy variance, the equivalence with eigenstates, the energy error bound and the converged run are proved for every full pool of the six types. Partial: amplitudes must be admissible (thresholds in gate construction), exact reals; references filled from below (for others the pool is incomplete, C32). For the molecular Hamiltonian of create_psi_mol (symmetry-adapted real integrals) the bounds hold for the electronic Hamiltonian itself, up to the terms below 1e-12 that jw_transform drops (C93_molecule_partial). Complete runs with a scipy optimizer: the variance of the final state is at most that of the reference (C93_optimizer_run_partial)."
  },
  {
   "property": "C94",
   "status": "partial",
   "theorems": [
    "C94_molecule_partial",
    "C94_sector_variance_partial",
    "C94_variance_partial",
    "C94_eigenstate_partial",
    "C94_split_sector_partial",
    "C94_split_partial",
    "C94_run_sector_partial",
    "C94_run_partial",
    "C94_energy_error_partial"
   ],
   "note": "ideal reals; dt-dependent error of the measured residuals stated explicitly; final residuals of the ansatz operators appear in the bound and are not bounded by opt_thresh for every optimizer (C91); stated for fast=True and non-sa_SD pools as in C91 Without the assumption that the qubit Hamiltonian keeps the sector: C94_run_sector_partial, and C94_molecule_partial for the electronic Hamiltonian of a molecule."
  },
  {
   "property": "C95",
   "status": "partial",
   "theorems": [
    "C95_gate_partial",
    "C95_circuit_partial",
    "C95_circuit_text",
    "C95_gate_text",
    "C95_plain_circuit",
    "C95_number",
    "C95_repr_text",
    "C95_repr_partial",
    "C95_operator_text",
    "C95_operator_partial",
    "C95_sq_text",
    "C95_sq_operator",
    "C95_pool_text",
    "C95_pool_partial",
    "C95_qubit_pool_text",
    "C95_qubit_pool_partial",
    "C95_state_text",
    "C95_state_partial",
    "C95_gate_parameter_refuted",
    "C95_controlled_gate_refuted",
    "C95_small_amplitude_refuted",
    "C95_roundtrip_refuted"
   ],
   "note": "C95_repr_text and C95_repr_partial: repr determines the matrix to six decimals. C95_gate_text, C95_circuit_text, C95_operator_text, C95_sq_text and C95_state_text and C95_pool_text give the exact texts; C95_pool_partial and C95_qubit_pool_partial (with texts C95_pool_text, C95_qubit_pool_text) say that equal text of two SQ or qubit pools means equal operators in order up to rounding of coefficients; C95_gate_partial and C95_circuit_partial say that the text of gates and circuits is exactly label, target and control; C95_plain_circuit gives equal circuits for parameterless gates; C95_operator_partial, C95_sq_operator and C95_state_partial give coefficients, circuits, ladder operators and shown basis states (amplitudes to six decimals), for every formatter that prints a sign and |x| rounded to six decimals. Not recoverable from the text, with proved counterexamples: parameters, controlled matrices, amplitudes below the threshold (C95_*_refuted); the text is never accepted by build_circuit (C95_roundtrip_refuted)."
  },
  {
   "property": "C96",
   "status": "partial",
   "theorems": [
    "C96_circuit",
    "C96_operator",
    "C96_computer_partial",
    "C96_computer_refuted"
   ],
   "note": "C96_circuit and C96_operator give the exact output. False for computers: \"\\n\".join(Inputobj.str()) iterates over the characters, so every character gets its own line and the text of the state is never printed (C96_computer_refuted, C96_computer_partial). str of a complex number is an oracle."
  },
  {
   "property": "C97",
   "status": "proved",
   "theorems": [
    "C97_vector_map",
    "C97_vector_get",
    "C97_matrix_map",
    "C97_matrix_get",
    "C97_history"
   ],
   "note": "all histories of set_element; std::map is the list of its pairs in increasing key order."
  }
 ]
}