(** Property theorems C01-C08, C11, C26 (simulator, gates, adjoints). *)
From Coq Require Import Reals String List Arith Lia Bool Lra.
From Verif Require Import CBase Result Bits Spec GateModel ComputerModel ApplyProofs SafeProofs GateProofs LibProofs CleanProofs SimProofs Textbook TextbookProofs.
Import ListNotations.

(** C01.  Any one-qubit library gate acts as its matrix on its qubit.  [sharp g]: no
    matrix entry has a modulus in (0,1e-16] and the matrix is not a phase (other than 1)
    times X; see C01_Rx_pi_refuted for why it is needed. *)
Theorem C01_one_qubit_gate_action_partial : forall q g,
  wf_computer q -> library_gate g -> sharp g ->
  gtarget g = gcontrol g -> gtarget g < nqubit q ->
  exists q', apply_gate q g = Ok q' /\ nqubit q' = nqubit q /\ length (coeff q') = 2 ^ nqubit q /\
    (forall I, amp (coeff q') I = act1 (gmat g) (gtarget g) (amp (coeff q)) I) /\
    none_ops q' = S (none_ops q) /\ ntwo_ops q' = ntwo_ops q /\ wf_computer q'.
Proof. exact one_qubit_action. Qed.
Print Assumptions C01_one_qubit_gate_action_partial.

(** Every label except Rx, Ry and A gives sharp gates whatever the parameter. *)
Theorem C01_sharp_unless_Rx_Ry_A : forall type t c x g,
  no_angle_condition type = true -> make_gate type t c x = Ok g -> sharp g.
Proof. exact no_angle_sharp. Qed.
Print Assumptions C01_sharp_unless_Rx_Ry_A.

(** Rx, Ry, A are sharp when sine and cosine are 0 or above the threshold (and, for Rx,
    the cosine is not exactly 0). *)
Theorem C01_sharp_angles : forall ty p g, std_gate ty p g -> sharp_type ty p -> sharp g.
Proof. exact sharp_std. Qed.
Print Assumptions C01_sharp_angles.

(** In exact arithmetic the unrestricted claim fails: Rx(pi) is applied as X. *)
Theorem C01_Rx_pi_refuted :
  exists g q', make_gate "Rx" 0 0 PI = Ok g /\ apply_gate (new_computer 1) g = Ok q' /\
    amp (coeff q') 1%nat = C1 /\ gate_act g (amp (coeff (new_computer 1))) 1%nat = (- Ci)%C.
Proof. exact Rx_pi_swaps. Qed.
Print Assumptions C01_Rx_pi_refuted.

Example C01_nonvacuous : exists g, make_gate "H" 1 1 0 = Ok g /\ wf_computer (new_computer 3) /\
  library_gate g /\ sharp g /\ gtarget g = gcontrol g /\ gtarget g < nqubit (new_computer 3).
Proof.
  eexists; split; [reflexivity|]. split; [apply new_computer_wf|]. split; [apply (lib_make "H" 1 1 0); reflexivity|].
  split; [apply (no_angle_sharp "H" 1 1 0); reflexivity|]. simpl; lia.
Qed.

(** The matrix is the textbook one for the label and the angle passed by the user
    (Textbook.v), so the simulator applies the textbook gate. *)
Theorem C01_textbook_gate_applied_partial : forall type t x g q,
  make_gate type t t x = Ok g -> sharp g -> wf_computer q -> t < nqubit q ->
  exists U q', textbook1 type x = Some U /\ apply_gate q g = Ok q' /\ nqubit q' = nqubit q /\
    forall I, amp (coeff q') I =
      (U (bit I t) false * amp (coeff q) (upd I t false) + U (bit I t) true * amp (coeff q) (upd I t true))%C.
Proof. exact one_qubit_textbook. Qed.
Print Assumptions C01_textbook_gate_applied_partial.
Theorem C01_textbook_matrix : forall type t x g, make_gate type t t x = Ok g ->
  exists U, textbook1 type x = Some U /\ forall a b, gmat g (b2n a) (b2n b) = U a b.
Proof. exact make_textbook1. Qed.
Print Assumptions C01_textbook_matrix.
Example C01_textbook_nonvacuous : exists g, make_gate "V" 1 1 0 = Ok g /\ sharp g /\ 1 < nqubit (new_computer 3).
Proof. eexists; split; [reflexivity|]. split; [apply (no_angle_sharp "V" 1 1 0); reflexivity|]. simpl; lia. Qed.

(** C02 *)
Theorem C02_two_qubit_gate_action_partial : forall q g,
  wf_computer q -> library_gate g -> sharp g ->
  gtarget g <> gcontrol g -> gtarget g < nqubit q -> gcontrol g < nqubit q ->
  exists q', apply_gate q g = Ok q' /\ nqubit q' = nqubit q /\ length (coeff q') = 2 ^ nqubit q /\
    (forall I, amp (coeff q') I = act2 (gmat g) (gtarget g) (gcontrol g) (amp (coeff q)) I) /\
    none_ops q' = none_ops q /\ ntwo_ops q' = S (ntwo_ops q) /\ wf_computer q'.
Proof. exact two_qubit_action. Qed.
Print Assumptions C02_two_qubit_gate_action_partial.

Example C02_nonvacuous : exists g, make_gate "cV" 2 0 0 = Ok g /\ wf_computer (new_computer 3) /\
  library_gate g /\ sharp g /\ gtarget g <> gcontrol g /\ gtarget g < nqubit (new_computer 3) /\ gcontrol g < nqubit (new_computer 3).
Proof.
  eexists; split; [reflexivity|]. split; [apply new_computer_wf|]. split; [apply (lib_make "cV" 2 0 0); reflexivity|].
  split; [apply (no_angle_sharp "cV" 2 0 0); reflexivity|]. simpl; lia.
Qed.

Theorem C02_textbook_gate_applied_partial : forall type t c x g q,
  t <> c -> make_gate type t c x = Ok g -> sharp g -> wf_computer q -> t < nqubit q -> c < nqubit q ->
  exists U q', textbook2 type x = Some U /\ apply_gate q g = Ok q' /\ nqubit q' = nqubit q /\
    forall I, amp (coeff q') I =
     (U (bit I c) (bit I t) false false * amp (coeff q) (upd (upd I c false) t false)
    + U (bit I c) (bit I t) false true * amp (coeff q) (upd (upd I c false) t true)
    + U (bit I c) (bit I t) true false * amp (coeff q) (upd (upd I c true) t false)
    + U (bit I c) (bit I t) true true * amp (coeff q) (upd (upd I c true) t true))%C.
Proof. exact two_qubit_textbook. Qed.
Print Assumptions C02_textbook_gate_applied_partial.
Theorem C02_textbook_matrix : forall type t c x g, t <> c -> make_gate type t c x = Ok g ->
  exists U, textbook2 type x = Some U /\
    forall ac at_ bc bt, gmat g (2 * b2n ac + b2n at_) (2 * b2n bc + b2n bt) = U ac at_ bc bt.
Proof. exact make_textbook2. Qed.
Print Assumptions C02_textbook_matrix.
(** control_gate(c, U) applies U exactly when qubit c is set (one-qubit U) *)
Theorem C02_control_gate : forall c U g psi I, gnqubits U = 1 -> make_control_gate c U = Ok g ->
  gtarget g = gtarget U /\ gcontrol g = c /\
  gate_act g psi I = if bit I c then gate_act U psi I else psi I.
Proof. exact control_gate_act. Qed.
Print Assumptions C02_control_gate.
Example C02_control_nonvacuous : exists U g, make_gate "H" 1 1 0 = Ok U /\ gnqubits U = 1 /\ make_control_gate 0 U = Ok g.
Proof. do 2 eexists; split; [reflexivity|]. split; reflexivity. Qed.

(** C03 *)
Theorem C03_fast_equals_reference_partial : forall q gs,
  wf_computer q -> Forall library_gate gs -> Forall sharp gs -> Forall (in_range (nqubit q)) gs ->
  exists q', apply_circuit q gs = Ok q' /\ apply_circuit_safe q gs = Ok q' /\
    (forall I, amp (coeff q') I = circ_act gs (amp (coeff q)) I) /\ wf_computer q'.
Proof. exact fast_safe_agree. Qed.
Print Assumptions C03_fast_equals_reference_partial.

Example C03_nonvacuous : exists g1 g2, make_gate "H" 0 0 0 = Ok g1 /\ make_gate "cX" 1 0 0 = Ok g2 /\
  Forall library_gate [g1; g2] /\ Forall sharp [g1; g2] /\ Forall (in_range (nqubit (new_computer 2))) [g1; g2].
Proof.
  eexists; eexists; split; [reflexivity|]. split; [reflexivity|].
  split; [|split].
  - constructor; [apply (lib_make "H" 0 0 0); reflexivity|]. constructor; [apply (lib_make "cX" 1 0 0); reflexivity|constructor].
  - constructor; [apply (no_angle_sharp "H" 0 0 0); reflexivity|].
    constructor; [apply (no_angle_sharp "cX" 1 0 0); reflexivity|constructor].
  - repeat constructor.
Qed.

(** C04: refuted for target = n (every n): memory outside the vector is accessed. *)
Theorem C04_target_n_out_of_bounds_refuted : forall n q g,
  wf_computer q -> nqubit q = n -> make_gate "X" n n 0 = Ok g -> apply_gate q g = Throw UB_oob.
Proof. exact target_n_oob. Qed.
Print Assumptions C04_target_n_out_of_bounds_refuted.
(** the part that holds: a one-qubit gate above index n is silently ignored *)
Theorem C04_target_above_n_ignored_partial : forall q g,
  wf_computer q -> gtarget g = gcontrol g -> nqubit q < gtarget g ->
  exists q', apply_gate q g = Ok q' /\ coeff q' = coeff q.
Proof. exact target_above_noop. Qed.
Print Assumptions C04_target_above_n_ignored_partial.

(** C05 *)
Theorem C05_library_gates_unitary : forall g, library_gate g ->
  unitary (if gtarget g =? gcontrol g then 2 else 4) (gmat g).
Proof. exact library_unitary. Qed.
Print Assumptions C05_library_gates_unitary.
Theorem C05_make_gate_accepts_exactly_the_labels : forall type t c x,
  if in_dec String.string_dec type (if t =? c then one_qubit_labels else two_qubit_labels)
  then exists g, make_gate type t c x = Ok g /\ glabel g = type /\ gtarget g = t /\ gcontrol g = c
  else make_gate type t c x = Throw InvalidArg.
Proof. exact make_gate_accepts. Qed.
Print Assumptions C05_make_gate_accepts_exactly_the_labels.

(** C06: the specification of gates preserves inner products, and so does the simulator *)
Theorem C06_circuits_preserve_inner_products : forall n gs a b,
  Forall library_gate gs -> Forall (in_range n) gs ->
  inner n (circ_act gs a) (circ_act gs b) = inner n a b.
Proof. exact circ_preserves_inner. Qed.
Print Assumptions C06_circuits_preserve_inner_products.
Theorem C06_simulator_preserves_norm_partial : forall q gs,
  wf_computer q -> Forall library_gate gs -> Forall sharp gs -> Forall (in_range (nqubit q)) gs ->
  exists q', apply_circuit q gs = Ok q' /\
    inner (nqubit q) (amp (coeff q')) (amp (coeff q')) = inner (nqubit q) (amp (coeff q)) (amp (coeff q)).
Proof. exact circuit_norm. Qed.
Print Assumptions C06_simulator_preserves_norm_partial.

(** C07 *)
Theorem C07_adjoint_matrix : forall g, library_gate g ->
  meq 4 (gmat (gate_adjoint g)) (madj (gmat g)) /\
  gtarget (gate_adjoint g) = gtarget g /\ gcontrol (gate_adjoint g) = gcontrol g.
Proof. intros g H. split; [exact (adjoint_matrix g H)|exact (adjoint_qubits g)]. Qed.
Print Assumptions C07_adjoint_matrix.
Theorem C07_adjoint_undoes_gate : forall g psi, library_gate g ->
  gate_act (gate_adjoint g) (gate_act g psi) == psi /\ gate_act g (gate_act (gate_adjoint g) psi) == psi.
Proof. exact adjoint_undoes. Qed.
Print Assumptions C07_adjoint_undoes_gate.
(** the adjoint of a rotation carries the parameter its matrix is built from *)
Theorem C07_adjoint_is_library_gate : forall ty p g, std_gate ty p g ->
  exists ty' p', std_gate ty' p' (gate_adjoint g).
Proof. exact std_adjoint. Qed.
Print Assumptions C07_adjoint_is_library_gate.

(** C08 *)
Theorem C08_circuit_adjoint_undoes : forall gs psi, Forall library_gate gs ->
  circ_act (circuit_adjoint gs) (circ_act gs psi) == psi /\ circ_act gs (circ_act (circuit_adjoint gs) psi) == psi.
Proof. exact circuit_adjoint_undoes. Qed.
Print Assumptions C08_circuit_adjoint_undoes.
Theorem C08_circuit_adjoint_is_adjoint : forall n gs a b,
  Forall library_gate gs -> Forall (in_range n) gs ->
  inner n a (circ_act gs b) = inner n (circ_act (circuit_adjoint gs) a) b.
Proof. exact circ_inner_adjoint. Qed.
Print Assumptions C08_circuit_adjoint_is_adjoint.
Example C08_nonvacuous : exists g1 g2, make_gate "Ry" 0 0 (1/3) = Ok g1 /\ make_gate "A" 1 0 2 = Ok g2 /\
  Forall library_gate [g1; g2] /\ Forall (in_range 2) [g1; g2].
Proof.
  eexists; eexists; split; [reflexivity|]. split; [reflexivity|].
  split; [|repeat constructor].
  constructor; [apply (lib_make "Ry" 0 0 (1/3)); reflexivity|]. constructor; [apply (lib_make "A" 1 0 2); reflexivity|constructor].
Qed.

(** C11 *)
Theorem C11_parameter_normalised : forall type t c x g v b,
  make_gate type t c x = Ok g -> gparam g = Some (v, b) ->
  exists (k : Z), let T := (if (String.eqb type "R" || String.eqb type "cR" || String.eqb type "A")%bool then 2 * PI else 4 * PI)%R in
    (v = x - T * IZR k /\ - T / 2 <= v <= T / 2)%R /\ gmat g = type_mat (mapLabelToType type) x.
Proof. exact make_gate_param. Qed.
Print Assumptions C11_parameter_normalised.
Theorem C11_normalisation_idempotent : forall x p,
  (0 < p)%R -> (- p / 2 <= x <= p / 2)%R -> normalize_angle x p = x.
Proof. exact normalize_angle_id. Qed.
Print Assumptions C11_normalisation_idempotent.
Example C11_nonvacuous : exists g v b, make_gate "Rz" 0 0 100 = Ok g /\ gparam g = Some (v, b).
Proof. do 3 eexists; split; reflexivity. Qed.

(** C26 *)
Theorem C26_new_computer : forall n, wf_computer (new_computer n) /\ nqubit (new_computer n) = n /\
  forall I, amp (coeff (new_computer n)) I = ket 0 I.
Proof. intros n. split; [exact (new_computer_wf n)|]. split; [reflexivity|exact (new_computer_ket0 n)]. Qed.
Print Assumptions C26_new_computer.
Theorem C26_reset : forall q, wf_computer q -> exists q', reset q = Ok q' /\
  (forall I, amp (coeff q') I = ket 0 I) /\ nqubit q' = nqubit q /\ wf_computer q'.
Proof. exact reset_ket0. Qed.
Print Assumptions C26_reset.
Theorem C26_null_state : forall q I, amp (coeff (null_state q)) I = C0.
Proof. exact null_state_zero. Qed.
Print Assumptions C26_null_state.
Theorem C26_set_state : forall q l, wf_computer q -> Forall (fun p => fst p < 2 ^ nqubit q) l ->
  exists q', set_state q l = Ok q' /\ (forall I, amp (coeff q') I = last_entry l I) /\
    nqubit q' = nqubit q /\ wf_computer q' /\ none_ops q' = none_ops q /\ ntwo_ops q' = ntwo_ops q.
Proof. exact set_state_spec. Qed.
Print Assumptions C26_set_state.
(** outside the property's range: no check is made *)
Theorem C26_set_state_out_of_range : forall q l p,
  wf_computer q -> In p l -> 2 ^ nqubit q <= fst p -> set_state q l = Throw UB_oob.
Proof. exact set_state_oob. Qed.
Print Assumptions C26_set_state_out_of_range.
Example C26_nonvacuous : Forall (fun p => fst p < 2 ^ nqubit (new_computer 2)) [(0, C1); (3, Ci); (0, C0)].
Proof. repeat constructor; simpl; lia. Qed.
