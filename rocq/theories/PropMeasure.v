(** Property theorems C18, C19, C20, C21, C24, C25, C52 (operators, expectation values, measurements). *)
From Coq Require Import Reals String List Arith Lia Bool Lra Permutation.
From Verif Require Import CBase Result Bits Spec GateModel OpSpec MeasSpec ComputerModel ApplyProofs SafeProofs GateProofs LibProofs CleanProofs SimProofs CircuitModel PauliProofs
  OperatorModel OperatorProofs SparseModel MeasureModel SparseApply MeasureProofs PauliExp MeasReadout PropOperator.
Import ListNotations.

(** ---- vocabulary ---- *)
(** circuits an n-qubit simulator applies exactly (see C01 for [sharp]) *)
Definition Applicable (n : nat) (gs : list gate) : Prop :=
  Forall library_gate gs /\ Forall sharp gs /\ Forall (in_range n) gs.
(** q' is the simulator q with the same register and the same amplitudes *)
Definition Unchanged (q q' : computer) : Prop := nqubit q' = nqubit q /\ coeff q' = coeff q /\ wf_computer q'.
(** the state held by a simulator *)
Definition psi_of (q : computer) : state := amp (coeff q).
(** Pauli string on qubits of an n-qubit register *)
Definition StringOn (n : nat) (gs : list gate) : Prop := PauliString gs /\ Forall (fun g => gtarget g < n) gs.
Definition count_Y (gs : list gate) : nat := length (filter (fun g => String.eqb (glabel g) "Y") gs).

Lemma applicable_ok n gs : Applicable n gs -> term_ok n gs.
Proof. intros (A & B & D). split; [exact D|]. rewrite Forall_forall in *. intros g Hg. apply library_clean; auto. Qed.
Lemma applicable_terms n o : Terms (Applicable n) o -> Forall (fun t => term_ok n (snd t)) o.
Proof. apply Forall_impl. intros t. apply applicable_ok. Qed.
Lemma string_on n gs : StringOn n gs -> Forall pauli_gate gs /\ NoDup (map gtarget gs) /\ Forall (fun g => gtarget g < n) gs.
Proof. intros ((A & B) & D). apply circuit_iff in A. auto. Qed.

Lemma applicable_made n gs : Forall (fun g => exists ty t c x, no_angle_condition ty = true /\ make_gate ty t c x = Ok g) gs -> Forall (in_range n) gs -> Applicable n gs.
Proof.
  intros H HR. split; [|split; [|exact HR]]; eapply Forall_impl; try exact H; intros g (ty & t & c & x & HA & E).
  - eapply lib_make; exact E.
  - eapply no_angle_sharp; eassumption.
Qed.

(** ---- C18 ---- *)
Theorem C18_apply_operator_partial : forall q o, wf_computer q -> Terms (Applicable (nqubit q)) o ->
  exists q', apply_operator q o = Ok q' /\ wf_computer q' /\ nqubit q' = nqubit q /\ psi_of q' == op_act o (psi_of q).
Proof.
  intros q o HQ HO. destruct (apply_operator_ok q o HQ (applicable_terms _ _ HO)) as (q' & E & A & L & N & W & _). exists q'. auto.
Qed.
Print Assumptions C18_apply_operator_partial.
Theorem C18_empty_operator_gives_zero : forall q, wf_computer q ->
  exists q', apply_operator q [] = Ok q' /\ forall I, psi_of q' I = C0.
Proof.
  intros q HQ. destruct (C18_apply_operator_partial q [] HQ (Forall_nil _)) as (q' & E & _ & _ & A). exists q'. split; [exact E|]. intros I. rewrite (A I). reflexivity.
Qed.
Print Assumptions C18_empty_operator_gives_zero.
(** Pauli strings are always applicable *)
Theorem C18_pauli_operator : forall q o, wf_computer q -> Terms PauliCircuit o -> Forall (fun t => Forall (fun g => gtarget g < nqubit q) (snd t)) o ->
  exists q', apply_operator q o = Ok q' /\ wf_computer q' /\ nqubit q' = nqubit q /\ psi_of q' == op_act o (psi_of q).
Proof.
  intros q o HQ HO HR. apply C18_apply_operator_partial; [exact HQ|]. unfold Terms in *. rewrite Forall_forall in *. intros t Ht.
  specialize (HO t Ht). specialize (HR t Ht). unfold PauliCircuit, Applicable in *. rewrite !Forall_forall in *.
  split; [|split]; intros g Hg; destruct (HO g Hg) as (l & u & Hl & E).
  - eapply lib_make; exact E.
  - apply (no_angle_sharp l u u 0); [|exact E]. destruct Hl as [-> | [-> | ->]]; reflexivity.
  - assert (HP : pauli_gate g) by (apply pauli_iff; eauto). pose proof (pauli_gate_1q g HP). specialize (HR g Hg). unfold in_range. lia.
Qed.
Print Assumptions C18_pauli_operator.
Example C18_nonvacuous : exists x h, make_gate "X" 0 0 0 = Ok x /\ make_gate "H" 1 1 0 = Ok h /\
  wf_computer (new_computer 2) /\ Terms (Applicable (nqubit (new_computer 2))) [(Ci, [x; h]); (C1, [])].
Proof.
  eexists. eexists. split; [reflexivity|]. split; [reflexivity|]. split; [apply new_computer_wf|]. constructor; [|constructor; [|constructor]]; apply applicable_made; cbn [snd].
  - constructor; [exists "X"%string, 0, 0, 0%R; split; reflexivity|]. constructor; [exists "H"%string, 1, 1, 0%R; split; reflexivity|constructor].
  - repeat constructor; cbn; lia.
  - constructor.
  - constructor.
Qed.

(** ---- C19: the serial path (library compiled without OpenMP) ---- *)
Theorem C19_direct_op_exp_val_partial : forall q o, wf_computer q -> Terms (Applicable (nqubit q)) o ->
  exists q', direct_op_exp_val None q o = Ok (inner (nqubit q) (psi_of q) (op_act o (psi_of q)), q') /\ Unchanged q q'.
Proof. intros q o HQ HO. exact (direct_op_serial q o HQ (applicable_terms _ _ HO)). Qed.
Print Assumptions C19_direct_op_exp_val_partial.
Theorem C19_direct_circ_exp_val_partial : forall q gs, wf_computer q -> Applicable (nqubit q) gs ->
  exists q', direct_circ_exp_val q gs = Ok (inner (nqubit q) (psi_of q) (circ_act gs (psi_of q)), q') /\ Unchanged q q'.
Proof. intros q gs HQ HO. exact (direct_circ_serial q gs HQ (applicable_ok _ _ HO)). Qed.
Print Assumptions C19_direct_circ_exp_val_partial.
Theorem C19_direct_oppl_exp_val_partial : forall q p, wf_computer q -> Forall (fun t => Terms (Applicable (nqubit q)) (snd t)) p ->
  exists q', direct_oppl_exp_val None q p =
    Ok (map (fun t => (inner (nqubit q) (psi_of q) (op_act (snd t) (psi_of q)) * fst t)%C) p, q') /\ Unchanged q q'.
Proof.
  intros q p HQ HP. unfold direct_oppl_exp_val.
  apply (oppl_ok None (nqubit q) (coeff q) (Terms (Applicable (nqubit q))) (fun o => inner (nqubit q) (psi_of q) (op_act o (psi_of q)))) with (rs := []); auto.
  intros q0 o W N E HO. destruct (C19_direct_op_exp_val_partial q0 o W) as (q1 & E1 & S1); [rewrite N; exact HO|]. exists q1. split; [|exact S1]. rewrite E1. unfold psi_of. rewrite N, E. reflexivity.
Qed.
Print Assumptions C19_direct_oppl_exp_val_partial.
Theorem C19_direct_idxd_oppl_exp_val_partial : forall q p idxs, wf_computer q -> Forall (fun t => Terms (Applicable (nqubit q)) (snd t)) p ->
  Forall (fun i => i < length p) idxs ->
  exists q', direct_idxd_oppl_exp_val None q p idxs =
    Ok (map (fun i => let t := nth i p (C0, []) in (inner (nqubit q) (psi_of q) (op_act (snd t) (psi_of q)) * fst t)%C) idxs, q') /\ Unchanged q q'.
Proof.
  intros q p idxs HQ HP HI. unfold direct_idxd_oppl_exp_val. cbv zeta.
  apply (idxd_ok None (nqubit q) (coeff q) (Terms (Applicable (nqubit q))) (fun o => inner (nqubit q) (psi_of q) (op_act o (psi_of q)))) with (rs := []); auto.
  intros q0 o W N E HO. destruct (C19_direct_op_exp_val_partial q0 o W) as (q1 & E1 & S1); [rewrite N; exact HO|]. exists q1. split; [|exact S1]. rewrite E1. unfold psi_of. rewrite N, E. reflexivity.
Qed.
Print Assumptions C19_direct_idxd_oppl_exp_val_partial.
Theorem C19_direct_oppl_exp_val_w_mults_partial : forall q p mults, wf_computer q ->
  Forall (fun t => Terms (Applicable (nqubit q)) (snd t) /\ length (snd t) <= length mults) p ->
  exists q', direct_oppl_exp_val_w_mults None q p mults =
    Ok (map (fun t => Csum (fun l => let u := nth l (snd t) (C0, []) in
          (nth l mults C0 * fst t * fst u * inner (nqubit q) (psi_of q) (circ_act (snd u) (psi_of q)))%C) (seq 0 (length (snd t)))) p, q') /\ Unchanged q q'.
Proof.
  intros q p mults HQ HP. unfold direct_oppl_exp_val_w_mults. cbv zeta.
  apply (mults_ok None (nqubit q) (coeff q) (Applicable (nqubit q)) (fun gs => inner (nqubit q) (psi_of q) (circ_act gs (psi_of q)))) with (rs := []); auto.
  intros q0 o W N E HO. destruct (C19_direct_circ_exp_val_partial q0 o W) as (q1 & E1 & S1); [rewrite N; exact HO|]. exists q1. split; [|exact S1]. unfold circ_val. rewrite E1. unfold psi_of. rewrite N, E. reflexivity.
Qed.
Print Assumptions C19_direct_oppl_exp_val_w_mults_partial.
Example C19_nonvacuous : exists x h, make_gate "X" 0 0 0 = Ok x /\ make_gate "H" 1 1 0 = Ok h /\
  Forall (fun t => Terms (Applicable (nqubit (new_computer 2))) (snd t) /\ length (snd t) <= length [C1; Ci]) [(Ci, [(Ci, [x; h]); (C1, [])])] /\
  Forall (fun i => i < 1) [0; 0].
Proof.
  destruct C18_nonvacuous as (x & h & E1 & E2 & _ & H). exists x, h. split; [exact E1|]. split; [exact E2|]. split; [|repeat constructor].
  constructor; [|constructor]. split; [exact H|]. cbn. lia.
Qed.

(** ---- C20: the OpenMP path, any schedule ---- *)
(** what it returns: (-1)^(number of Y) times the expectation value, whatever the schedule *)
Fixpoint neg_pow (k : nat) : C := match k with O => C1 | S k => (- neg_pow k)%C end.
Lemma neg_pow_eq k : Cpow_neg k = neg_pow k.
Proof. induction k; cbn; congruence. Qed.
Theorem C20_parallel_value_up_to_sign_partial : forall sched q gs, legal_schedule sched -> wf_computer q -> 1 <= nqubit q -> StringOn (nqubit q) gs ->
  direct_pauli_circ_exp_val sched q gs = Ok (neg_pow (count_Y gs) * inner (nqubit q) (psi_of q) (circ_act gs (psi_of q)))%C.
Proof.
  intros sched q gs HS HQ H1 HG. destruct (string_on _ _ HG) as (A & B & D). rewrite (pauli_exp_val sched q gs HS HQ A B D H1). rewrite neg_pow_eq.
  unfold tgt, count_Y. rewrite map_length. reflexivity.
Qed.
Print Assumptions C20_parallel_value_up_to_sign_partial.
Lemma neg_pow_even k : Nat.even k = true -> neg_pow k = C1.
Proof.
  intros H. apply Nat.even_spec in H. destruct H as [m ->]. induction m as [|m IH]; [reflexivity|]. replace (2 * S m) with (S (S (2 * m))) by lia. cbn [neg_pow]. rewrite IH. ring.
Qed.
Theorem C20_parallel_equals_serial_even_Y_partial : forall sched q gs, legal_schedule sched -> wf_computer q -> 1 <= nqubit q -> StringOn (nqubit q) gs ->
  Nat.even (count_Y gs) = true ->
  direct_pauli_circ_exp_val sched q gs = Ok (inner (nqubit q) (psi_of q) (circ_act gs (psi_of q))).
Proof. intros sched q gs HS HQ H1 HG HE. rewrite C20_parallel_value_up_to_sign_partial by assumption. rewrite neg_pow_even by exact HE. f_equal. ring. Qed.
Print Assumptions C20_parallel_equals_serial_even_Y_partial.
(** independence of the schedule *)
Theorem C20_schedule_irrelevant : forall s1 s2 q gs, legal_schedule s1 -> legal_schedule s2 -> wf_computer q -> 1 <= nqubit q -> StringOn (nqubit q) gs ->
  direct_pauli_circ_exp_val s1 q gs = direct_pauli_circ_exp_val s2 q gs.
Proof. intros. rewrite !C20_parallel_value_up_to_sign_partial by assumption. reflexivity. Qed.
Print Assumptions C20_schedule_irrelevant.
Theorem C20_non_pauli_label_raises : forall sched q g gs, 1 <= nqubit q ->
  ~ (glabel g = "X" \/ glabel g = "Y" \/ glabel g = "Z")%string -> direct_pauli_circ_exp_val sched q (g :: gs) = Throw RuntimeErr.
Proof.
  intros sched q g gs H1 HL. unfold direct_pauli_circ_exp_val. destruct (Nat.eqb_spec (nqubit q) 0); [lia|]. cbn [foreach].
  destruct (String.eqb_spec (glabel g) "Z"); [exfalso; tauto|]. destruct (String.eqb_spec (glabel g) "X"); [exfalso; tauto|]. destruct (String.eqb_spec (glabel g) "Y"); [exfalso; tauto|]. reflexivity.
Qed.
Print Assumptions C20_non_pauli_label_raises.
(** direct_op_exp_val in parallel mode, even number of Y in every term *)
Theorem C20_direct_op_exp_val_even_Y_partial : forall sched q o, legal_schedule sched -> wf_computer q -> 1 <= nqubit q ->
  Terms (fun gs => StringOn (nqubit q) gs /\ Nat.even (count_Y gs) = true) o ->
  direct_op_exp_val (Some sched) q o = Ok (inner (nqubit q) (psi_of q) (op_act o (psi_of q)), q).
Proof.
  intros sched q o HS HQ H1 HO. unfold direct_op_exp_val.
  assert (E : foreach o (fun t result => do x <- direct_pauli_circ_exp_val sched q (snd t); Ok (result + fst t * x)%C) C0 =
     Ok (C0 + Csum (fun t => (fst t * inner (nqubit q) (psi_of q) (circ_act (snd t) (psi_of q)))%C) o)%C).
  { etransitivity; [|apply (foreach_sum (fun t => do x <- direct_pauli_circ_exp_val sched q (snd t); Ok (fst t * x)%C))].
    - apply foreach_ext. intros t acc _. rewrite bind_bind. reflexivity.
    - intros t Ht. unfold Terms in HO. rewrite Forall_forall in HO. destruct (HO t Ht) as [HG HE]. rewrite C20_parallel_equals_serial_even_Y_partial by assumption. reflexivity. }
  rewrite E. cbn [bind]. f_equal. f_equal. rewrite Cadd_0_l. unfold inner at 2, op_act.
  transitivity (Csum (fun I => Csum (fun t => (fst t * (Cconj (psi_of q I) * circ_act (snd t) (psi_of q) I))%C) o) (seq 0 (2 ^ nqubit q))).
  - rewrite Csum_swap. apply Csum_ext. intros t _. unfold inner. rewrite <- Csum_mul_l. reflexivity.
  - apply Csum_ext. intros I _. rewrite <- Csum_mul_l. apply Csum_ext. intros t _. ring.
Qed.
Print Assumptions C20_direct_op_exp_val_even_Y_partial.
(** the full claim fails: one Y *)
Definition C20_claim sched q gs : Prop := direct_pauli_circ_exp_val sched q gs = Ok (inner (nqubit q) (psi_of q) (circ_act gs (psi_of q))).
Definition one_thread : schedule := fun n => [seq 0 n].
Lemma one_thread_legal : legal_schedule one_thread.
Proof. intros n. cbn. rewrite app_nil_r. apply Permutation_refl. Qed.
Theorem C20_single_Y_refuted : exists q g, make_gate "Y" 0 0 0 = Ok g /\ wf_computer q /\ nqubit q = 1 /\ StringOn (nqubit q) [g] /\
  forall sched, legal_schedule sched -> ~ C20_claim sched q [g].
Proof.
  set (q := mkComputer 1 [C1; Ci] [C0; C0] 0 0). eexists q, _. split; [reflexivity|]. split; [split; reflexivity|]. split; [reflexivity|].
  assert (HG : StringOn (nqubit q) [mkGate "Y" 0 0 m_Y None]).
  { split; [split|]; [constructor; [exists "Y"%string, 0; split; [auto|reflexivity]|constructor]|repeat constructor; intros []|repeat constructor]. }
  split; [exact HG|]. intros sched HS HC. unfold C20_claim in HC. rewrite C20_parallel_value_up_to_sign_partial in HC; [|exact HS|split; reflexivity|cbn; lia|exact HG].
  injection HC as HR _. unfold inner, psi_of, circ_act, gate_act, act1, count_Y, amp in HR. cbn in HR. unfold Csum in HR. cbn in HR. lra.
Qed.
Print Assumptions C20_single_Y_refuted.
Example C20_nonvacuous : exists x y, make_gate "X" 0 0 0 = Ok x /\ make_gate "Z" 1 1 0 = Ok y /\ legal_schedule (fun n => [rev (seq 0 n); []]) /\
  StringOn (nqubit (new_computer 2)) [x; y] /\ Nat.even (count_Y [x; y]) = true.
Proof.
  eexists. eexists. split; [reflexivity|]. split; [reflexivity|]. split.
  - intros n. cbn. rewrite !app_nil_r. apply Permutation_sym, Permutation_rev.
  - split; [|reflexivity]. split; [split|].
    + constructor; [exists "X"%string, 0; auto|]. constructor; [exists "Z"%string, 1; auto|constructor].
    + repeat constructor; cbn; intuition discriminate.
    + repeat constructor.
Qed.

(** ---- C21 ---- *)
(** what the code does: it returns 0 and leaves the gate applied *)
Theorem C21_returns_zero_and_applies_gate_partial : forall q g, wf_computer q -> Applicable (nqubit q) [g] ->
  exists q', direct_gate_exp_val q g = Ok (C0, q') /\ psi_of q' == gate_act g (psi_of q).
Proof.
  intros q g HQ H. destruct (applicable_ok _ _ H) as [A B]. apply (gate_exp_zero q g HQ (Forall_inv A) (Forall_inv B)).
Qed.
Print Assumptions C21_returns_zero_and_applies_gate_partial.
Definition C21_claim q g : Prop := exists q', direct_gate_exp_val q g = Ok (inner (nqubit q) (psi_of q) (gate_act g (psi_of q)), q') /\ Unchanged q q'.
Theorem C21_gate_exp_val_refuted : exists g, make_gate "Z" 0 0 0 = Ok g /\ ~ C21_claim (new_computer 1) g.
Proof.
  eexists. split; [reflexivity|]. intros (q' & E & _).
  destruct (C21_returns_zero_and_applies_gate_partial (new_computer 1) (mkGate "Z" 0 0 m_Z None) (new_computer_wf 1)) as (q1 & E1 & _).
  { apply applicable_made; [constructor; [exists "Z"%string, 0, 0, 0%R; split; reflexivity|constructor]|repeat constructor; cbn; lia]. }
  rewrite E1 in E. injection E as H _. unfold inner, psi_of, gate_act, act1, amp in H. cbn in H. unfold Csum in H. cbn in H. lra.
Qed.
Print Assumptions C21_gate_exp_val_refuted.
(** the state is not left as it was either *)
Theorem C21_state_changed_refuted : exists g q', make_gate "X" 0 0 0 = Ok g /\ direct_gate_exp_val (new_computer 1) g = Ok (C0, q') /\ psi_of q' 1 = C1 /\ psi_of (new_computer 1) 1 = C0.
Proof.
  destruct (C21_returns_zero_and_applies_gate_partial (new_computer 1) (mkGate "X" 0 0 m_X None) (new_computer_wf 1)) as (q1 & E1 & H).
  { apply applicable_made; [constructor; [exists "X"%string, 0, 0, 0%R; split; reflexivity|constructor]|repeat constructor; cbn; lia]. }
  exists (mkGate "X" 0 0 m_X None), q1. split; [reflexivity|]. split; [exact E1|]. split; [|reflexivity]. rewrite (H 1). unfold psi_of, gate_act, act1, amp. cbn. apply C_ext; cbn; ring.
Qed.
Print Assumptions C21_state_changed_refuted.

(** ---- C24 ---- *)
Theorem C24_perfect_measure_circuit : forall q gs, wf_computer q -> StringOn (nqubit q) gs ->
  exists r q', perfect_measure_circuit q gs = Ok (r, q') /\ RtoC r = inner (nqubit q) (psi_of q) (circ_act gs (psi_of q)) /\ Unchanged q q'.
Proof. intros q gs HQ HG. destruct (string_on _ _ HG) as (A & B & D). exact (perfect_ok q gs HQ A B D). Qed.
Print Assumptions C24_perfect_measure_circuit.
Example C24_nonvacuous : exists x y, make_gate "Y" 1 1 0 = Ok x /\ make_gate "X" 0 0 0 = Ok y /\ StringOn (nqubit (new_computer 2)) [x; y].
Proof.
  eexists. eexists. split; [reflexivity|]. split; [reflexivity|]. split; [split|].
  - constructor; [exists "Y"%string, 1; auto|]. constructor; [exists "X"%string, 0; auto|constructor].
  - repeat constructor; cbn; intuition discriminate.
  - repeat constructor.
Qed.

(** ---- C25 ---- *)
(** any circuit, any draws: one value per shot, each +1 or -1, state unchanged *)
Theorem C25_measure_circuit_values : forall q gs draws, wf_computer q -> Forall (fun g => gtarget g < nqubit q) gs ->
  exists rs q', measure_circuit q gs draws = Ok (rs, q') /\ length rs = length draws /\ Forall (fun r => r = 1 \/ r = -1)%R rs /\ Unchanged q q'.
Proof.
  intros q gs draws HQ HR. destruct (measure_ok q gs draws HQ HR) as (q' & E & S). exists (map (outcome_value gs) draws), q'. split; [exact E|]. split; [apply map_length|]. split; [|exact S].
  apply Forall_forall. intros r Hr. apply in_map_iff in Hr. destruct Hr as (k & <- & _). apply outcome_pm.
Qed.
Print Assumptions C25_measure_circuit_values.
(** Pauli strings: every value returned has non-zero probability *)
Theorem C25_measure_circuit_possible_values : forall q gs draws probs, wf_computer q -> StringOn (nqubit q) gs ->
  rotated_probabilities q gs = Ok probs -> legal probs draws ->
  exists rs q', measure_circuit q gs draws = Ok (rs, q') /\ Forall (fun r => (0 < born (nqubit q) (value_projector gs r (psi_of q)))%R) rs.
Proof.
  intros q gs draws probs HQ HG HE HL. destruct (string_on _ _ HG) as (A & B & D). destruct (measure_ok q gs draws HQ D) as (q' & E & S). do 2 eexists. split; [exact E|].
  apply (shot_value q gs probs draws); assumption.
Qed.
Print Assumptions C25_measure_circuit_possible_values.
(** Born rule: the distribution the shots are drawn from gives outcome r the weight |(1 + r P)/2 psi|^2 *)
Theorem C25_measure_circuit_born_rule : forall q gs r, wf_computer q -> StringOn (nqubit q) gs -> (r = 1 \/ r = -1)%R ->
  exists probs, rotated_probabilities q gs = Ok probs /\ length probs = 2 ^ nqubit q /\
    total probs (fun k => match measure_circuit q gs [k] with Ok ([v], _) => if Req_EM_T v r then true else false | _ => false end) =
    born (nqubit q) (value_projector gs r (psi_of q)).
Proof.
  intros q gs r HQ HG Hr. destruct (string_on _ _ HG) as (A & B & D). destruct (value_born q gs r HQ A B D Hr) as (probs & E & L & HB). exists probs. split; [exact E|]. split; [exact L|].
  etransitivity; [|exact HB]. f_equal. apply FunctionalExtensionality.functional_extensionality. intros k. destruct (measure_ok q gs [k] HQ D) as (q' & E' & _). rewrite E'. reflexivity.
Qed.
Print Assumptions C25_measure_circuit_born_rule.
Theorem C25_measure_readouts_bits : forall q gs draws, wf_computer q -> Forall (fun g => gtarget g < nqubit q) gs ->
  exists rs q', measure_readouts q gs draws = Ok (rs, q') /\ length rs = length draws /\
    Forall (fun bs => length bs = length gs /\ Forall (fun b => b = 0 \/ b = 1) bs) rs /\ Unchanged q q'.
Proof.
  intros q gs draws HQ HR. destruct (readouts_ok q gs draws HQ HR) as (q' & E & S). exists (map (readout gs) draws), q'. split; [exact E|]. split; [apply map_length|]. split; [|exact S].
  apply Forall_forall. intros r Hr. apply in_map_iff in Hr. destruct Hr as (k & <- & _). destruct (readout_bits gs k) as [H1 H2]. split; [exact H1|].
  eapply Forall_impl; [|exact H2]. cbn. intros; lia.
Qed.
Print Assumptions C25_measure_readouts_bits.
Theorem C25_measure_readouts_possible : forall q gs draws probs, wf_computer q -> StringOn (nqubit q) gs ->
  rotated_probabilities q gs = Ok probs -> legal probs draws ->
  exists rs q', measure_readouts q gs draws = Ok (rs, q') /\ Forall (fun bs => (0 < born (nqubit q) (joint_projector gs bs (psi_of q)))%R) rs.
Proof.
  intros q gs draws probs HQ HG HE HL. destruct (string_on _ _ HG) as (A & B & D). destruct (readouts_ok q gs draws HQ D) as (q' & E & S). do 2 eexists. split; [exact E|].
  apply (shot_readout q gs probs draws); assumption.
Qed.
Print Assumptions C25_measure_readouts_possible.
Theorem C25_measure_readouts_born_rule : forall q gs bs, wf_computer q -> StringOn (nqubit q) gs -> length bs = length gs -> Forall (fun b => b < 2) bs ->
  exists probs, rotated_probabilities q gs = Ok probs /\ length probs = 2 ^ nqubit q /\
    total probs (fun k => match measure_readouts q gs [k] with Ok ([v], _) => if list_eq_dec Nat.eq_dec v bs then true else false | _ => false end) =
    born (nqubit q) (joint_projector gs bs (psi_of q)).
Proof.
  intros q gs bs HQ HG Hl Hb. destruct (string_on _ _ HG) as (A & B & D). destruct (joint_born q gs bs HQ A B D Hl Hb) as (probs & E & L & HB). exists probs. split; [exact E|]. split; [exact L|].
  etransitivity; [|exact HB]. f_equal. apply FunctionalExtensionality.functional_extensionality. intros k. destruct (readouts_ok q gs [k] HQ D) as (q' & E' & _). rewrite E'. reflexivity.
Qed.
Print Assumptions C25_measure_readouts_born_rule.
(** computational-basis readouts of the qubits na..nb: the bits of basis states with non-zero amplitude *)
Theorem C25_z_readouts : forall q na nb draws, wf_computer q -> legal (probabilities q) draws ->
  Forall2 (fun k bs => psi_of q k <> C0 /\ length bs = nb + 1 - na /\ forall j, na <= j <= nb -> nth (j - na) bs 0 = if Nat.testbit k j then 1 else 0)
    draws (measure_z_readouts_fast q na nb draws).
Proof.
  intros q na nb draws HQ HL. unfold measure_z_readouts_fast, legal in *. induction draws as [|k r IH]; cbn [map]; constructor.
  - destruct (Forall_inv HL) as [_ Hp]. rewrite probs_nth in Hp. split; [|split].
    + unfold psi_of. intros E. rewrite E, Cnorm2_0 in Hp. lra.
    + rewrite map_length, seq_length. reflexivity.
    + intros j Hj. rewrite (nth_indep _ 0 (b2n (bit k 0))) by (rewrite map_length, seq_length; lia). rewrite (map_nth (fun l => b2n (bit k l))), seq_nth by lia.
      replace (na + (j - na)) with j by lia. unfold bit. destruct (Nat.testbit k j); reflexivity.
  - apply IH. exact (Forall_inv_tail HL).
Qed.
Print Assumptions C25_z_readouts.
Example C25_nonvacuous : exists probs, rotated_probabilities (new_computer 1) [] = Ok probs /\ legal probs [0; 0; 0].
Proof. eexists. split; [reflexivity|]. unfold probabilities, legal. repeat constructor; cbn; try lia; lra. Qed.

(** ---- C52: identity gates ---- *)
(** claim: putting identity gates into a measured circuit changes nothing *)
Definition C52_claim q g gs : Prop := forall r1 r2 q1 q2, perfect_measure_circuit q (g :: gs) = Ok (r1, q1) -> perfect_measure_circuit q gs = Ok (r2, q2) -> r1 = r2.
Theorem C52_identity_gate_measured_as_Z_refuted : exists q g, wf_computer q /\ make_gate "I" 0 0 0 = Ok g /\ ~ C52_claim q g [].
Proof.
  set (q := mkComputer 1 [C0; C1] [C0; C0] 0 0). exists q, (mkGate "I" 0 0 m_I None). split; [split; reflexivity|]. split; [reflexivity|].
  intros H. specialize (H (0 + Re (RtoC (outcome_value [mkGate "I" 0 0 m_I None] 0) * C0 * Cconj C0)%C + Re (RtoC (outcome_value [mkGate "I" 0 0 m_I None] 1) * C1 * Cconj C1)%C)%R
    (0 + Re (RtoC (outcome_value [] 0) * C0 * Cconj C0)%C + Re (RtoC (outcome_value [] 1) * C1 * Cconj C1)%C)%R q q).
  assert (HH := H eq_refl eq_refl). cbn in HH. lra.
Qed.
Print Assumptions C52_identity_gate_measured_as_Z_refuted.
