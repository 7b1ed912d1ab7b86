(** Property theorems C22, C23, C27 (dense and sparse matrices). *)
From Coq Require Import Reals String List Arith Lia Bool Lra.
From Verif Require Import CBase Result Bits Spec GateModel OpSpec ComputerModel ApplyProofs SafeProofs GateProofs LibProofs CleanProofs SimProofs CircuitModel PauliProofs
  OperatorModel OperatorProofs SparseModel MeasureModel SparseProofs SparseApply SparseNorm MeasureProofs SparseState PropOperator PropMeasure.
Import ListNotations.
Local Open Scope R_scope.

(** ---- vocabulary ---- *)
(** sparse matrices a program can hold: built by the constructor and the methods *)
Inductive Built : smat -> Prop :=
| built_empty : Built []
| built_set m i j c : Built m -> Built (sset m i j c)
| built_identity n : Built (make_identity n)
| built_gate n g m : gate_sparse n g = Ok m -> Built m
| built_mult a b : Built a -> Built b -> Built (left_multiply a b)
| built_add a b f : Built a -> Built b -> Built (sadd_mat a b f).
(** all stored entries lie inside an n-qubit matrix *)
Definition Fits (n : nat) (m : smat) : Prop := forall i j r x, In (i, r) m -> In (j, x) r -> (i < 2 ^ n)%nat /\ (j < 2 ^ n)%nat.
(** matrix times vector on n qubits *)
Definition mat_vec (n : nat) (M : nat -> nat -> C) (psi : state) : state := fun i => Csum (fun j => (M i j * psi j)%C) (seq 0 (2 ^ n)).
(** value v up to dropping entries of modulus at most 1e-16 *)
Definition dropped (x v : C) : Prop := (x = v /\ 1e-16 < Cabs v) \/ (x = C0 /\ Cabs v <= 1e-16).

Lemma built_wfm m : Built m -> wfm m.
Proof.
  induction 1.
  - apply wfm_nil.
  - apply wfm_sset; assumption.
  - apply identity_spec.
  - assert (D : in_range n g \/ ~ in_range n g) by (unfold in_range; lia). destruct D as [D|D].
    + destruct (gate_sparse_ok n g D) as (m' & E & W & _). congruence.
    + rewrite (gate_sparse_throws n g D) in H. discriminate.
  - apply (left_multiply_spec a b (S (fold_right max 0%nat (flat_map (fun r => map fst (snd r)) b))) IHBuilt1 IHBuilt2).
    intros i k H1. apply stored_nonzero in H1; [|exact IHBuilt2]. destruct H1 as (r & x & Hr & Hx).
    assert (HIn : In k (flat_map (fun r => map fst (snd r)) b)). { apply in_flat_map. exists (i, r). split; [exact Hr|]. cbn. change k with (fst (k, x)). apply in_map, Hx. }
    clear - HIn. induction (flat_map (fun r => map fst (snd r)) b) as [|y l IH]; [destruct HIn|]. cbn. destruct HIn as [->|HIn]; [lia|]. specialize (IH HIn). lia.
  - apply sadd_spec; assumption.
Qed.
Lemma fits_keys n m : Fits n m <-> keys_in (2 ^ n) m.
Proof. split; [intros H i j (r & x & H1 & H2); eauto|intros H i j r x H1 H2; apply H; exists r, x; auto]. Qed.
Lemma drop_dropped v : dropped (drop thr16 v) v.
Proof. destruct (drop_cases thr16 v) as [[A B]|[A B]]; [left|right]; auto. Qed.

(** ---- C27 ---- *)
Theorem C27_set_get : forall m i j c i' j', sget (sset m i j c) i' j' = if ((i' =? i)%nat && (j' =? j)%nat)%bool then c else sget m i' j'.
Proof. exact sget_sset. Qed.
Print Assumptions C27_set_get.
Theorem C27_default_zero : forall i j, sget [] i j = C0.
Proof. reflexivity. Qed.
Print Assumptions C27_default_zero.
Theorem C27_identity : forall n i j, sget (make_identity n) i j = if ((i =? j)%nat && (i <? n)%nat)%bool then C1 else C0.
Proof. intros n. apply identity_spec. Qed.
Print Assumptions C27_identity.
Theorem C27_left_multiply : forall this L N, Built this -> Built L -> (forall i k, (N <= k)%nat -> sget L i k = C0) ->
  forall i j, dropped (sget (left_multiply this L) i j) (Csum (fun k => (sget L i k * sget this k j)%C) (seq 0 N)).
Proof.
  intros this L N HT HL HN i j. destruct (left_multiply_spec this L N (built_wfm _ HT) (built_wfm _ HL)) as [_ HS].
  - intros i' k Hk. destruct (Nat.lt_ge_cases k N) as [|Hge]; [assumption|]. exfalso; apply Hk, HN, Hge.
  - rewrite HS. apply drop_dropped.
Qed.
Print Assumptions C27_left_multiply.
Theorem C27_add : forall this M f, Built this -> Built M ->
  forall i j, (dropped (sget (sadd_mat this M f) i j) (sget this i j + f * sget M i j)%C) \/
    (sget (sadd_mat this M f) i j = sget this i j /\ sget M i j = C0).
Proof.
  intros this M f HT HM i j. destruct (sadd_spec this M f (built_wfm _ HT) (built_wfm _ HM)) as [_ HS]. rewrite HS.
  change (sget M i j) with (match mfind i M with Some r => match mfind j r with Some c => c | None => C0 end | None => C0 end).
  destruct (mfind i M) as [r|]; [destruct (mfind j r) as [x|]|]; [left|right; auto|right; auto].
  replace (sget this i j + f * x)%C with (f * x + sget this i j)%C by ring. apply drop_dropped.
Qed.
Print Assumptions C27_add.
Example C27_nonvacuous : exists g m, make_gate "H" 0 0 0 = Ok g /\ gate_sparse 1 g = Ok m /\ Built (sadd_mat (left_multiply (sset (make_identity 2) 0 1 Ci) m) m Ci).
Proof.
  destruct (make_gate "H" 0 0 0) as [g|] eqn:E; [|discriminate]. injection E as <-. eexists. eexists. split; [reflexivity|]. split; [reflexivity|].
  apply built_add; [apply built_mult; [apply built_set, built_identity|]|]; eapply (built_gate 1 (mkGate "H" 0 0 m_H None)); reflexivity.
Qed.

(** ---- C22 ---- *)
Theorem C22_apply_sparse_matrix : forall q M, wf_computer q -> Built M -> Fits (nqubit q) M ->
  exists q', apply_sparse_matrix q M = Ok q' /\ wf_computer q' /\ nqubit q' = nqubit q /\
    psi_of q' == mat_vec (nqubit q) (sget M) (psi_of q).
Proof. intros q M HQ HB HF. apply fits_keys in HF. exact (sparse_state q M HQ (built_wfm _ HB) HF). Qed.
Print Assumptions C22_apply_sparse_matrix.
Definition Square (n : nat) (M : list (list C)) : Prop := length M = (2 ^ n)%nat /\ Forall (fun r => length r = (2 ^ n)%nat) M.
Definition entry (M : list (list C)) (i j : nat) : C := nth j (nth i M []) C0.
(** the dense routine multiplies with the complex conjugate of the matrix *)
Theorem C22_apply_matrix_conjugate_partial : forall q M, wf_computer q -> Square (nqubit q) M ->
  exists q', apply_matrix q M = Ok q' /\ wf_computer q' /\ nqubit q' = nqubit q /\
    psi_of q' == mat_vec (nqubit q) (fun i j => Cconj (entry M i j)) (psi_of q).
Proof.
  intros q M HQ [H1 H2]. destruct (apply_matrix_ok q M HQ H1 H2) as (q' & E & W & N & H). exists q'. split; [exact E|]. split; [exact W|]. split; [exact N|].
  intros i. destruct (Nat.lt_ge_cases i (2 ^ nqubit q)) as [Hi|Hi]; [exact (H i Hi)|].
  unfold psi_of. rewrite (amp_beyond q' i W) by (rewrite N; exact Hi). unfold mat_vec, entry. symmetry. rewrite (nth_overflow M) by lia.
  apply Csum_zero. intros j _. rewrite nth_overflow by (cbn; lia). rewrite Cconj_C0. ring.
Qed.
Print Assumptions C22_apply_matrix_conjugate_partial.
(** hence it is right for real matrices *)
Theorem C22_apply_real_matrix_partial : forall q M, wf_computer q -> Square (nqubit q) M -> (forall i j, Im (entry M i j) = 0) ->
  exists q', apply_matrix q M = Ok q' /\ psi_of q' == mat_vec (nqubit q) (entry M) (psi_of q).
Proof.
  intros q M HQ HS HR. destruct (C22_apply_matrix_conjugate_partial q M HQ HS) as (q' & E & _ & _ & H). exists q'. split; [exact E|]. intros i. rewrite (H i).
  unfold mat_vec. apply Csum_ext. intros j _. f_equal. apply C_ext; cbn; [reflexivity|]. rewrite HR. ring.
Qed.
Print Assumptions C22_apply_real_matrix_partial.
Definition C22_claim q M : Prop := exists q', apply_matrix q M = Ok q' /\ psi_of q' == mat_vec (nqubit q) (entry M) (psi_of q).
Theorem C22_complex_matrix_refuted : exists M, Square 1 M /\ ~ C22_claim (new_computer 1) M.
Proof.
  exists [[Ci; C0]; [C0; C1]]. split; [split; [reflexivity|repeat constructor]|]. intros (q' & E & H).
  destruct (C22_apply_matrix_conjugate_partial (new_computer 1) [[Ci; C0]; [C0; C1]] (new_computer_wf 1)) as (q1 & E1 & _ & _ & H1); [split; [reflexivity|repeat constructor]|].
  assert (q1 = q') by congruence. subst q1. specialize (H 0%nat). rewrite (H1 0%nat) in H. unfold mat_vec, entry, psi_of, amp in H. cbn in H. unfold Csum in H. cbn in H. injection H as _ H. lra.
Qed.
Print Assumptions C22_complex_matrix_refuted.
Example C22_nonvacuous : Built (sset [] 1 0 Ci) /\ Fits 1 (sset [] 1 0 Ci) /\ Square 1 [[C0; C1]; [C1; C0]].
Proof.
  split; [apply built_set, built_empty|]. split; [|split; [reflexivity|repeat constructor]].
  intros i j r x [H|[]] H2. injection H as <- <-. destruct H2 as [H2|[]]. injection H2 as <- <-. cbn; lia.
Qed.

(** ---- C23 ---- *)
(** matrix entries are 0 or larger than the 1e-14 cut-off; every label but Rx, Ry, A *)
Definition Sharp14 (gs : list gate) : Prop := Forall (fun g => forall i j, gmat g i j = C0 \/ 1e-14 < Cabs (gmat g i j)) gs.
Theorem C23_sharp_unless_Rx_Ry_A : forall type t c x g, no_angle_condition type = true -> make_gate type t c x = Ok g -> Sharp14 [g].
Proof. intros type t c x g H E. constructor; [|constructor]. exact (fixed_sharp14 type t c x g H E). Qed.
Print Assumptions C23_sharp_unless_Rx_Ry_A.
(** one gate: same state *)
Theorem C23_gate_agrees_partial : forall q g, wf_computer q -> Applicable (nqubit q) [g] -> Sharp14 [g] ->
  exists m q1 q2, gate_sparse (nqubit q) g = Ok m /\ apply_sparse_matrix q m = Ok q1 /\ apply_gate q g = Ok q2 /\ psi_of q1 == psi_of q2.
Proof.
  intros q g HQ HA HS. destruct (applicable_ok _ _ HA) as [HR HC]. pose proof (Forall_inv HR) as HR1. pose proof (Forall_inv HC) as HC1. pose proof (Forall_inv HS) as HS1.
  destruct (gate_sparse_exact (nqubit q) g HR1 HS1) as (m & E & W & K & X). destruct (sparse_state q m HQ W K) as (q1 & E1 & W1 & N1 & H1).
  destruct (apply_gate_correct q g HQ HR1 HC1) as (q2 & E2 & A2). pose proof (applied_wf _ _ _ A2) as W2. destruct A2 as (N2 & L2 & S2 & _). exists m, q1, q2. do 3 (split; [assumption|]). intros J. unfold psi_of.
  destruct (Nat.lt_ge_cases J (2 ^ nqubit q)) as [HJ|HJ]; [|rewrite !amp_beyond by (try rewrite N1; try rewrite N2; assumption); reflexivity].
  rewrite (H1 J), (S2 J), <- (gate_resolve (nqubit q) g (amp (coeff q)) J HR1 HJ). apply Csum_ext. intros K' HK'. apply in_seq in HK'. rewrite X by lia. reflexivity.
Qed.
Print Assumptions C23_gate_agrees_partial.
(** Pauli circuits of any length: same state *)
Theorem C23_pauli_circuit_agrees_partial : forall q gs, wf_computer q -> PauliCircuit gs -> Forall (fun g => (gtarget g < nqubit q)%nat) gs ->
  exists m q1 q2, circuit_sparse (nqubit q) gs = Ok m /\ apply_sparse_matrix q m = Ok q1 /\ apply_circuit q gs = Ok q2 /\ psi_of q1 == psi_of q2.
Proof.
  intros q gs HQ HP0 HR0. pose proof (proj1 (circuit_iff gs) HP0) as HP.
  assert (HR : Forall (in_range (nqubit q)) gs). { rewrite Forall_forall in *. intros g Hg. pose proof (pauli_gate_1q g (HP g Hg)). specialize (HR0 g Hg). unfold in_range. lia. }
  assert (HC : Forall gate_clean gs). { unfold PauliCircuit in HP0. rewrite Forall_forall in *. intros g Hg. destruct (HP0 g Hg) as (l & u & Hl & E). apply library_clean; [eapply lib_make; exact E|].
    apply (no_angle_sharp l u u 0); [|exact E]. destruct Hl as [-> | [-> | ->]]; reflexivity. }
  destruct (pauli_sparse (nqubit q) gs HR HP) as (m & E & W & K & X). destruct (sparse_state q m HQ W K) as (q1 & E1 & W1 & N1 & H1).
  destruct (apply_circuit_correct gs q HQ HR HC) as (q2 & E2 & A2). destruct A2 as (N2 & L2 & S2 & _). exists m, q1, q2. do 3 (split; [assumption|]). intros J. unfold psi_of.
  rewrite (S2 J). destruct (Nat.lt_ge_cases J (2 ^ nqubit q)) as [HJ|HJ].
  - rewrite (H1 J), (circ_resolve (nqubit q) gs HR _ J HJ). apply Csum_ext. intros K' HK'. apply in_seq in HK'. rewrite X by lia. reflexivity.
  - rewrite <- (S2 J). unfold amp. rewrite (nth_overflow (coeff q2)) by lia. fold (amp (coeff q1) J). apply amp_beyond; [exact W1|rewrite N1; exact HJ].
Qed.
Print Assumptions C23_pauli_circuit_agrees_partial.
(** any circuit: every amplitude agrees up to (number of gates) * 1e-16 * sqrt(2^n) * |psi|_1 *)
Definition drop_error (n : nat) (gs : list gate) : R := INR (length gs) * (1e-16 * sqrt (INR (2 ^ n))).
Definition one_norm (n : nat) (psi : state) : R := fold_right (fun k s => Cabs (psi k) + s) 0 (seq 0 (2 ^ n)).
Lemma circuit_entry n gs : Forall (in_range n) gs -> Forall library_gate gs -> Sharp14 gs ->
  exists m, circuit_sparse n gs = Ok m /\ wfm m /\ keys_in (2 ^ n) m /\
    forall I J, (I < 2 ^ n)%nat -> (J < 2 ^ n)%nat -> Cabs (sget m J I - circ_act gs (ket I) J)%C <= drop_error n gs.
Proof.
  intros HR HL HS. destruct (circuit_sparse_bound n gs HR HL HS) as (m & E & W & K & HB). exists m. do 3 (split; [assumption|]). intros I J HI HJ.
  eapply Rle_trans; [|apply (HB I HI)]. apply (amp_le_norm n (ssub (col m I) (circ_act gs (ket I))) J HJ).
Qed.
Theorem C23_circuit_agrees_within_dropped_entries_partial : forall q gs, wf_computer q -> Applicable (nqubit q) gs -> Sharp14 gs ->
  exists m q1 q2, circuit_sparse (nqubit q) gs = Ok m /\ apply_sparse_matrix q m = Ok q1 /\ apply_circuit q gs = Ok q2 /\
    forall J, Cabs (psi_of q1 J - psi_of q2 J)%C <= drop_error (nqubit q) gs * one_norm (nqubit q) (psi_of q).
Proof.
  intros q gs HQ HA HS. destruct (applicable_ok _ _ HA) as [HR HC]. destruct HA as [HL _].
  destruct (circuit_entry (nqubit q) gs HR HL HS) as (m & E & W & K & X). destruct (sparse_state q m HQ W K) as (q1 & E1 & W1 & N1 & H1).
  destruct (apply_circuit_correct gs q HQ HR HC) as (q2 & E2 & A2). destruct A2 as (N2 & L2 & S2 & _). exists m, q1, q2. do 3 (split; [assumption|]). intros J. unfold psi_of.
  destruct (Nat.lt_ge_cases J (2 ^ nqubit q)) as [HJ|HJ].
  - rewrite (H1 J), (S2 J), (circ_resolve (nqubit q) gs HR _ J HJ). apply (apply_close (nqubit q) (sget m) (fun J K => circ_act gs (ket K) J)). intros I HI. apply X; assumption.
  - rewrite (amp_beyond q1 J W1) by (rewrite N1; exact HJ). unfold amp at 1. rewrite (nth_overflow (coeff q2)) by lia. replace (C0 - C0)%C with C0 by ring. rewrite Cabs_C0.
    apply Rmult_le_pos.
    + unfold drop_error. apply Rmult_le_pos; [apply pos_INR|]. apply Rmult_le_pos; [lra|apply sqrt_pos].
    + unfold one_norm. generalize (seq 0 (2 ^ nqubit q)). induction l as [|x l IH]; cbn [fold_right]; [lra|]. pose proof (Cabs_nonneg (amp (coeff q) x)). lra.
Qed.
Print Assumptions C23_circuit_agrees_within_dropped_entries_partial.
Theorem C23_operator_agrees_within_dropped_entries_partial : forall q o, wf_computer q -> o <> [] -> Terms (fun gs => Applicable (nqubit q) gs /\ Sharp14 gs) o ->
  exists m q1 q2, op_sparse (nqubit q) o = Ok m /\ apply_sparse_matrix q m = Ok q1 /\ apply_operator q o = Ok q2 /\
    forall J, (J < 2 ^ nqubit q)%nat -> Cabs (psi_of q1 J - psi_of q2 J)%C <=
      fold_right (fun t s => Cabs (fst t) * drop_error (nqubit q) (snd t) + 1e-16 + s) 0 o * one_norm (nqubit q) (psi_of q).
Proof.
  intros q o HQ HNE HT. assert (HA : Terms (Applicable (nqubit q)) o) by (eapply Forall_impl; [|exact HT]; intros t [H _]; exact H).
  destruct (op_sparse_bound (nqubit q) o (fun t => drop_error (nqubit q) (snd t)) HNE) as (m & E & W & K & X).
  { unfold Terms in HT. rewrite Forall_forall in *. intros t Ht. destruct (HT t Ht) as [(A & B & D) HS]. apply circuit_entry; assumption. }
  destruct (sparse_state q m HQ W K) as (q1 & E1 & W1 & N1 & H1). destruct (C18_apply_operator_partial q o HQ HA) as (q2 & E2 & W2 & N2 & H2).
  exists m, q1, q2. do 3 (split; [assumption|]). intros J HJ. rewrite (H2 J). unfold psi_of. rewrite (H1 J), (op_resolve (nqubit q) o); [|
    unfold Terms in HA; rewrite Forall_forall in *; intros t Ht; destruct (HA t Ht) as (_ & _ & D); exact D|exact HJ].
  apply (apply_close (nqubit q) (sget m) (fun J K => op_act o (ket K) J)). intros I HI. apply X; assumption.
Qed.
Print Assumptions C23_operator_agrees_within_dropped_entries_partial.
(** qubits out of range raise *)
Theorem C23_gate_out_of_range_raises : forall n g, ~ ((gtarget g < n)%nat /\ (gcontrol g < n)%nat) -> gate_sparse n g = Throw RuntimeErr.
Proof. exact gate_sparse_throws. Qed.
Print Assumptions C23_gate_out_of_range_raises.
Lemma circuit_throws n gs : Exists (fun g => ~ in_range n g) gs -> circuit_sparse n gs = Throw RuntimeErr.
Proof.
  assert (HL : forall gs m, Exists (fun g => ~ in_range n g) gs -> foreach gs (fun h R => do L <- gate_sparse n h; Ok (left_multiply R L)) m = Throw RuntimeErr).
  { induction gs0 as [|g r IH]; intros m H; [inversion H|]. cbn [foreach]. destruct (gate_sparse n g) as [L|e] eqn:E; cbn [bind].
    - inversion H; subst; [|apply IH; assumption]. rewrite gate_sparse_throws in E by assumption. discriminate.
    - assert (D : in_range n g \/ ~ in_range n g) by (unfold in_range; lia). destruct D as [D|D].
      + destruct (gate_sparse_ok n g D) as (m' & E' & _). congruence.
      + rewrite gate_sparse_throws in E by assumption. congruence. }
  intros H. destruct gs as [|g r]; [inversion H|]. cbn [circuit_sparse]. destruct (gate_sparse n g) as [L|e] eqn:E; cbn [bind].
  - inversion H; subst; [|apply HL; assumption]. rewrite gate_sparse_throws in E by assumption. discriminate.
  - assert (D : in_range n g \/ ~ in_range n g) by (unfold in_range; lia). destruct D as [D|D].
    + destruct (gate_sparse_ok n g D) as (m' & E' & _). congruence.
    + rewrite gate_sparse_throws in E by assumption. congruence.
Qed.
Theorem C23_circuit_out_of_range_raises : forall n gs, Exists (fun g => ~ ((gtarget g < n)%nat /\ (gcontrol g < n)%nat)) gs -> circuit_sparse n gs = Throw RuntimeErr.
Proof. exact circuit_throws. Qed.
Print Assumptions C23_circuit_out_of_range_raises.
(** the empty operator: sparse_matrix is the identity, apply_operator gives zero *)
Theorem C23_empty_operator_refuted : exists m q1 q2, op_sparse 1 [] = Ok m /\ apply_sparse_matrix (new_computer 1) m = Ok q1 /\
  apply_operator (new_computer 1) [] = Ok q2 /\ psi_of q1 0%nat = C1 /\ psi_of q2 0%nat = C0.
Proof.
  assert (HK : keys_in (2 ^ 1) (make_identity (2 ^ 1))). { intros i j (r & x & H1 & H2). cbn in H1. destruct H1 as [H|[H|[]]]; injection H as <- <-; destruct H2 as [H2|[]]; injection H2 as <- <-; cbn; lia. }
  destruct (sparse_state (new_computer 1) (make_identity (2 ^ 1)) (new_computer_wf 1) (proj1 (identity_spec _)) HK) as (q1 & E1 & _ & _ & H1).
  destruct (C18_empty_operator_gives_zero (new_computer 1) (new_computer_wf 1)) as (q2 & E2 & H2).
  exists (make_identity (2 ^ 1)), q1, q2. split; [reflexivity|]. split; [exact E1|]. split; [exact E2|]. split; [|apply H2].
  unfold psi_of. rewrite (H1 0%nat). cbn. unfold Csum, amp. cbn. apply C_ext; cbn; ring.
Qed.
Print Assumptions C23_empty_operator_refuted.
Example C23_nonvacuous : exists g h, make_gate "cV" 0 1 0 = Ok g /\ make_gate "Rz" 1 1 2 = Ok h /\ Applicable 2 [g; h] /\ Sharp14 [g; h].
Proof.
  destruct (make_gate "cV" 0 1 0) as [g|] eqn:E1; [|discriminate]. destruct (make_gate "Rz" 1 1 2) as [h|] eqn:E2; [|discriminate].
  exists g, h. do 2 (split; [reflexivity|]). split.
  - apply applicable_made.
    + constructor; [exists "cV"%string, 0%nat, 1%nat, 0; auto|]. constructor; [exists "Rz"%string, 1%nat, 1%nat, 2; auto|constructor].
    + injection E1 as <-. injection E2 as <-. repeat constructor; cbn; lia.
  - constructor; [exact (fixed_sharp14 "cV" 0 1 0 g eq_refl E1)|]. constructor; [exact (fixed_sharp14 "Rz" 1 1 2 h eq_refl E2)|constructor].
Qed.
