(** C75: complete runs of QITE, stalled steps, the expansion pools. *)
From Coq Require Import Reals String List Arith ZArith Bool Lia Lra.
From Verif Require Import CBase Result Bits Spec OpSpec GateModel ComputerModel SafeProofs LibProofs CleanProofs SimProofs CircuitModel CircuitProofs PauliProofs OperatorModel PoolProofs MeasureModel MeasureProofs SQModel SQPoolModel GsdModel AnsatzModel PyModel PyApply ExpSpec ExpProofs ExpCircuit FermiProofs EigModel GradModel GradSpec GradProofs QkModel QkProofs PropOperator PropMeasure PropGrad PropRes SparseNorm QpeProofs QpeDist QiteModel QiteNorm QiteLin QiteProofs PropQite.
From Verif Require TrotterProofs PropPy SymmProofs.
Import ListNotations.
Local Open Scope R_scope.

(** when 1 - 2 db E is negative: with sparseSb the step leaves the state as it is and records the
    same energy again; without it the step raises *)
Lemma overlap_nil o pool qc : overlap_loop o pool qc [] = Ok mzero.
Proof. reflexivity. Qed.
Theorem C75_negative_norm_stalls_refuted : forall lstsq o strs st psi, QiteReady o strs -> LeastSquares (length strs) lstsq -> Holds o st psi -> norm_estimate o psi < 0 ->
  (qi_sparse o = true -> exists st', do_qite_step lstsq o (map (fun s => (C1, [(C1, s)])) strs) st = Ok st' /\ Holds o st' psi /\ qs_U st' = qs_U st /\ qs_Ekb st' = (qs_Ekb st ++ [mean_energy o psi])%list) /\
  (qi_sparse o = false -> do_qite_step lstsq o (map (fun s => (C1, [(C1, s)])) strs) st = Throw (PyError "ValueError")).
Proof.
  intros lstsq o strs st psi [HU HH HE Hr HS] HL (W & N & EP & H1 & EE) Hc. fold (pool_of strs). assert (Hd : 1 - 2 * qi_db o * last (qs_Ekb st) 0 < 0) by (rewrite EE; exact Hc).
  split; intros Es; unfold do_qite_step; rewrite (build_b_neg o _ st Hd); cbn [bind]; cbv zeta; rewrite Es.
  - cbn [fst snd]. rewrite overlap_nil. cbn [bind fst snd length]. destruct (HL 0%nat (mreal mzero) [] ltac:(lia) eq_refl) as (L0 & _). destruct (lstsq 0%nat (mreal mzero) []) as [|? ?]; [|discriminate].
    unfold build_A. cbn [length seq combine foreach bind fst snd]. destruct (trotterize_A (qi_nqb o) [] (qi_trotter o) (Forall_nil _) Hr) as (gs & ph & ET & HA & HX). cbn [TrotterProofs.opened map] in ET. rewrite ET. cbn [bind fst snd].
    assert (EG : gs = []). { unfold trotterize in ET. rewrite TrotterProofs.trotter_scaled in ET by exact Hr. unfold TrotterProofs.scaled in ET. cbn [map] in ET. assert (EC : forall k, concat (repeat (@nil (C * list gate)) k) = []) by (induction k as [|k IH]; [reflexivity|exact IH]). rewrite EC in ET. cbn in ET. injection ET as <- _. reflexivity. }
    subst gs. change (apply_circuit (qs_qc st) []) with (@Ok computer (qs_qc st)). cbn [bind].
    destruct (SymmProofs.evaluate (qi_nqb o) (qi_par o) (qi_ham o) (qs_qc st) HE W N) as (qc2 & EV & (U1 & U2 & U3)). rewrite EV. cbn [bind fst snd]. rewrite EP. eexists. split; [reflexivity|]. cbn [qs_U qs_Ekb]. rewrite app_nil_r. split; [|split; reflexivity].
    split; [exact U3|]. split; [exact (eq_trans U1 N)|]. split; [unfold psi_of in *; cbn [qs_qc]; rewrite U2; exact EP|]. split; [exact H1|]. cbn [qs_Ekb]. rewrite last_last. reflexivity.
  - assert (HI : Forall (fun I => (I < length strs)%nat) (seq 0 (length strs))) by (apply Forall_forall; intros I HI; apply in_seq in HI; lia). replace (length (pool_of strs)) with (length strs) by (unfold pool_of; now rewrite map_length).
    destruct (overlap_ok o strs (qs_qc st) _ (conj W N) HS HI) as (Sm & ES & _). rewrite ES. reflexivity.
Qed.
Print Assumptions C75_negative_norm_stalls_refuted.

(** ---- complete runs ---- *)
(** N steps from the prepared state; energies, circuit, phase and counters recorded along the way *)
Record Trajectory (o : qite_options) (strs : list (list gate)) (N : nat) (st : qite_state) (ps : nat -> state) (idx : nat -> list nat) (x : nat -> nat -> R) (gs : nat -> list gate) (ph : nat -> C) : Prop := {
  tr_start : ps 0%nat = circ_act (qi_Uprep o) (ket 0);
  tr_steps : forall k, (k < N)%nat -> Step o strs (ps k) (idx k) (x k) (gs k) (ph k) (ps (S k));
  tr_holds : Holds o st (ps N);
  tr_Ekb : qs_Ekb st = map (fun k => mean_energy o (ps k)) (seq 0 (S N));
  tr_U : qs_U st = (qi_Uprep o ++ concat (map gs (seq 0 N)))%list;
  tr_prepares : circ_act (qs_U st) (ket 0) = ps N;
  tr_phase : qs_phase st = fold_left Cmul (map ph (seq 0 N)) C1;
  tr_params : qs_params st = list_sum (map (fun k => length (generator o strs (idx k) (x k))) (seq 0 N));
  tr_cnot : qs_cnot st = get_num_cnots (qs_U st);
  tr_meas : qs_meas st = list_sum (map (fun k => length (qi_ham o) * length strs + length (idx k) * (length (idx k) + 1) / 2)%nat (seq 0 N)) }.
(** the amplitudes v are those of psi *)
Definition Amplitudes (o : qite_options) (v : list C) (psi : state) : Prop := length v = (2 ^ qi_nqb o)%nat /\ amp v = psi.
(** the steps whose state becomes a Lanczos vector *)
Definition lanczos_steps (o : qite_options) (N : nat) : list nat := if qi_lanczos o then 0%nat :: filter (fun k => Nat.eqb (k mod qi_gap o) 0) (seq 1 N) else [].
Lemma mean_bound o psi : Hamiltonian (qi_nqb o) (qi_ham o) -> inner (qi_nqb o) psi psi = C1 -> Rabs (mean_energy o psi) <= coefficient_sum (qi_ham o).
Proof.
  intros HH H1. unfold mean_energy. eapply Rle_trans; [apply inner_abs|]. assert (N1 : norm (qi_nqb o) psi = 1) by (unfold norm, normsq; rewrite H1; cbn; apply sqrt_1). rewrite N1, Rmult_1_l. eapply Rle_trans; [apply norm_op|].
  - eapply Forall_impl; [|exact HH]. intros t Ht. apply Ht.
  - rewrite N1, Rmult_1_r. right. reflexivity.
Qed.
Lemma estimate_pos o psi : Hamiltonian (qi_nqb o) (qi_ham o) -> 2 * Rabs (qi_db o) * coefficient_sum (qi_ham o) < 1 -> inner (qi_nqb o) psi psi = C1 -> 0 < norm_estimate o psi.
Proof.
  intros HH Hs H1. pose proof (mean_bound o psi HH H1) as HB. unfold norm_estimate. assert (HP : qi_db o * mean_energy o psi <= Rabs (qi_db o) * coefficient_sum (qi_ham o)).
  { eapply Rle_trans; [apply Rle_abs|]. rewrite Rabs_mult. apply Rmult_le_compat_l; [apply Rabs_pos|exact HB]. }
  lra.
Qed.
Lemma add_lanczos_ok o st psi : Hamiltonian (qi_nqb o) (qi_ham o) -> Holds o st psi -> exists v Hv, Amplitudes o v psi /\ Amplitudes o Hv (op_act (qi_ham o) psi) /\
  add_lanczos o st = Ok (mkQiteState (qs_qc st) (qs_Ekb st) (qs_U st) (qs_phase st) (qs_params st) (qs_cnot st) (qs_meas st) (qs_vecs st ++ [v]) (qs_Hvecs st ++ [Hv])).
Proof.
  intros HH (W & N & EP & _). unfold add_lanczos. destruct (with_ok o _ (conj W N)) as (HQ & E). destruct (apply_ham o _ _ HQ HH) as (q' & EA & (W' & N') & A). rewrite E, EP in A. apply seq_eq in A. rewrite EA. cbn [bind]. exists (coeff (qs_qc st)), (coeff q'). split; [|split; [|reflexivity]].
  - split; [|exact EP]. destruct W as (W1 & _). unfold nbasis in W1. rewrite N in W1. exact W1.
  - split; [|exact A]. destruct W' as (W1 & _). unfold nbasis in W1. rewrite N' in W1. exact W1.
Qed.
Definition extend {A} (f : nat -> A) (N : nat) (a : A) : nat -> A := fun k => if Nat.eqb k N then a else f k.
Lemma extend_same {A} (f : nat -> A) N a : extend f N a N = a.
Proof. unfold extend. now rewrite Nat.eqb_refl. Qed.
Lemma extend_other {A} (f : nat -> A) N a k : (k < N)%nat -> extend f N a k = f k.
Proof. intros H. unfold extend. destruct (Nat.eqb_spec k N); [lia|reflexivity]. Qed.
Lemma extend_map {A B} (f : nat -> A) N a (g : nat -> A -> B) : map (fun k => g k (extend f N a k)) (seq 0 N) = map (fun k => g k (f k)) (seq 0 N).
Proof. apply map_ext_in. intros k Hk. apply in_seq in Hk. rewrite extend_other by lia. reflexivity. Qed.
Lemma list_sum1 a : list_sum [a] = a.
Proof. cbn. lia. Qed.
Lemma steps_run lstsq o strs : QiteReady o strs -> LeastSquares (length strs) lstsq -> 2 * Rabs (qi_db o) * coefficient_sum (qi_ham o) < 1 -> (qi_lanczos o = true -> qi_gap o <> 0%nat) ->
  forall N, exists st ps idx x gs ph, evolve_qite lstsq o (pool_of strs) N (mean_energy o (circ_act (qi_Uprep o) (ket 0))) = Ok st /\ Trajectory o strs N st ps idx x gs ph /\
    Forall2 (fun v k => Amplitudes o v (ps k)) (qs_vecs st) (lanczos_steps o N) /\ Forall2 (fun v k => Amplitudes o v (op_act (qi_ham o) (ps k))) (qs_Hvecs st) (lanczos_steps o N) /\ Forall (fun k => k <= N)%nat (lanczos_steps o N).
Proof.
  intros HR HL Hs Hg N. pose proof HR as [HU HH HE Hr HS]. unfold evolve_qite. destruct (sim_apply (new_computer (qi_nqb o)) (qi_Uprep o) (new_computer_wf _) HU) as (q0 & E0 & W0 & N0 & A0). rewrite E0. cbn [bind]. cbv zeta.
  assert (P0 : psi_of q0 = circ_act (qi_Uprep o) (ket 0)). { apply seq_eq. eapply seq_trans; [exact A0|]. apply circ_act_ext. intros I. apply new_computer_ket0. }
  set (psi0 := circ_act (qi_Uprep o) (ket 0)) in *. set (s0 := mkQiteState q0 _ _ _ _ _ _ _ _).
  assert (H0 : inner (qi_nqb o) psi0 psi0 = C1). { unfold psi0. destruct HU as (U1 & _ & U3). rewrite circ_preserves_inner by assumption. apply ket_norm. }
  assert (HH0 : Holds o s0 psi0) by (split; [exact W0|split; [exact N0|split; [exact P0|split; [exact H0|reflexivity]]]]).
  assert (B : exists s1, (if qi_lanczos o then add_lanczos o s0 else Ok s0) = Ok s1 /\ Trajectory o strs 0 s1 (fun _ => psi0) (fun _ => []) (fun _ _ => 0) (fun _ => []) (fun _ => C1) /\
    Forall2 (fun v k => Amplitudes o v psi0) (qs_vecs s1) (lanczos_steps o 0) /\ Forall2 (fun v k => Amplitudes o v (op_act (qi_ham o) psi0)) (qs_Hvecs s1) (lanczos_steps o 0) /\ Forall (fun k => k <= 0)%nat (lanczos_steps o 0)).
  { unfold lanczos_steps. destruct (qi_lanczos o).
    - destruct (add_lanczos_ok o s0 psi0 HH HH0) as (v & Hv & V1 & V2 & EL). rewrite EL. eexists. split; [reflexivity|]. cbn [qs_vecs qs_Hvecs s0 app seq filter]. split; [|split; [|split]].
      + split; cbn; try reflexivity; try lia; [exact HH0|now rewrite app_nil_r].
      + constructor; [exact V1|constructor].
      + constructor; [exact V2|constructor].
      + constructor; [lia|constructor].
    - exists s0. split; [reflexivity|]. split; [|split; [|split]]; try constructor; cbn; try reflexivity; try lia; [exact HH0|now rewrite app_nil_r]. }
  destruct B as (s1 & E1 & T1 & V1 & V2 & V3). rewrite E1. cbn [bind]. clear E1 E0.
  induction N as [|N IH].
  - exists s1, (fun _ => psi0), (fun _ => []), (fun _ _ => 0), (fun _ => []), (fun _ => C1). split; [reflexivity|]. auto.
  - destruct IH as (st & ps & idx & x & gs & ph & E & [T1a T2 T3 T4 T5 T6 T7 T8 T9 T10] & F1 & F2 & F3). rewrite seq_S, foreach_app', E. cbn [bind Nat.add foreach]. unfold qite_pass at 1.
    assert (HN : inner (qi_nqb o) (ps N) (ps N) = C1) by apply T3.
    destruct (C75_step lstsq o strs st (ps N) HR HL T3 (estimate_pos o _ HH Hs HN)) as (st' & psi' & ix & xx & g & p & ES & SS & HO & R1 & R2 & R3 & R4 & R5 & R6 & R7 & R8). fold (pool_of strs) in ES. rewrite ES. cbn [bind].
    assert (TR : forall st2, qs_qc st2 = qs_qc st' -> qs_Ekb st2 = qs_Ekb st' -> qs_U st2 = qs_U st' -> qs_phase st2 = qs_phase st' -> qs_params st2 = qs_params st' -> qs_cnot st2 = qs_cnot st' -> qs_meas st2 = qs_meas st' ->
      Trajectory o strs (S N) st2 (extend ps (S N) psi') (extend idx N ix) (extend x N xx) (extend gs N g) (extend ph N p)).
    { intros st2 Q1 Q2 Q3 Q4 Q5 Q6 Q7. split.
      - rewrite extend_other by lia. exact T1a.
      - intros k Hk. destruct (Nat.eq_dec k N) as [->|Ne]; [rewrite !extend_same, extend_other by lia; exact SS|]. rewrite !extend_other by lia. apply T2. lia.
      - rewrite extend_same. unfold Holds in *. rewrite Q1, Q2. exact HO.
      - rewrite Q2, R1, T4. rewrite (seq_S (S N)), map_app. cbn [map Nat.add]. rewrite extend_same. f_equal. symmetry. apply (extend_map ps (S N) psi' (fun _ => mean_energy o)).
      - rewrite Q3, R2, T5. rewrite seq_S, map_app, concat_app. cbn [map Nat.add concat]. rewrite extend_same, app_nil_r, app_assoc. f_equal. f_equal. f_equal. symmetry. apply (extend_map gs N g (fun _ a => a)).
      - rewrite Q3, R2, extend_same, circ_act_app, T6. symmetry. exact (sp_circ _ _ _ _ _ _ _ _ SS).
      - rewrite Q4, R3, T7. rewrite seq_S, map_app, fold_left_app. cbn [map Nat.add fold_left]. rewrite extend_same. do 2 f_equal. symmetry. apply (extend_map ph N p (fun _ a => a)).
      - rewrite Q5, R4, T8. rewrite seq_S, map_app, list_sum_app. cbn [map Nat.add]. rewrite list_sum1, !extend_same. f_equal. f_equal. apply map_ext_in. intros k Hk. apply in_seq in Hk. rewrite !extend_other by lia. reflexivity.
      - rewrite Q6, Q3, R5, R2, num_cnots_app, T9. reflexivity.
      - rewrite Q7, R6, T10. rewrite seq_S, map_app, list_sum_app. cbn [map Nat.add]. rewrite list_sum1, !extend_same, Nat.add_assoc. f_equal. f_equal. f_equal. apply map_ext_in. intros k Hk. apply in_seq in Hk. rewrite !extend_other by lia. reflexivity. }
    assert (FV : forall (h : state -> state) vs l, Forall (fun k => k <= N)%nat l -> Forall2 (fun v k => Amplitudes o v (h (ps k))) vs l -> Forall2 (fun v k => Amplitudes o v (h (extend ps (S N) psi' k))) vs l).
    { intros h vs l HF H2. induction H2 as [|v k vs l Hv _ IH2]; constructor; [|apply IH2; now inversion HF]. rewrite extend_other by (inversion HF; lia). exact Hv. }
    unfold lanczos_steps in *. destruct (qi_lanczos o) eqn:EL.
    + destruct (Nat.eqb_spec (qi_gap o) 0) as [Z|_]; [elim (Hg eq_refl Z)|]. rewrite seq_S, filter_app. cbn [Nat.add filter]. destruct (Nat.eqb_spec (S N mod qi_gap o) 0) as [EM|EM].
      * destruct (add_lanczos_ok o st' psi' HH HO) as (v & Hv & W1 & W2 & EA). rewrite EA. eexists _, (extend ps (S N) psi'), (extend idx N ix), (extend x N xx), (extend gs N g), (extend ph N p). split; [reflexivity|]. split; [apply TR; reflexivity|]. cbn [qs_vecs qs_Hvecs]. rewrite R7, R8. rewrite (app_comm_cons (filter _ _)). split; [|split].
        -- apply Forall2_app; [apply (FV (fun s => s)); assumption|]. constructor; [rewrite extend_same; exact W1|constructor].
        -- apply Forall2_app; [apply (FV (op_act (qi_ham o))); assumption|]. constructor; [rewrite extend_same; exact W2|constructor].
        -- apply Forall_app. split; [eapply Forall_impl; [|exact F3]; cbn; intros; lia|constructor; [lia|constructor]].
      * rewrite app_nil_r. eexists _, (extend ps (S N) psi'), (extend idx N ix), (extend x N xx), (extend gs N g), (extend ph N p). split; [reflexivity|]. split; [apply TR; reflexivity|]. rewrite R7, R8. split; [apply (FV (fun s => s)); assumption|]. split; [apply (FV (op_act (qi_ham o))); assumption|]. eapply Forall_impl; [|exact F3]; cbn; intros; lia.
    + eexists _, (extend ps (S N) psi'), (extend idx N ix), (extend x N xx), (extend gs N g), (extend ph N p). split; [reflexivity|]. split; [apply TR; reflexivity|]. rewrite R7, R8. split; [apply (FV (fun s => s)); assumption|]. split; [apply (FV (op_act (qi_ham o))); assumption|constructor].
Qed.
