(** C87: complete runs of UCCN-VQE. *)
From Coq Require Import Reals String List Arith Bool Lia Lra.
From Verif Require Import CBase Result Bits Spec OpSpec GateModel ComputerModel SafeProofs LibProofs CleanProofs SimProofs CircuitModel OperatorModel MeasureModel MeasureProofs SQSpec SQModel SQPoolModel PyModel PyApply PointModel CompactModel CompactApply ExpSpec ExpProofs AnsatzSpec AnsatzModel AnsatzProofs DiisModel PropDiis ResModel RunModel GradModel GradSpec GradCalc GradProofs GradAnsatz PropOperator PropMeasure PropAnsatz PropGrad PropRes RunProofs.
Import ListNotations.
Local Open Scope nat_scope.

(** ---- what is assumed of scipy.optimize.minimize ---- *)
(** fun is the value of the objective at x *)
Definition ReturnsAPoint (m : minimizer) : Prop := forall method opts f g x0 r, m method opts f g x0 = Ok r -> length (opt_x r) = length x0 /\ f (opt_x r) = Ok (opt_fun r).
(** and it is not above the value at the starting point *)
Definition NeverWorse (m : minimizer) : Prop := forall method opts f g x0 r e0, f x0 = Ok e0 -> m method opts f g x0 = Ok r -> (opt_fun r <= e0)%R.

(** ---- what is assumed of the algorithm object ---- *)
Definition LegalLibraries (L : libraries) (n : nat) (h : qop) : Prop :=
  legal_sort (srt L) /\ legal_term_sort (sort L) /\
  match par L with None => True | Some sched => legal_schedule sched /\ 1 <= n /\ Forall (fun t => Nat.even (count_Y (snd t)) = true) h end.
Definition Prepared (s : ucc) (n : nat) : Prop :=
  wf_computer (init s) /\ nqubit (init s) = n /\ Applicable n (Uprep s) /\ Hamiltonian n (ham s) /\ pool_type s <> "sa_SD"%string /\ (compact s = false -> 1 <= trotter_number s) /\
  inner n (reference s) (reference s) = C1.
(** amplitudes, one for every operator of the pool, with which the ansatz is an exact product of exponentials *)
Definition Admissible (s : ucc) (n : nat) (ts : list R) : Prop :=
  length ts = length (pool s) /\ Forall (fun x => Usable s n (fst x) (snd x)) (combine (seq 0 (length (pool s))) ts).
(** e is not above any energy *)
Definition EnergyBound (n : nat) (h : qop) (e : R) : Prop := forall psi, inner n psi psi = C1 -> (e <= energy n (op_act h) psi)%R.
(** E is the energy of the normalised state prod_mu exp(t_mu (tau_mu - tau_mu^dagger)) |reference> *)
Definition IsAnsatzEnergy (s : ucc) (n : nat) (ts : list R) (E : R) : Prop :=
  exists phi, exp_product (pqe_factors s ts) (reference s) phi /\ inner n phi phi = C1 /\ E = energy n (op_act (ham s)) phi.

Lemma start_energy L o s n ts : LegalLibraries L n (ham s) -> fast o = true -> Prepared s n -> Admissible s n ts ->
  exists U E, build_Uvqc (srt L) (sort L) (vqe_start s) (Some (map RtoC ts)) = Ok (Uprep s ++ U)%list /\ energy_of L o (vqe_start s) ts = Ok E /\ IsAnsatzEnergy s n ts E.
Proof.
  intros (L1 & L2 & L3) HF (W & N & AP & HH & Nt & T1 & NR) (LT & FU).
  destruct (energy_value L o (vqe_start s) n ts L1 L2) as (U & EB & AU & HU & EE); try assumption; [cbn [tops vqe_start]; now rewrite seq_length|].
  exists U. eexists. split; [exact EB|]. split; [exact EE|]. exists (circ_act U (reference s)). split; [apply HU|]. split; [|reflexivity]. destruct AU as (A1 & _ & A3). now rewrite (circ_preserves_inner n U _ _ A1 A3).
Qed.
Lemma ansatz_energy_bound s n ts E e : IsAnsatzEnergy s n ts E -> EnergyBound n (ham s) e -> (e <= E)%R.
Proof. intros (phi & _ & H1 & ->) HB. now apply HB. Qed.
Lemma admissible_zero s n ts : Admissible s n ts -> Admissible s n (repeat 0%R (length (pool s))).
Proof.
  intros (L & F). split; [apply repeat_length|]. revert L F. generalize (length (pool s)) as k, 0 as j. intros k. revert ts. induction k as [|k IH]; intros [|t ts] j L F; try discriminate; cbn [seq repeat combine]; [constructor|]. injection L as L. cbn [seq combine] in F. constructor; [cbn [fst snd]; exact (usable_zero _ _ _ _ (Forall_inv F))|]. exact (IH ts (S j) L (Forall_inv_tail F)).
Qed.
Lemma reference_energy s n E : IsAnsatzEnergy s n (repeat 0%R (length (pool s))) E -> E = energy n (op_act (ham s)) (reference s).
Proof.
  intros (phi & HP & _ & ->). assert (E : phi == reference s). { revert HP. apply product_zero. unfold pqe_factors. cbv zeta. assert (Z := factors_zero (qubit_excitations s) (pool s) (seq 0 (length (pool s)))). rewrite seq_length in Z. destruct (compact s); [exact Z|now apply steps_zero]. }
  apply state_eq in E. now rewrite E.
Qed.
(** the quasi-Newton direction has one entry for every operator *)
Lemma direction_length L o s orb_e : forall t u, (do g <- gradient_of L o (vqe_start s) t; do d <- over_denominators o orb_e (vqe_start s) (map RtoC (fst g)); Ok (d, snd g)) = Ok u -> length (fst u) = length (pool s).
Proof.
  intros t' u Hu. destruct (gradient_of _ _ _ _) as [g|]; [|discriminate]. cbn [bind] in Hu. unfold over_denominators in Hu. destruct (get_res_over_mpdenom _ _ _ _ _) as [d|] eqn:ED; [|discriminate]. cbn [bind] in Hu. injection Hu as <-. cbn [fst]. rewrite map_length. apply mpdenom_length in ED. rewrite ED. cbn [tops vqe_start]. apply seq_length.
Qed.
Lemma run_inv L o s r : vqe_run L o s = Ok r -> ReturnsAPoint (minimize L) \/ lower (optimizer o) = "jacobi"%string ->
  fast o = true /\ length (final_tamps r) = length (pool s) /\ energy_of L o (vqe_start s) (final_tamps r) = Ok (Egs r).
Proof.
  intros E HM. assert (HF : fast o = true).
  { destruct (fast o) eqn:EF; [reflexivity|exfalso]. assert (X : forall t, exists e, energy_of L o (vqe_start s) t = Throw e). { intros t. unfold energy_of. rewrite EF. destruct (build_Uvqc _ _ _ _); cbn [bind]; eauto. }
    unfold vqe_run in E. destruct (X (repeat 0%R (length (pool s)))) as (e & EX). destruct (String.eqb _ _).
    - unfold vqe_jacobi, quasi_newton in E. destruct (orbital_energies _ _ _); [|discriminate]. cbn [bind] in E. rewrite EX in E. discriminate.
    - unfold scipy_solve in E. rewrite EX in E. discriminate. }
  split; [exact HF|]. unfold vqe_run in E. destruct (String.eqb (lower (optimizer o)) "jacobi") eqn:EJ.
  - destruct (vqe_jacobi L o (vqe_start s) _) as [r0|] eqn:ER; [|discriminate]. cbn [bind] in E. injection E as <-. cbn [set_nonzero final_tamps Egs]. unfold vqe_jacobi in ER. destruct (orbital_energies _ _ _) as [orb_e|]; [|discriminate]. cbn [bind] in ER.
    match type of ER with bind (quasi_newton L o ?d ?en ?t0) _ = _ => set (dir := d) in *; destruct (quasi_newton L o dir en t0) as [((E1, t), k)|] eqn:EQ; [|discriminate] end. cbn [bind] in ER.
    destruct (build_Uvqc _ _ _ _); [|discriminate]. cbn [bind] in ER. injection ER as <-. cbn [final_tamps Egs].
    destruct (quasi_newton_ok L o dir (energy_of L o (vqe_start s)) (repeat 0%R (length (pool s))) (length (pool s)) (E1, t, k)) as (G1 & G2 & _); [|apply repeat_length|exact EQ|split; assumption].
    exact (direction_length L o s orb_e).
  - destruct (scipy_solve L o (vqe_start s) _) as [r0|] eqn:ER; [|discriminate]. cbn [bind] in E. injection E as <-. cbn [set_nonzero final_tamps Egs]. unfold scipy_solve in ER.
    destruct (energy_of _ _ _ _) as [e0|]; [|discriminate]. cbn [bind] in ER. destruct (minimize L _ _ _ _ _) as [r1|] eqn:EM; [|discriminate]. cbn [bind] in ER. destruct (reports _ _); [|discriminate]. cbn [bind] in ER. destruct (vqe_measures _ _ _); [|discriminate]. cbn [bind] in ER. destruct (build_Uvqc _ _ _ _); [|discriminate]. cbn [bind] in ER. injection ER as <-. cbn [final_tamps Egs].
    destruct HM as [HM|HM]; [|apply String.eqb_neq in EJ; contradiction]. destruct (HM _ _ _ _ _ _ EM) as (G1 & G2). rewrite repeat_length in G1. split; assumption.
Qed.

(** ---- the result of a run ---- *)
(** the reported energy is the energy of the ansatz state with the reported amplitudes; it is
    variational *)
Theorem C87_vqe_energy_partial : forall L o s n r, LegalLibraries L n (ham s) -> Prepared s n -> ReturnsAPoint (minimize L) \/ lower (optimizer o) = "jacobi"%string ->
  vqe_run L o s = Ok r -> length (final_tamps r) = length (pool s) /\
  (Admissible s n (final_tamps r) -> IsAnsatzEnergy s n (final_tamps r) (Egs r) /\ forall e, EnergyBound n (ham s) e -> (e <= Egs r)%R).
Proof.
  intros L o s n r HL HP HM E. destruct (run_inv L o s r E HM) as (HF & LT & EE). split; [exact LT|]. intros HA.
  destruct (start_energy L o s n (final_tamps r) HL HF HP HA) as (U & E1 & _ & E2 & HI). rewrite EE in E2. injection E2 as <-. split; [exact HI|]. intros e HB. exact (ansatz_energy_bound _ _ _ _ _ HI HB).
Qed.
Print Assumptions C87_vqe_energy_partial.
(** optimizers of scipy: not above the energy of the reference state *)
Theorem C87_vqe_not_above_reference : forall L o s n r, LegalLibraries L n (ham s) -> Prepared s n -> Admissible s n (repeat 0%R (length (pool s))) ->
  NeverWorse (minimize L) -> lower (optimizer o) <> "jacobi"%string -> vqe_run L o s = Ok r -> (Egs r <= energy n (op_act (ham s)) (reference s))%R.
Proof.
  intros L o s n r HL HP HA HM HJ E. unfold vqe_run in E. rewrite (proj2 (String.eqb_neq _ _) HJ) in E. destruct (scipy_solve L o (vqe_start s) _) as [r0|] eqn:ER; [|discriminate]. cbn [bind] in E. injection E as <-. cbn [set_nonzero Egs]. unfold scipy_solve in ER.
  destruct (energy_of L o (vqe_start s) (repeat 0%R (length (pool s)))) as [e0|] eqn:E0; [|discriminate]. cbn [bind] in ER. destruct (minimize L _ _ _ _ _) as [r1|] eqn:EM; [|discriminate]. cbn [bind] in ER. destruct (reports _ _); [|discriminate]. cbn [bind] in ER. destruct (vqe_measures _ _ _); [|discriminate]. cbn [bind] in ER. destruct (build_Uvqc _ _ _ _); [|discriminate]. cbn [bind] in ER. injection ER as <-. cbn [Egs].
  assert (HF : fast o = true). { unfold energy_of in E0. destruct (fast o); [reflexivity|]. destruct (build_Uvqc _ _ _ _); discriminate. }
  destruct (start_energy L o s n _ HL HF HP HA) as (U & E1 & _ & E2 & HI). rewrite E0 in E2. injection E2 as <-. rewrite <- (reference_energy s n e0 HI). exact (HM _ _ _ _ _ _ _ E0 EM).
Qed.
Print Assumptions C87_vqe_not_above_reference.
(** what the optimizer is given: the energy, and its exact gradient *)
Theorem C87_objective_and_gradient_partial : forall L o s n ts, LegalLibraries L n (ham s) -> Prepared s n -> (compact s = false -> trotter_number s = 1) -> fast o = true -> (noise_factor o <= 1e-14)%R -> pool s <> [] -> Admissible s n ts ->
  exists E g, energy_of L o (vqe_start s) ts = Ok E /\ IsAnsatzEnergy s n ts E /\ gradient_of L o (vqe_start s) ts = Ok (g, rnorm g) /\ length g = length (pool s) /\
    forall k, k < length (pool s) -> slope n (op_act (ham s)) (fun x => factors (qubit_excitations s) (pool s) (seq 0 (length (pool s))) (replace ts k x)) (reference s) (nth k ts 0%R) (nth k g 0%R).
Proof.
  intros L o s n ts HL HP HT HF HN NE HA. destruct (start_energy L o s n ts HL HF HP HA) as (U & E & _ & EE & HI). exists E. destruct HL as (L1 & L2 & _). destruct HP as (W & N & AP & HH & Nt & _ & _). destruct HA as (LT & FU).
  destruct (C63_gradient_partial (srt L) (sort L) L1 L2 (vqe_start s) n (Some (map RtoC ts)) ts) as (g & EG & LG & SG).
  - repeat (split; [assumption|]). exact HT.
  - reflexivity.
  - cbn [tops vqe_start]. destruct (pool s); [congruence|discriminate].
  - cbn [tops vqe_start]. now rewrite seq_length.
  - cbn [tamps tops vqe_start]. now rewrite map_length, repeat_length, seq_length.
  - exact FU.
  - exists g. split; [exact EE|]. split; [exact HI|]. cbn [tops vqe_start] in LG, SG. rewrite seq_length in LG, SG. split; [|split; [exact LG|exact SG]].
    unfold gradient_of. rewrite HF. cbn [negb]. rewrite EG. cbn [bind]. rewrite (Rltb_false 1e-14 (noise_factor o)) by exact HN. reflexivity.
Qed.
Print Assumptions C87_objective_and_gradient_partial.
(** quasi-Newton solver: at most opt_maxiter passes, each with one gradient; if it stops earlier,
    the gradient at the amplitudes before the last update was below the threshold *)
Theorem C87_jacobi_converged : forall L o s r, lower (optimizer o) = "jacobi"%string -> vqe_run L o s = Ok r ->
  1 <= res_vec_evals r <= opt_maxiter o /\
  (res_vec_evals r < opt_maxiter o -> exists t_old g norm, length t_old = length (pool s) /\ gradient_of L o (vqe_start s) t_old = Ok (g, norm) /\ (norm < opt_thresh o)%R).
Proof.
  intros L o s r HJ E. unfold vqe_run in E. rewrite HJ in E. cbn [String.eqb Ascii.eqb Bool.eqb] in E. destruct (vqe_jacobi L o (vqe_start s) _) as [r0|] eqn:ER; [|discriminate]. cbn [bind] in E. injection E as <-. cbn [set_nonzero res_vec_evals]. unfold vqe_jacobi in ER. destruct (orbital_energies _ _ _) as [orb_e|]; [|discriminate]. cbn [bind] in ER.
  match type of ER with bind (quasi_newton L o ?d ?en ?t0) _ = _ => set (dir := d) in *; destruct (quasi_newton L o dir en t0) as [((E1, t), k)|] eqn:EQ; [|discriminate] end. cbn [bind] in ER.
  destruct (build_Uvqc _ _ _ _); [|discriminate]. cbn [bind] in ER. injection ER as <-. cbn [res_vec_evals].
  destruct (quasi_newton_ok L o dir (energy_of L o (vqe_start s)) (repeat 0%R (length (pool s))) (length (pool s)) (E1, t, k)) as (_ & _ & G3 & G4); [exact (direction_length L o s orb_e)|apply repeat_length|exact EQ|]. split; [exact G3|]. intros Hk. destruct (G4 Hk) as (t_old & u & H1 & H2 & H3).
  unfold dir in H2. destruct (gradient_of L o (vqe_start s) t_old) as [(g, nm)|] eqn:EG; [|discriminate]. cbn [bind] in H2. destruct (over_denominators _ _ _ _); [|discriminate]. cbn [bind] in H2. injection H2 as <-. cbn [snd] in H3. now exists t_old, g, nm.
Qed.
Print Assumptions C87_jacobi_converged.
(** quasi-Newton solver: the counts.  For every pass and Hamiltonian term, one measurement for the
    energy and two per operator for the gradient *)
Theorem C87_jacobi_counts : forall L o s r, lower (optimizer o) = "jacobi"%string -> vqe_run L o s = Ok r ->
  length (final_tamps r) = length (pool s) /\ n_classical_params r = length (pool s) /\
  n_pauli_trm_measures r = Nl o * res_vec_evals r * (2 * length (pool s) + 1) /\ n_nonzero_params r = length (filter (fun t => Rltb 1e-12 (Rabs t)) (final_tamps r)) /\
  exists U, build_Uvqc (srt L) (sort L) (with_tamps (vqe_start s) (final_tamps r)) None = Ok U /\ n_cnot r = get_num_cnots U.
Proof.
  intros L o s r HJ E. unfold vqe_run in E. rewrite HJ in E. cbn [String.eqb Ascii.eqb Bool.eqb] in E. destruct (vqe_jacobi L o (vqe_start s) _) as [r0|] eqn:ER; [|discriminate]. cbn [bind] in E. injection E as <-. unfold vqe_jacobi in ER. destruct (orbital_energies _ _ _) as [orb_e|]; [|discriminate]. cbn [bind] in ER.
  match type of ER with bind (quasi_newton L o ?d ?en ?t0) _ = _ => set (dir := d) in *; destruct (quasi_newton L o dir en t0) as [((E1, t), k)|] eqn:EQ; [|discriminate] end. cbn [bind] in ER.
  destruct (build_Uvqc _ _ _ _) as [U|] eqn:EU; [|discriminate]. cbn [bind] in ER. injection ER as <-. cbn [set_nonzero res_vec_evals final_tamps n_classical_params n_pauli_trm_measures n_nonzero_params n_cnot].
  destruct (quasi_newton_ok L o dir (energy_of L o (vqe_start s)) (repeat 0%R (length (pool s))) (length (pool s)) (E1, t, k)) as (G2 & _ & _ & _); [exact (direction_length L o s orb_e)|apply repeat_length|exact EQ|]. cbn [fst snd] in G2.
  split; [exact G2|]. split; [exact G2|]. split; [rewrite G2; lia|]. split; [reflexivity|]. exists U. split; [exact EU|reflexivity].
Qed.
Print Assumptions C87_jacobi_counts.
Lemma measures_sum l j Nl0 : forall m, foreach l (fun tmu m => if Rltb 1e-12 (Rabs tmu) then Ok (m + 2 * Nl0 * j) else Ok m) m = Ok (m + 2 * Nl0 * j * nonzero_params l).
Proof.
  induction l as [|t l IH]; intros m; cbn [foreach]; [unfold nonzero_params; cbn [filter length]; f_equal; lia|]. unfold nonzero_params in *. cbn [filter]. destruct (Rltb 1e-12 (Rabs t)); cbn [bind length]; rewrite IH; f_equal; lia.
Qed.
Lemma reports_off o nit : print_summary_file o = false -> reports (vqe_report o) nit = Ok [].
Proof.
  intros H. unfold reports. generalize 1. induction nit as [|k IH]; intros j; cbn [seq foreach]; [reflexivity|]. unfold vqe_report at 1. rewrite H, andb_false_r. cbn [bind]. apply IH.
Qed.
(** the run succeeds when the optimizer does, with these counts: for every Hamiltonian term one
    measurement per energy, and two per gradient and operator with non-zero amplitude *)
Theorem C87_vqe_counts : forall L o s n r, LegalLibraries L n (ham s) -> Prepared s n -> fast o = true -> print_summary_file o = false -> lower (optimizer o) <> "jacobi"%string -> Admissible s n (repeat 0%R (length (pool s))) ->
  minimize L (optimizer o) (vqe_opts o) (energy_of L o (vqe_start s)) (if analytic o then Some (fun t => do g <- gradient_of L o (vqe_start s) t; Ok (fst g)) else None) (repeat 0%R (length (pool s))) = Ok r ->
  Admissible s n (opt_x r) -> (analytic o = true -> opt_njev r <> None) ->
  exists U, vqe_run L o s = Ok (mkResult (opt_fun r) (opt_x r) (length (pool s)) (get_num_cnots U)
      (match opt_njev r with Some j => if analytic o then 2 * Nl o * j * nonzero_params (opt_x r) else 0 | None => 0 end + Nl o * opt_nfev r) (nonzero_params (opt_x r)) (match opt_njev r with Some j => j | None => 0 end) []) /\
    build_Uvqc (srt L) (sort L) (with_tamps (vqe_start s) (opt_x r)) None = Ok U.
Proof.
  intros L o s n r HL HP HF HS HJ HA0 EM HA HG. unfold vqe_run. rewrite (proj2 (String.eqb_neq _ _) HJ). unfold scipy_solve. destruct (start_energy L o s n _ HL HF HP HA0) as (_ & E0 & _ & EE & _). rewrite EE. cbn [bind]. rewrite EM. cbn [bind]. rewrite reports_off by exact HS. cbn [bind].
  destruct (start_energy L o s n _ HL HF HP HA) as (U & _ & EB & _ & _). exists (Uprep s ++ U)%list.
  assert (EB' : build_Uvqc (srt L) (sort L) (with_tamps (vqe_start s) (opt_x r)) None = Ok (Uprep s ++ U)%list) by exact EB.
  split; [|exact EB']. unfold vqe_measures. destruct (analytic o) eqn:EA.
  - destruct (opt_njev r) as [j|] eqn:EJ; [|now elim (HG eq_refl)]. rewrite measures_sum. cbn [bind]. rewrite EB'. cbn [bind set_nonzero Egs final_tamps n_classical_params n_cnot n_pauli_trm_measures res_vec_evals summary]. rewrite (proj1 HA). reflexivity.
  - cbn [bind]. rewrite EB'. cbn [bind]. unfold set_nonzero. cbn [Egs final_tamps n_classical_params n_cnot n_pauli_trm_measures res_vec_evals summary]. rewrite (proj1 HA). destruct (opt_njev r); reflexivity.
Qed.
Print Assumptions C87_vqe_counts.
(** slow mode: no run succeeds, with either kind of optimizer *)
Theorem C87_slow_mode_refuted : forall L o s, fast o = false -> exists e, vqe_run L o s = Throw e.
Proof.
  intros L o s HF. destruct (vqe_run L o s) as [r|e] eqn:E; [|now exists e]. exfalso. destruct (String.eqb (lower (optimizer o)) "jacobi") eqn:EJ.
  - apply String.eqb_eq in EJ. destruct (run_inv L o s r E (or_intror EJ)) as (X & _). congruence.
  - unfold vqe_run in E. rewrite EJ in E. unfold scipy_solve, energy_of in E. rewrite HF in E. destruct (build_Uvqc _ _ _ _); discriminate.
Qed.
Print Assumptions C87_slow_mode_refuted.
Theorem C87_slow_mode_name_error : forall L o s n, LegalLibraries L n (ham s) -> Prepared s n -> Admissible s n (repeat 0%R (length (pool s))) -> fast o = false -> lower (optimizer o) <> "jacobi"%string -> vqe_run L o s = Throw (PyError "NameError").
Proof.
  intros L o s n HL HP HA HF HJ. unfold vqe_run. rewrite (proj2 (String.eqb_neq _ _) HJ). unfold scipy_solve. unfold energy_of at 1. rewrite HF.
  set (o' := mkRun (optimizer o) (use_analytic_grad o) (opt_thresh o) (opt_ftol o) (opt_maxiter o) (noise_factor o) (diis_max_dim o) true (print_summary_file o) (state_prep_type o) (ref o) (refprep o) (hf_orbitals o) (Nl o)).
  destruct (start_energy L o' s n _ HL eq_refl HP HA) as (U & _ & EB & _). rewrite EB. reflexivity.
Qed.
Print Assumptions C87_slow_mode_name_error.
(** methods without gradients: "nelder-mead", "powell" and "cobyla" switch analytic gradients off;
    with scipy's own spelling they stay on, and the run ends with an AttributeError after the
    optimization *)
Theorem C87_gradient_free_spelling_refuted : forall L o s n r, LegalLibraries L n (ham s) -> Prepared s n -> fast o = true -> print_summary_file o = false -> use_analytic_grad o = true -> In (optimizer o) ["Nelder-Mead"; "Powell"; "COBYLA"]%string -> Admissible s n (repeat 0%R (length (pool s))) ->
  minimize L (optimizer o) (vqe_opts o) (energy_of L o (vqe_start s)) (Some (fun t => do g <- gradient_of L o (vqe_start s) t; Ok (fst g))) (repeat 0%R (length (pool s))) = Ok r ->
  opt_njev r = None -> 0 < nonzero_params (opt_x r) -> vqe_run L o s = Throw (PyError "AttributeError").
Proof.
  intros L o s n r HL HP HF HS HG HO HA EM EJ HN.
  assert (AN : analytic o = true) by (unfold analytic; rewrite HG; destruct HO as [<-|[<-|[<-|[]]]]; reflexivity).
  assert (NJ : String.eqb (lower (optimizer o)) "jacobi" = false) by (destruct HO as [<-|[<-|[<-|[]]]]; reflexivity).
  unfold vqe_run. rewrite NJ. unfold scipy_solve. destruct (start_energy L o s n _ HL HF HP HA) as (_ & E0 & _ & EE & _). rewrite EE. cbn [bind]. rewrite AN, EM. cbn [bind]. rewrite reports_off by exact HS. cbn [bind]. unfold vqe_measures. rewrite AN, EJ.
  assert (G : forall l m, 0 < nonzero_params l -> foreach l (fun tmu (m : nat) => if Rltb 1e-12 (Rabs tmu) then Throw (PyError "AttributeError") else Ok m) m = Throw (PyError "AttributeError")).
  { unfold nonzero_params. induction l as [|t l IH]; intros m Hm; cbn [filter length] in Hm; [lia|]. cbn [foreach]. destruct (Rltb 1e-12 (Rabs t)); [reflexivity|]. cbn [bind]. now apply IH. }
  rewrite G by exact HN. reflexivity.
Qed.
Print Assumptions C87_gradient_free_spelling_refuted.
Theorem C87_gradient_free : forall o, In (optimizer o) ["nelder-mead"; "powell"; "cobyla"]%string -> analytic o = false.
Proof. intros o H. unfold analytic. destruct H as [<-|[<-|[<-|[]]]]; cbn; apply andb_false_r. Qed.
Print Assumptions C87_gradient_free.
(** the convergence threshold reaches the gradient-based optimizers under scipy's spelling of
    their names, and not under other spellings that scipy also accepts *)
Theorem C87_threshold : forall o, In (optimizer o) ["BFGS"; "CG"; "L-BFGS-B"; "TNC"; "trust-constr"]%string -> In ("gtol"%string, opt_thresh o) (vqe_opts o).
Proof. intros o H. unfold vqe_opts. apply in_or_app. right. apply in_or_app. left. destruct H as [<-|[<-|[<-|[<-|[<-|[]]]]]]; cbn; now left. Qed.
Print Assumptions C87_threshold.
Theorem C87_threshold_spelling_refuted : forall o, optimizer o = "bfgs"%string -> vqe_opts o = [("maxiter"%string, INR (opt_maxiter o))].
Proof. intros o H. unfold vqe_opts. rewrite H. reflexivity. Qed.
Print Assumptions C87_threshold_spelling_refuted.
(** with a summary file every optimization of two or more iterations raises; after one iteration
    the file holds the header twice and no iteration *)
Theorem C87_summary_file_refuted : forall o nit, print_summary_file o = true ->
  reports (vqe_report o) nit = match nit with 0 => Ok [] | 1 => Ok [Header; Header] | _ => Throw (PyError "UnboundLocalError") end.
Proof. intros o nit H. destruct nit as [|[|nit]]; unfold reports; cbn [seq foreach]; unfold vqe_report; rewrite ?H; reflexivity. Qed.
Print Assumptions C87_summary_file_refuted.

(** ---- an algorithm object that meets the hypotheses ---- *)
Lemma occupation_reference rf rp D s : build_refprep rf = Ok rp -> Occupations rf D -> Uprep s = rp -> init s = new_computer (length rf) -> reference s = ket D.
Proof.
  intros ER HD EU EI. rewrite StateProofs.refprep_eq in ER. injection ER as <-. unfold reference. rewrite EU, EI. apply state_eq. eapply seq_trans; [apply circ_act_ext; intros I; apply new_computer_ket0|].
  intros I. rewrite StateProofs.xgates_act, StateProofs.flips_ket. f_equal. apply bits_ext. intros k. rewrite StateProofs.bit_flips, (HD k), Nat.sub_0_r. unfold bit at 1. rewrite Nat.bits_0. cbn [Nat.leb andb]. apply xorb_false_l.
Qed.
Lemma prepared_occupations rf rp s : length rf <= 64 -> build_refprep rf = Ok rp -> Uprep s = rp -> init s = new_computer (length rf) -> Hamiltonian (length rf) (ham s) -> pool_type s <> "sa_SD"%string -> (compact s = false -> 1 <= trotter_number s) ->
  exists D, Occupations rf D /\ D < 2 ^ length rf /\ reference s = ket D /\ Prepared s (length rf).
Proof.
  intros Ln ER EU EI HH Nt T1. destruct (ResProofs.start_det rf Ln) as (_ & D & _ & _ & _ & HD). pose proof (ResProofs.det_small rf D HD) as LD. exists D. split; [exact HD|]. split; [exact LD|]. pose proof (occupation_reference rf rp D s ER HD EU EI) as RD. split; [exact RD|].
  split; [rewrite EI; apply new_computer_wf|]. split; [rewrite EI; reflexivity|]. split; [rewrite EU; rewrite StateProofs.refprep_eq in ER; injection ER as <-; now apply StateProofs.xgates_applicable|]. split; [exact HH|]. split; [exact Nt|]. split; [exact T1|]. rewrite RD, QftProofs.inner_ket by exact LD. unfold ket. now rewrite Nat.eqb_refl.
Qed.

(** compares the energies of two points and returns the better one *)
Definition two_points (x1 : list R) : minimizer := fun method opts f g x0 =>
  do a <- f x0;
  if Nat.eqb (length x1) (length x0) then do b <- f x1; if Rltb b a then Ok (mkOpt x1 b 2 1 (Some 0)) else Ok (mkOpt x0 a 2 1 (Some 0))
  else Ok (mkOpt x0 a 1 1 (Some 0)).
Lemma two_points_legal x1 : ReturnsAPoint (two_points x1) /\ NeverWorse (two_points x1).
Proof.
  split.
  - intros method opts f g x0 r E. unfold two_points in E. destruct (f x0) as [a|] eqn:Ea; [|discriminate]. cbn [bind] in E. destruct (Nat.eqb_spec (length x1) (length x0)) as [EL|]; [|injection E as <-; now split]. destruct (f x1) as [b|] eqn:Eb; [|discriminate]. cbn [bind] in E. destruct (Rltb b a); injection E as <-; now split.
  - intros method opts f g x0 r e0 E0 E. unfold two_points in E. rewrite E0 in E. cbn [bind] in E. destruct (Nat.eqb _ _); [|injection E as <-; cbn; lra]. destruct (f x1) as [b|]; [|discriminate]. cbn [bind] in E. destruct (Rltb_spec b e0); injection E as <-; cbn; lra.
Qed.
Definition example_libraries : libraries := mkLib (two_points [1/2; -1/3]%R) (fun _ _ _ _ => 0%R) (fun _ m _ => m) None PropSQ.isort tsort.
Definition example_options (opt : string) : run_options := mkRun opt true (1/100000) (1/100000) 50 0 8 true false "occupation_list" [1; 1; 0; 0] (StateProofs.xgates 0 [1; 1; 0; 0]) None 1.
Lemma example_hamiltonian : Hamiltonian 4 GradExample.XX.
Proof. apply C65_nonvacuous. Qed.
Lemma example_prepared compact m : 1 <= m -> Prepared (pqe_example compact m) 4.
Proof.
  intros Hm. destruct (prepared_occupations [1; 1; 0; 0] _ (pqe_example compact m) ltac:(cbn; lia) (StateProofs.refprep_eq _) eq_refl eq_refl example_hamiltonian ltac:(discriminate) (fun _ => Hm)) as (_ & _ & _ & _ & HP). exact HP.
Qed.
Example C87_nonvacuous : let s := pqe_example false 2 in let o := example_options "BFGS" in let L := example_libraries in
  LegalLibraries L 4 (ham s) /\ Prepared s 4 /\ ReturnsAPoint (minimize L) /\ NeverWorse (minimize L) /\ Admissible s 4 [0; 0]%R /\ Admissible s 4 [1/2; -1/3]%R /\
  exists r, vqe_run L o s = Ok r /\ Admissible s 4 (final_tamps r) /\ (Egs r <= energy 4 (op_act (ham s)) (reference s))%R.
Proof.
  intros s o L. assert (HL : LegalLibraries L 4 (ham s)) by (split; [exact PropSQ.isort_legal|split; [exact tsort_legal|exact Logic.I]]). assert (HP : Prepared s 4) by (apply example_prepared; lia).
  assert (HA : Admissible s 4 [1/2; -1/3]%R) by (split; [reflexivity|apply C65_nonvacuous]). pose proof (admissible_zero _ _ _ HA) as H0. change (repeat 0%R (length (pool s))) with [0; 0]%R in H0.
  destruct (two_points_legal [1/2; -1/3]%R) as (M1 & M2). repeat (split; [assumption|]).
  destruct (start_energy L o s 4 _ HL eq_refl HP H0) as (_ & a & _ & Ea & _). destruct (start_energy L o s 4 _ HL eq_refl HP HA) as (_ & b & _ & Eb & _).
  assert (EM : exists r, minimize L (optimizer o) (vqe_opts o) (energy_of L o (vqe_start s)) (if analytic o then Some (fun t => do g <- gradient_of L o (vqe_start s) t; Ok (fst g)) else None) [0; 0]%R = Ok r /\ Admissible s 4 (opt_x r) /\ opt_njev r = Some 0).
  { cbn [minimize L example_libraries]. unfold two_points. rewrite Ea. cbn [bind length Nat.eqb]. rewrite Eb. cbn [bind]. destruct (Rltb b a); eexists; (split; [reflexivity|]); cbn [opt_x opt_njev]; split; auto. }
  destruct EM as (r & EM & HX & EJ). destruct (C87_vqe_counts L o s 4 r HL HP eq_refl eq_refl ltac:(discriminate) H0 EM HX ltac:(intros _; rewrite EJ; discriminate)) as (U & ER & _).
  eexists. split; [exact ER|]. split; [exact HX|]. exact (C87_vqe_not_above_reference L o s 4 _ HL HP H0 M2 ltac:(discriminate) ER).
Qed.
