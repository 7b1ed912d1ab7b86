(** C88: complete runs of UCCN-PQE. *)
From Coq Require Import Reals String List Arith Bool Lia Lra.
From Verif Require Import CBase Result Bits Spec OpSpec GateModel ComputerModel SafeProofs LibProofs CleanProofs SimProofs CircuitModel OperatorModel MeasureModel MeasureProofs SQSpec SQModel SQPoolModel PyModel PyApply PointModel CompactModel CompactApply ExpSpec ExpProofs AnsatzSpec AnsatzModel AnsatzProofs DiisModel PropDiis ResModel RunModel GradModel GradSpec GradCalc GradProofs GradAnsatz PropOperator PropMeasure PropAnsatz PropGrad PropRes RunProofs PropRun.
Import ListNotations.
Local Open Scope nat_scope.

(** ---- what is assumed of the algorithm object: an occupation-list reference, and a pool of
    excitations of it ---- *)
Definition PqeObject (o : run_options) (s : ucc) : Prop :=
  length (ref o) <= 64 /\ build_refprep (ref o) = Ok (refprep o) /\ Uprep s = refprep o /\ init s = new_computer (length (ref o)) /\ Hamiltonian (length (ref o)) (ham s) /\
  pool_type s <> "sa_SD"%string /\ (compact s = false -> 1 <= trotter_number s) /\ Forall (ExcitationEntry (ref o)) (pool s).
(** rs are the residuals <Phi_mu|U(t)^dagger H U(t)|Phi_0>, one for every operator of the pool;
    Phi_mu is the operator applied to the reference determinant *)
Definition Residuals (s : ucc) (n : nat) (ts : list R) (rs : list C) : Prop := exists D, reference s = ket D /\ D < 2 ^ n /\
  Forall2 (fun e r => Projection n (op_act (ham s)) (pqe_factors s ts) D (act (qubit_excitations s) (snd e) (ket D)) r) (pool s) rs.
Definition square_norm (rs : list C) : R := fold_right Rplus 0%R (map (fun c => Cabs c * Cabs c)%R rs).
Lemma square_norm_norm2 rs : norm2 rs = sqrt (square_norm rs).
Proof.
  unfold norm2, square_norm. f_equal. induction rs as [|r rs IH]; cbn [map fold_right]; [reflexivity|]. rewrite <- IH. f_equal. unfold Cabs. rewrite sqrt_sqrt; [reflexivity|]. unfold Cnorm2. nra.
Qed.
Lemma occupations_unique rf D D' : Occupations rf D -> Occupations rf D' -> D = D'.
Proof. intros H H'. apply bits_ext. intros q. now rewrite H, H'. Qed.
(** the objects that a run works with *)
Lemma pqe_setup L o s : let n := length (ref o) in LegalLibraries L n (ham s) -> PqeObject o s ->
  exists D pool' dets, Occupations (ref o) D /\ reference s = ket D /\ D < 2 ^ n /\ Prepared s n /\ fill_excited_dets (srt L) (qubit_excitations s) (ref o) (refprep o) (pool s) [] = Ok (pool', dets) /\ length pool' = length (pool s) /\
  (forall ts, Admissible s n ts -> fast o = true -> exists U E, build_Uvqc (srt L) (sort L) (pqe_start s pool') (Some (map RtoC ts)) = Ok (Uprep s ++ U)%list /\ energy_of L o (pqe_start s pool') ts = Ok E /\ IsAnsatzEnergy s n ts E) /\
  (forall ts, Admissible s n ts -> exists rs, Residuals s n ts rs /\
    (Forall (fun t => Nat.even (count_Y (snd t)) = true) (ham s) -> Forall (fun r => Im r = 0%R) rs) /\
    (forall g, (noise_factor o <= 1e-12)%R -> get_residual_vector (srt L) (sort L) (pqe_start s pool') (length (ref o)) dets (noise_factor o) (normal L) (map RtoC ts) = Ok g -> g = (rs, sqrt (square_norm rs))) /\
    (Forall (fun r => Im r = 0%R) rs -> (noise_factor o <= 1e-12)%R -> get_residual_vector (srt L) (sort L) (pqe_start s pool') (length (ref o)) dets (noise_factor o) (normal L) (map RtoC ts) = Ok (rs, sqrt (square_norm rs)))).
Proof.
  intros n (L1 & L2 & L3) (Ln & ER & EU & EI & HH & Nt & T1 & FE).
  destruct (prepared_occupations (ref o) (refprep o) s Ln ER EU EI HH Nt T1) as (D & HD & LD & RD & HP).
  destruct (C65_excited_determinants (srt L) L1 (qubit_excitations s) (ref o) (refprep o) (pool s) ER Ln FE) as (D1 & pool' & dets & HD1 & EF & _ & _ & FS). pose proof (occupations_unique _ _ _ HD1 HD) as Q; subst D1; clear HD1.
  destruct (C65_residuals_partial (srt L) (sort L) L1 L2 s (ref o) (refprep o) ER EU Ln Nt T1 (ham_applicable _ _ HH) FE) as (D1 & pool1 & dets1 & HD1 & EF1 & G). pose proof (occupations_unique _ _ _ HD1 HD) as Q; subst D1; clear HD1. rewrite EF in EF1. injection EF1 as <- <-.
  exists D, pool', dets. split; [exact HD|]. split; [exact RD|]. split; [exact LD|]. split; [exact HP|]. split; [exact EF|]. split; [symmetry; apply (forall2_len _ _ _ FS)|]. split.
  - intros ts (LT & FU) HF. destruct HP as (W & N & AP & _ & _ & _ & NR). set (s' := pqe_start s pool').
    assert (FU' : Forall (fun x => Usable s' n (fst x) (snd x)) (combine (tops s') ts)). { eapply Forall_impl; [|exact FU]. intros x Hx. now apply (usable_after (ref o)). }
    destruct (energy_value L o s' n ts L1 L2) as (U & EB & AU & HU & EE); try assumption; [cbn [tops s' pqe_start initialize_ansatz fst app]; now rewrite seq_length|].
    assert (EL : product_of s' ts = pqe_factors s ts).
    { unfold pqe_factors, product_of. cbv zeta. change (qubit_excitations s') with (qubit_excitations s). change (compact s') with (compact s). change (trotter_number s') with (trotter_number s). change (pool s') with pool'. change (tops s') with (seq 0 (length (pool s))). rewrite (factors_same _ (pool s) pool'); [reflexivity|exact FS|]. apply Forall_forall. intros x Ix. apply in_seq in Ix. lia. }
    rewrite EL in HU. exists U. eexists. split; [exact EB|]. split; [exact EE|]. exists (circ_act U (reference s)). split; [apply HU|]. split; [|reflexivity]. destruct AU as (A1 & _ & A3). now rewrite (circ_preserves_inner n U _ _ A1 A3).
  - intros ts (LT & FU). destruct (G ts LT FU) as (rs & FR & RE & GR). exists rs. split; [now exists D|]. split; [now apply RE|]. destruct (GR (noise_factor o) (normal L)) as (G1 & G2 & G3). fold (pqe_start s pool') in *. change (pqe_object s pool') with (pqe_start s pool') in *. rewrite <- square_norm_norm2. split; [|exact G1].
    intros g HN E. destruct (Forall_Exists_dec (fun r => Im r = 0%R) (fun r => Req_EM_T (Im r) 0) rs) as [F|F]; [rewrite (G1 F HN) in E; now injection E|]. rewrite (G3 F) in E. discriminate.
Qed.
Lemma fast_energy L o s t E : energy_of L o s t = Ok E -> fast o = true.
Proof. unfold energy_of. destruct (fast o); [reflexivity|]. destruct (build_Uvqc _ _ _ _); discriminate. Qed.
Lemma pqe_direction_length L o s pool' dets orb_e : forall t u, (do g <- get_residual_vector (srt L) (sort L) (pqe_start s pool') (length (ref o)) dets (noise_factor o) (normal L) (map RtoC t); do d <- over_denominators o orb_e (pqe_start s pool') (fst g); Ok (d, snd g)) = Ok u -> length (fst u) = length (pool s).
Proof.
  intros t u Hu. destruct (get_residual_vector _ _ _ _ _ _ _ _) as [g|]; [|discriminate]. cbn [bind] in Hu. unfold over_denominators in Hu. destruct (get_res_over_mpdenom _ _ _ _ _) as [d|] eqn:ED; [|discriminate]. cbn [bind] in Hu. injection Hu as <-. cbn [fst]. rewrite map_length. apply mpdenom_length in ED. rewrite ED. cbn [tops pqe_start initialize_ansatz fst app]. apply seq_length.
Qed.
(** what a run that ends tells *)
Lemma pqe_inv L o s r : pqe_run L o s = Ok r -> state_prep_type o = "occupation_list"%string /\ exists pool' dets orb_e file, fill_excited_dets (srt L) (qubit_excitations s) (ref o) (refprep o) (pool s) [] = Ok (pool', dets) /\
  pqe_solve L o (pqe_start s pool') orb_e dets (repeat 0%R (length (pool s))) = Ok (Egs r, final_tamps r, res_vec_evals r, file) /\
  n_classical_params r = length (final_tamps r) /\ n_nonzero_params r = nonzero_params (final_tamps r) /\ n_pauli_trm_measures r = 2 * Nl o * res_vec_evals r * n_nonzero_params r + Nl o * res_vec_evals r /\ summary r = file.
Proof.
  unfold pqe_run. intros E. destruct (String.eqb (state_prep_type o) "occupation_list") eqn:ES; [|discriminate]. cbn [negb] in E. split; [now apply String.eqb_eq|].
  destruct (fill_excited_dets _ _ _ _ _ _) as [(pool', dets)|]; [|discriminate]. cbn [bind fst snd] in E. destruct (orbital_energies _ _ _) as [orb_e|]; [|discriminate]. cbn [bind] in E.
  destruct (pqe_solve _ _ _ _ _ _) as [(((E1, t), k), file)|] eqn:EQ; [|discriminate]. cbn [bind] in E. destruct (build_Uvqc _ _ _ _); [|discriminate]. cbn [bind] in E. injection E as <-. exists pool', dets, orb_e, file. cbn [Egs final_tamps res_vec_evals n_classical_params n_nonzero_params n_pauli_trm_measures summary]. repeat (split; [reflexivity|]). split; [exact EQ|]. repeat (split; [reflexivity|]). reflexivity.
Qed.
Lemma solve_inv L o s pool' dets orb_e q : pqe_solve L o (pqe_start s pool') orb_e dets (repeat 0%R (length (pool s))) = Ok q ->
  (lower (optimizer o) = "jacobi"%string /\ exists k E t, q = (E, t, k, []) /\ length t = length (pool s) /\ energy_of L o (pqe_start s pool') t = Ok E /\ 1 <= k <= opt_maxiter o /\
     (k < opt_maxiter o -> exists t_old g, length t_old = length (pool s) /\ get_residual_vector (srt L) (sort L) (pqe_start s pool') (length (ref o)) dets (noise_factor o) (normal L) (map RtoC t_old) = Ok g /\ (snd g < opt_thresh o)%R)) \/
  (In (lower (optimizer o)) ["nelder-mead"; "powell"; "bfgs"; "l-bfgs-b"; "cg"; "slsqp"]%string /\ exists r file E, q = (E, opt_x r, opt_nfev r, file) /\ minimize L (optimizer o) (pqe_opts o) (sum_residual_square L o (pqe_start s pool') dets) None (repeat 0%R (length (pool s))) = Ok r /\
     reports (pqe_report o) (opt_nit r) = Ok file /\ energy_of L o (pqe_start s pool') (opt_x r) = Ok E).
Proof.
  unfold pqe_solve. intros E. destruct (String.eqb (lower (optimizer o)) "jacobi") eqn:EJ.
  - left. apply String.eqb_eq in EJ. split; [exact EJ|]. unfold pqe_jacobi in E.
    match type of E with bind (quasi_newton L o ?d ?en ?t0) _ = _ => set (dir := d) in *; destruct (quasi_newton L o dir en t0) as [((E1, t), k)|] eqn:EQ; [|discriminate] end. cbn [bind fst snd] in E. injection E as <-. exists k, E1, t. split; [reflexivity|].
    destruct (quasi_newton_ok L o dir (energy_of L o (pqe_start s pool')) (repeat 0%R (length (pool s))) (length (pool s)) (E1, t, k)) as (G1 & G2 & G3 & G4); [exact (pqe_direction_length L o s pool' dets orb_e)|apply repeat_length|exact EQ|]. split; [exact G1|]. split; [exact G2|]. split; [exact G3|]. intros Hk. destruct (G4 Hk) as (t_old & u & H1 & H2 & H3). exists t_old.
    unfold dir in H2. destruct (get_residual_vector _ _ _ _ _ _ _ _) as [g|]; [|discriminate]. cbn [bind] in H2. destruct (over_denominators _ _ _ _); [|discriminate]. cbn [bind] in H2. injection H2 as <-. cbn [snd] in H3. exists g. auto.
  - right. match type of E with (if isin ?a ?b then _ else _) = _ => destruct (isin a b) eqn:EI; [|discriminate] end. split. { unfold isin in EI. apply existsb_exists in EI. destruct EI as (x & Ix & Ex). apply String.eqb_eq in Ex. rewrite Ex. exact Ix. }
    unfold pqe_scipy in E. destruct (energy_of L o (pqe_start s pool') (repeat _ _)); [|discriminate]. cbn [bind] in E. destruct (minimize L _ _ _ _ _) as [r|]; [|discriminate]. cbn [bind] in E. destruct (reports _ _) as [file|] eqn:EP; [|discriminate]. cbn [bind] in E. destruct (energy_of L o (pqe_start s pool') (opt_x r)) as [E1|] eqn:EE; [|discriminate]. cbn [bind] in E. injection E as <-. exists r, file, E1. auto.
Qed.

(** ---- the result of a run ---- *)
(** the reported energy is the energy of the ansatz state with the reported amplitudes; it is
    variational, although the amplitudes come from projections *)
Theorem C88_pqe_energy_partial : forall L o s r, let n := length (ref o) in LegalLibraries L n (ham s) -> PqeObject o s -> ReturnsAPoint (minimize L) \/ lower (optimizer o) = "jacobi"%string ->
  pqe_run L o s = Ok r -> length (final_tamps r) = length (pool s) /\
  (Admissible s n (final_tamps r) -> IsAnsatzEnergy s n (final_tamps r) (Egs r) /\ forall e, EnergyBound n (ham s) e -> (e <= Egs r)%R).
Proof.
  intros L o s r n HL HO HM E. destruct (pqe_setup L o s HL HO) as (D & pool' & dets & _ & _ & _ & _ & EF & _ & GE & _). destruct (pqe_inv L o s r E) as (_ & p1 & d1 & orb_e & file & EF1 & ES & _). rewrite EF in EF1. injection EF1 as <- <-.
  assert (X : length (final_tamps r) = length (pool s) /\ energy_of L o (pqe_start s pool') (final_tamps r) = Ok (Egs r)).
  { destruct (solve_inv _ _ _ _ _ _ _ ES) as [(EJ & k & E1 & t & EQ & G1 & G2 & _)|(HI & q & f & E1 & EQ & EM & _ & G2)].
    - injection EQ as -> -> _ _. auto.
    - injection EQ as -> -> _ _. split; [|exact G2]. destruct HM as [HM|HM]; [|exfalso; cbn [In] in HI; rewrite HM in HI; cbn in HI; intuition discriminate]. destruct (HM _ _ _ _ _ _ EM) as (G1 & _). now rewrite repeat_length in G1. }
  destruct X as (LT & EE). split; [exact LT|]. intros HA. destruct (GE _ HA (fast_energy _ _ _ _ _ EE)) as (U & E1 & _ & E2 & HI). rewrite EE in E2. injection E2 as <-. split; [exact HI|]. intros e HB. exact (ansatz_energy_bound _ _ _ _ _ HI HB).
Qed.
Print Assumptions C88_pqe_energy_partial.
(** optimizers of scipy: the sum of the squared residuals is not above that of the reference *)
Theorem C88_residuals_not_worse_partial : forall L o s r, let n := length (ref o) in LegalLibraries L n (ham s) -> PqeObject o s -> ReturnsAPoint (minimize L) -> NeverWorse (minimize L) -> lower (optimizer o) <> "jacobi"%string -> (noise_factor o <= 1e-12)%R ->
  pqe_run L o s = Ok r -> Admissible s n (final_tamps r) ->
  exists rs0 rs, Residuals s n (repeat 0%R (length (pool s))) rs0 /\ Residuals s n (final_tamps r) rs /\
    (Forall (fun r => Im r = 0%R) rs0 -> (square_norm rs <= square_norm rs0)%R).
Proof.
  intros L o s r n HL HO HM HW HJ HN E HA. destruct (pqe_setup L o s HL HO) as (D & pool' & dets & _ & _ & _ & _ & EF & _ & _ & GR). destruct (pqe_inv L o s r E) as (_ & p1 & d1 & orb_e & file & EF1 & ES & _). rewrite EF in EF1. injection EF1 as <- <-.
  destruct (GR _ (admissible_zero _ _ _ HA)) as (rs0 & R0 & _ & _ & C0'). destruct (GR _ HA) as (rs & R1 & _ & C1' & _). exists rs0, rs. split; [exact R0|]. split; [exact R1|]. intros I0. specialize (C0' I0 HN).
  destruct (solve_inv _ _ _ _ _ _ _ ES) as [(EJ & _)|(_ & q & f & E1 & EQ & EM & _ & _)]; [contradiction|]. injection EQ as _ ET _ _. rewrite ET in *. destruct (HM _ _ _ _ _ _ EM) as (_ & EV). unfold sum_residual_square at 1 in EV.
  destruct (get_residual_vector _ _ _ _ _ _ _ (map RtoC (opt_x q))) as [g|] eqn:EG; [|discriminate]. cbn [bind] in EV. pose proof (C1' g HN eq_refl) as ->. cbn [fst] in EV. injection EV as EV. fold (square_norm rs) in EV. rewrite EV.
  apply (HW _ _ _ _ _ _ (square_norm rs0)) in EM; [exact EM|]. unfold sum_residual_square. rewrite C0'. reflexivity.
Qed.
Print Assumptions C88_residuals_not_worse_partial.
(** quasi-Newton solver: at most opt_maxiter passes; if it stops earlier, the residual vector at
    the amplitudes before the last update was shorter than the threshold *)
Theorem C88_jacobi_converged : forall L o s r, let n := length (ref o) in LegalLibraries L n (ham s) -> PqeObject o s -> lower (optimizer o) = "jacobi"%string -> (noise_factor o <= 1e-12)%R -> pqe_run L o s = Ok r ->
  1 <= res_vec_evals r <= opt_maxiter o /\
  (res_vec_evals r < opt_maxiter o -> exists t_old, length t_old = length (pool s) /\ (Admissible s n t_old -> exists rs, Residuals s n t_old rs /\ (sqrt (square_norm rs) < opt_thresh o)%R)).
Proof.
  intros L o s r n HL HO HJ HN E. destruct (pqe_setup L o s HL HO) as (D & pool' & dets & _ & _ & _ & _ & EF & _ & _ & GR). destruct (pqe_inv L o s r E) as (_ & p1 & d1 & orb_e & file & EF1 & ES & _). rewrite EF in EF1. injection EF1 as <- <-.
  destruct (solve_inv _ _ _ _ _ _ _ ES) as [(_ & k & E1 & t & EQ & _ & _ & G3 & G4)|(HI & _)]; [|exfalso; rewrite HJ in HI; cbn in HI; intuition discriminate]. injection EQ as _ _ -> _. split; [exact G3|]. intros Hk. destruct (G4 Hk) as (t_old & g & H1 & H2 & H3). exists t_old. split; [exact H1|]. intros HA.
  destruct (GR _ HA) as (rs & R1 & _ & C1' & _). exists rs. split; [exact R1|]. rewrite (C1' g HN H2) in H3. exact H3.
Qed.
Print Assumptions C88_jacobi_converged.
(** the sum of squares is zero exactly when every residual is *)
Theorem C88_zero_residuals : forall rs, (0 <= square_norm rs)%R /\ (square_norm rs = 0%R <-> Forall (fun r => r = C0) rs).
Proof.
  assert (Q : forall c, (0 <= Cabs c * Cabs c)%R /\ (Cabs c * Cabs c = 0 <-> c = C0)%R).
  { intros c. unfold Cabs. rewrite sqrt_sqrt by (unfold Cnorm2; nra). unfold Cnorm2. split; [nra|]. split; [|intros ->; cbn; ring]. intros H. apply C_ext; cbn; nra. }
  induction rs as [|r rs (IH1 & IH2)]; [split; [cbn; lra|split; [constructor|reflexivity]]|]. unfold square_norm in *. cbn [map fold_right]. destruct (Q r) as (Q1 & Q2). split; [lra|]. split.
  - intros H. constructor; [apply Q2; lra|apply IH2; lra].
  - intros H. rewrite (proj2 Q2 (Forall_inv H)), (proj2 IH2 (Forall_inv_tail H)). lra.
Qed.
Print Assumptions C88_zero_residuals.
(** the options that a run accepts *)
Theorem C88_dispatch : forall L o s, let n := length (ref o) in
  (state_prep_type o <> "occupation_list"%string -> pqe_run L o s = Throw (PyError "ValueError")) /\
  (forall r, pqe_run L o s = Ok r -> state_prep_type o = "occupation_list"%string /\ In (lower (optimizer o)) ["jacobi"; "nelder-mead"; "powell"; "bfgs"; "l-bfgs-b"; "cg"; "slsqp"]%string) /\
  (LegalLibraries L n (ham s) -> PqeObject o s -> state_prep_type o = "occupation_list"%string -> hf_orbitals o <> None -> ~ In (lower (optimizer o)) ["jacobi"; "nelder-mead"; "powell"; "bfgs"; "l-bfgs-b"; "cg"; "slsqp"]%string -> pqe_run L o s = Throw (PyError "NotImplementedError")).
Proof.
  intros L o s n. split; [|split].
  - intros H. unfold pqe_run. now rewrite (proj2 (String.eqb_neq _ _) H).
  - intros r E. destruct (pqe_inv L o s r E) as (H & pool' & dets & orb_e & file & _ & ES & _). split; [exact H|]. destruct (solve_inv _ _ _ _ _ _ _ ES) as [(-> & _)|(HI & _)]; [now left|now right].
  - intros HL HO HS HF HI. destruct (pqe_setup L o s HL HO) as (D & pool' & dets & _ & _ & _ & _ & EF & _). unfold pqe_run. rewrite HS, String.eqb_refl. cbn [negb]. rewrite EF. cbn [bind fst snd]. unfold orbital_energies. destruct (hf_orbitals o) as [e|]; [|contradiction]. cbn [bind]. unfold pqe_solve. destruct (String.eqb (lower (optimizer o)) "jacobi") eqn:EJ; [apply String.eqb_eq in EJ; elim HI; rewrite EJ; now left|].
    match goal with |- context [isin ?a ?b] => destruct (isin a b) eqn:EI end; [|reflexivity]. elim HI. right. unfold isin in EI. apply existsb_exists in EI. destruct EI as (x & Ix & Ex). apply String.eqb_eq in Ex. rewrite Ex. exact Ix.
Qed.
Print Assumptions C88_dispatch.
(** slow mode: no run succeeds *)
Theorem C88_slow_mode_refuted : forall L o s, fast o = false -> exists e, pqe_run L o s = Throw e.
Proof.
  intros L o s HF. destruct (pqe_run L o s) as [r|e] eqn:E; [exfalso|now exists e]. destruct (pqe_inv L o s r E) as (_ & pool' & dets & orb_e & file & _ & ES & _).
  destruct (solve_inv _ _ _ _ _ _ _ ES) as [(_ & k & E1 & t & _ & _ & G & _)|(_ & q & f & E1 & _ & _ & _ & G)]; apply fast_energy in G; congruence.
Qed.
Print Assumptions C88_slow_mode_refuted.
(** summary file: a header, then one line for every iteration *)
Theorem C88_summary_file : forall o nit, reports (pqe_report o) nit = Ok (if print_summary_file o then match nit with 0 => [] | S _ => Header :: map Iteration (seq 1 nit) end else []).
Proof.
  intros o nit. unfold reports. destruct (print_summary_file o) eqn:EP.
  - destruct nit as [|nit]; [reflexivity|]. cbn [seq foreach]. unfold pqe_report at 1. rewrite EP. cbn [Nat.eqb andb bind app map].
    assert (G : forall m j file, 2 <= j -> foreach (seq j m) (pqe_report o) file = Ok (file ++ map Iteration (seq j m))%list).
    { induction m as [|m IH]; intros j file Hj; cbn [seq foreach map]; [now rewrite app_nil_r|]. unfold pqe_report at 1. rewrite EP. destruct (Nat.eqb_spec j 1); [lia|]. cbn [andb bind]. rewrite IH by lia. rewrite <- app_assoc. reflexivity. }
    rewrite G by lia. reflexivity.
  - generalize 1. induction nit as [|k IH]; intros j; cbn [seq foreach]; [reflexivity|]. unfold pqe_report at 1. rewrite EP, andb_false_r. cbn [bind]. apply IH.
Qed.
Print Assumptions C88_summary_file.
(** counts: two measurements of every Hamiltonian term per residual vector and non-zero
    amplitude, and one per residual vector *)
Theorem C88_counts : forall L o s r, pqe_run L o s = Ok r -> n_classical_params r = length (final_tamps r) /\ n_nonzero_params r = nonzero_params (final_tamps r) /\
  n_pauli_trm_measures r = Nl o * res_vec_evals r * (2 * n_nonzero_params r + 1).
Proof. intros L o s r E. destruct (pqe_inv L o s r E) as (_ & p & d & oe & f & _ & _ & H1 & H2 & H3 & _). split; [exact H1|]. split; [exact H2|]. rewrite H3. nia. Qed.
Print Assumptions C88_counts.
(** the run succeeds when the optimizer does *)
Theorem C88_run_succeeds_partial : forall L o s, let n := length (ref o) in LegalLibraries L n (ham s) -> PqeObject o s -> fast o = true -> state_prep_type o = "occupation_list"%string -> hf_orbitals o <> None ->
  In (lower (optimizer o)) ["nelder-mead"; "powell"; "bfgs"; "l-bfgs-b"; "cg"; "slsqp"]%string -> Admissible s n (repeat 0%R (length (pool s))) ->
  exists objective, (forall ts, Admissible s n ts -> (noise_factor o <= 1e-12)%R -> exists rs, Residuals s n ts rs /\ (Forall (fun r => Im r = 0%R) rs -> objective ts = Ok (square_norm rs)) /\ (Forall (fun t => Nat.even (count_Y (snd t)) = true) (ham s) -> Forall (fun r => Im r = 0%R) rs)) /\
    forall q, minimize L (optimizer o) (pqe_opts o) objective None (repeat 0%R (length (pool s))) = Ok q -> Admissible s n (opt_x q) -> exists r, pqe_run L o s = Ok r /\ final_tamps r = opt_x q /\ res_vec_evals r = opt_nfev q.
Proof.
  intros L o s n HL HO HF HS HE HI H0. destruct (pqe_setup L o s HL HO) as (D & pool' & dets & _ & _ & _ & _ & EF & _ & GE & GR). exists (sum_residual_square L o (pqe_start s pool') dets). split.
  - intros ts HA HN. destruct (GR _ HA) as (rs & R1 & HY & _ & C1'). exists rs. split; [exact R1|]. split; [|exact HY]. intros I. unfold sum_residual_square. rewrite (C1' I HN). reflexivity.
  - intros q EM HA. destruct (GE _ H0 HF) as (_ & E0 & _ & EE0 & _). destruct (GE _ HA HF) as (U & E1 & EB & EE1 & _).
    assert (EB' : build_Uvqc (srt L) (sort L) (with_tamps (pqe_start s pool') (opt_x q)) None = Ok (Uprep s ++ U)%list) by exact EB.
    unfold pqe_run. rewrite HS, String.eqb_refl. cbn [negb]. rewrite EF. cbn [bind fst snd]. unfold orbital_energies. destruct (hf_orbitals o) as [e|]; [|contradiction]. cbn [bind]. unfold pqe_solve.
    assert (NJ : String.eqb (lower (optimizer o)) "jacobi" = false) by (destruct HI as [<-|[<-|[<-|[<-|[<-|[<-|[]]]]]]]; reflexivity). rewrite NJ.
    match goal with |- context [isin ?a ?b] => assert (IN : isin a b = true) by (apply existsb_exists; exists (lower (optimizer o)); split; [exact HI|apply String.eqb_refl]); rewrite IN end.
    unfold pqe_scipy. rewrite EE0. cbn [bind]. rewrite EM. cbn [bind]. rewrite C88_summary_file. cbn [bind]. rewrite EE1. cbn [bind]. rewrite EB'. cbn [bind]. eexists. split; [reflexivity|]. now split.
Qed.
Print Assumptions C88_run_succeeds_partial.
Example C88_nonvacuous : let s := pqe_example false 2 in
  let o := mkRun "Nelder-Mead" true (1/100000) (1/100000) 50 0 8 true true "occupation_list" [1; 1; 0; 0] (StateProofs.xgates 0 [1; 1; 0; 0]) (Some [RtoC (-2); RtoC 1]%R) 1 in let L := example_libraries in
  LegalLibraries L 4 (ham s) /\ PqeObject o s /\ Forall (fun t => Nat.even (count_Y (snd t)) = true) (ham s) /\ Admissible s 4 [0; 0]%R /\ Admissible s 4 [1/2; -1/3]%R /\ exists r, pqe_run L o s = Ok r /\ Admissible s 4 (final_tamps r).
Proof.
  intros s o L. assert (HL : LegalLibraries L 4 (ham s)) by (split; [exact PropSQ.isort_legal|split; [exact tsort_legal|exact Logic.I]]).
  assert (HO : PqeObject o s). { split; [cbn; lia|]. split; [apply StateProofs.refprep_eq|]. split; [reflexivity|]. split; [reflexivity|]. split; [exact example_hamiltonian|]. split; [discriminate|]. split; [cbn; lia|]. apply example_entries. }
  assert (HY : Forall (fun t => Nat.even (count_Y (snd t)) = true) (ham s)) by apply C65_nonvacuous. split; [exact HL|]. split; [exact HO|]. split; [exact HY|].
  assert (HA : Admissible s 4 [1/2; -1/3]%R) by (split; [reflexivity|apply C65_nonvacuous]). pose proof (admissible_zero _ _ _ HA) as H0. change (repeat 0%R (length (pool s))) with [0; 0]%R in H0. split; [exact H0|]. split; [exact HA|].
  destruct (C88_run_succeeds_partial L o s HL HO eq_refl eq_refl ltac:(discriminate) (or_introl eq_refl) H0) as (f & Hf & HR).
  assert (V : forall ts, Admissible s 4 ts -> exists v, f ts = Ok v). { intros ts Ht. destruct (Hf ts Ht) as (rs & _ & G1 & G2); [cbn; lra|]. exists (square_norm rs). apply G1, G2, HY. }
  destruct (V _ H0) as (a & Ea). destruct (V _ HA) as (b & Eb).
  assert (EM : exists q, minimize L (optimizer o) (pqe_opts o) f None [0; 0]%R = Ok q /\ Admissible s 4 (opt_x q)).
  { cbn [minimize L example_libraries]. unfold two_points. rewrite Ea. cbn [bind length Nat.eqb]. rewrite Eb. cbn [bind]. destruct (Rltb b a); eexists; (split; [reflexivity|]); assumption. }
  destruct EM as (q & EM & HQ). destruct (HR q EM HQ) as (r & ER & EX & _). exists r. split; [exact ER|]. now rewrite EX.
Qed.
