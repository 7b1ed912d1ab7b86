(** C91: complete runs of SPQE. *)
From Coq Require Import Reals String List Arith NArith ZArith Bool Lia Lra Permutation Sorted.
From Verif Require Import CBase Result Bits Spec OpSpec SQSpec GateModel ComputerModel SafeProofs LibProofs CleanProofs SimProofs CircuitModel PauliProofs OperatorModel MeasureModel MeasureProofs SQModel SQPhase SQProofs SQPoolSpec SQPoolModel SQPoolProofs SQPoolOps PyModel PyApply PointModel ExpSpec ExpProofs AnsatzSpec AnsatzModel AnsatzProofs GradModel GradSpec GradCalc GradProofs GradAnsatz GradExample DiisModel PropDiis ResModel ResProofs SelectModel SelectSpec SelectProofs SpqeProofs SpqeLoop CompactModel CompactAct CompactApply CompactProofs FermiProofs QkProofs PropOperator PropMeasure PropAnsatz PropGrad PropRes PropSpqe MomentModel MomentProofs PropMoment PropSpqeRes RunModel RunProofs PropRun SpqeRunModel.
From Verif Require StateProofs QftProofs QiteNorm PropAdapt PropSQ QpeProofs.
From Verif Require Import ExpCircuit GateEval ThreeQubit.
Import ListNotations.
Local Open Scope nat_scope.
Notation norm2 := ResModel.norm2.

(** ---- vocabulary ---- *)
(** an SPQE object for 2m spin orbitals with the reference determinant R, its occupation list
    refb, a real Hamiltonian and a valid rank request *)
Record SpqeObject (L : libraries) (o : run_options) (sy : spqe_system) (s : ucc) (m : nat) (refb : list bool) (R : N) : Prop := {
  so_libraries : LegalLibraries L (2 * m) (ham s);
  so_reference : RefOf m refb R;
  so_list : ref o = map Nat.b2n refb;
  so_refprep : build_refprep (ref o) = Ok (refprep o);
  so_uprep : Uprep s = refprep o;
  so_init : init s = new_computer (2 * m);
  so_hamiltonian : Hamiltonian (2 * m) (ham s);
  so_real : Forall (fun t => Nat.even (count_Y (snd t)) = true) (ham s);
  so_pool_type : pool_type s <> "sa_SD"%string;
  so_trotter : 1 <= trotter_number s;
  so_irreps : m <= length (sy_irreps sy);
  so_rank : forall r, sy_rank sy = Some r -> (0 < r)%Z;
  so_limit : rank_limit (sy_rank sy) (nelectrons m R) <= 19 }.
(** the pool of the run *)
Definition SpqePool (sy : spqe_system) (m : nat) (R : N) (pl : list (N * list fterm)) : Prop := PoolOf m (sy_irreps sy) (sy_irrep sy) (rank_limit (sy_rank sy) (nelectrons m R)) R pl.
(** amplitudes with which the circuit of the operators is an exact product of exponentials *)
Definition SpqeAnsatz (s : ucc) (m : nat) (R : N) (pl : list (N * list fterm)) (tops : list nat) (ts : list Rdefinitions.R) : Prop :=
  length ts = length tops /\ Forall (fun x => Selected s m R pl (fst x) (snd x)) (combine tops ts).
(** the exponentials of the ansatz, in the order in which they act *)
Definition spqe_factors (s : ucc) (pl : list (N * list fterm)) (tops : list nat) (ts : list R) : list (C * (state -> state)) :=
  let l := factors (qubit_excitations s) (map (fun e => (C0, snd e)) pl) tops ts in if compact s then l else trotter_steps (trotter_number s) l.
Definition IsSpqeEnergy (s : ucc) (m : nat) (R : N) (pl : list (N * list fterm)) (tops : list nat) (ts : list Rdefinitions.R) (E : Rdefinitions.R) : Prop :=
  exists phi, exp_product (spqe_factors s pl tops ts) (ket (N.to_nat R)) phi /\ inner (2 * m) phi phi = C1 /\ E = energy (2 * m) (op_act (ham s)) phi.
(** rs are the exact residuals of the operators of the ansatz: the components of U^dagger H U |R>
    along tau_mu |R> *)
Definition ExactResiduals (s : ucc) (m : nat) (R : N) (pl : list (N * list fterm)) (tops : list nat) (ts : list Rdefinitions.R) (rs : list C) : Prop :=
  Forall2 (fun top r => exists D o, nth_error pl top = Some (D, o) /\ Projection (2 * m) (op_act (ham s)) (spqe_factors s pl tops ts) (N.to_nat R) (act (qubit_excitations s) o (ket (N.to_nat R))) r) tops rs.
(** sum of the squared moduli *)
Definition sum_squares (rs : list C) : R := total (fun c => Re c * Re c + Im c * Im c)%R rs.
(** M p is the exact component along the determinant of pool position p *)
Definition ExactMoments (s : ucc) (m : nat) (R : N) (pl : list (N * list fterm)) (tops : list nat) (ts : list Rdefinitions.R) (M : nat -> C) : Prop :=
  forall p D o, nth_error pl p = Some (D, o) -> Projection (2 * m) (op_act (ham s)) (spqe_factors s pl tops ts) (N.to_nat R) (ket (N.to_nat D)) (M p).
(** the error of one squared residual read off after a time step dt *)
Definition step_error (s : ucc) (dt : R) : R := let W := QiteNorm.weight (ham s) in let d := (Rabs dt * (W * W) / 2)%R in (d * (2 * W + d))%R.
(** w p is, up to that error, the squared modulus of the exact component; sums over any positions *)
Definition Measured (s : ucc) (m : nat) (R : N) (pl : list (N * list fterm)) (dt : Rdefinitions.R) (tops : list nat) (ts : list Rdefinitions.R) (w : nat -> Rdefinitions.R) : Prop :=
  exists M, ExactMoments s m R pl tops ts M /\ forall l, Forall (fun p => p < length pl) l -> (Rabs (total w l - total (fun p => Cabs (M p) * Cabs (M p)) l) <= INR (length l) * step_error s dt)%R.

Lemma N_lt_pow2 D n : (D < 2 ^ N.of_nat n)%N -> N.to_nat D < 2 ^ n.
Proof. intros HD. assert (PN : (2 ^ N.of_nat n)%N = N.of_nat (2 ^ n)). { clear. induction n as [|k IH]; [reflexivity|]. rewrite Nat.pow_succ_r', Nat2N.inj_succ, N.pow_succ_r', IH. symmetry. apply Nat2N.inj_mul. } lia. Qed.
Section Object.
Variables (L : libraries) (o : run_options) (sy : spqe_system) (s : ucc) (m : nat) (refb : list bool) (R : N) (pl : list (N * list fterm)).
Hypotheses (HO : SpqeObject L o sy s m refb R) (HP : SpqePool sy m R pl).
Notation n := (2 * m).
Notation obj := (spqe_object s pl).

Lemma pool_same tops ts : map snd (pool (obj tops ts)) = map snd pl.
Proof. cbn [pool spqe_object]. rewrite map_map. reflexivity. Qed.
Lemma usable_ops tops ts t0 : SpqeAnsatz s m R pl tops ts -> Forall (fun x => UsableOp (obj tops t0) n (fst x) (snd x)) (combine tops ts).
Proof. intros (LT & F). eapply Forall_impl; [|exact F]. intros x Hx. eapply (selected_usable (obj tops t0)); [exact HP|apply pool_same|exact Hx]. Qed.
Lemma reference_ket : exists q, apply_circuit (new_computer n) (Uprep s) = Ok q /\ wf_computer q /\ nqubit q = n /\ psi_of q = ket (N.to_nat R).
Proof. destruct HO as [_ (HL & _ & _ & HB) H2 H3 H4 _ _ _ _ _ _ _ _]. rewrite H4. rewrite H2 in H3. apply (ref_state refb R n _ (eq_sym HL) H3 HB). Qed.
Lemma uprep_applicable : Applicable n (Uprep s).
Proof. destruct HO as [_ (HL & _) H2 H3 H4 _ _ _ _ _ _ _ _]. rewrite H4. rewrite StateProofs.refprep_eq in H3. injection H3 as <-. apply StateProofs.xgates_applicable. rewrite H2, map_length, HL. cbn. lia. Qed.
Lemma reference_is tops t0 : reference (obj tops t0) = ket (N.to_nat R).
Proof.
  unfold reference. cbn [Uprep init spqe_object]. destruct reference_ket as (q & E & W & Q & P). rewrite <- P. rewrite (so_init _ _ _ _ _ _ _ HO). destruct (sim_apply (new_computer n) (Uprep s) (new_computer_wf _) uprep_applicable) as (q' & E' & _ & _ & A). rewrite E in E'. injection E' as <-. apply state_eq in A. now symmetry.
Qed.
(** the energy of usable amplitudes *)
Lemma spqe_value tops ts : SpqeAnsatz s m R pl tops ts -> exists U, build_Uvqc (srt L) (sort L) (obj tops ts) None = Ok (Uprep s ++ U)%list /\ Applicable n U /\
  IsSpqeEnergy s m R pl tops ts (energy n (op_act (ham s)) (circ_act U (ket (N.to_nat R)))) /\
  (fast o = true -> forall t0, energy_of L o (obj tops t0) ts = Ok (energy n (op_act (ham s)) (circ_act U (ket (N.to_nat R))))).
Proof.
  intros HU. pose proof HO as [(L1 & L2 & L3) HR H2 H3 H4 H5 H6 H7 H8 H9 _ _ _]. pose proof (usable_ops tops ts ts HU) as FU. destruct HU as (LT & HU).
  destruct (ansatz_made (srt L) (sort L) (obj tops ts) n ts L1 L2 H8 (fun _ => H9) LT FU) as (U & EU & AU & HE). exists U.
  split; [unfold build_Uvqc; cbn [amplitudes]; change (GradModel.tamps (obj tops ts)) with (map RtoC ts); rewrite EU; reflexivity|]. split; [exact AU|]. split.
  { exists (circ_act U (ket (N.to_nat R))). split; [apply HE|]. split; [|reflexivity]. destruct AU as (A1 & _ & A3). rewrite (circ_preserves_inner n U _ _ A1 A3). apply ket_unit. apply (N_lt_pow2 R n). apply HR. }
  intros HF t0. assert (EQ : energy_of L o (units (obj tops t0)) ts = energy_of L o (obj tops t0) ts).
  { unfold energy_of, energy_feval, build_Uvqc. cbn [units spqe_object Uprep pool_type compact qubit_excitations trotter_number pool GradModel.tops amplitudes ham init]. rewrite units_ansatz. reflexivity. }
  rewrite <- EQ. assert (FU' : Forall (fun x => Usable (units (obj tops t0)) n (fst x) (snd x)) (combine (GradModel.tops (units (obj tops t0))) ts)).
  { eapply Forall_impl; [|exact FU]. intros x (c & a & P & H & E & Q). exists a, P, H. split; [|exact Q]. cbn [pool units]. change (pool (obj tops t0)) with (pool (obj tops ts)). rewrite units_item, E. reflexivity. }
  destruct (energy_value L o (units (obj tops t0)) n ts L1 L2 L3 HF) as (U' & EB & _ & _ & EE); try assumption.
  - cbn [init units spqe_object]. rewrite H5. apply new_computer_wf.
  - cbn [init units spqe_object]. rewrite H5. reflexivity.
  - exact uprep_applicable.
  - intros _. exact H9.
  - rewrite EE. change (reference (units (obj tops t0))) with (reference (obj tops t0)). rewrite reference_is. do 2 f_equal.
    assert (EU' : U' = U). { unfold build_Uvqc in EB. cbn [units spqe_object Uprep pool_type compact qubit_excitations trotter_number pool GradModel.tops amplitudes] in EB. rewrite units_ansatz in EB. cbn [spqe_object pool_type compact qubit_excitations trotter_number pool GradModel.tops] in EU. rewrite EU in EB. cbn [bind] in EB. injection EB as EB. now apply app_inv_head in EB. }
    now rewrite EU'.
Qed.
Lemma spqe_energy_ok tops ts t0 E : fast o = true -> SpqeAnsatz s m R pl tops ts -> energy_of L o (obj tops t0) ts = Ok E -> IsSpqeEnergy s m R pl tops ts E.
Proof. intros HF HU EE. destruct (spqe_value tops ts HU) as (U & _ & _ & HI & EV). rewrite (EV HF t0) in EE. injection EE as <-. exact HI. Qed.
(** the residual vector of usable amplitudes: the exact residuals, up to sign *)
Lemma spqe_residuals_ok tops ts t0 : SpqeAnsatz s m R pl tops ts -> exists rs vs, ExactResiduals s m R pl tops ts rs /\ Forall2 (fun r v => v = r \/ v = (- r)%C) rs vs /\ (is_jacobi_run o = true -> vs = rs) /\ spqe_residuals L o (obj tops t0) pl ts = Ok (vs, norm2 rs).
Proof.
  intros HU. pose proof HO as [(L1 & L2 & L3) HR H2 H3 H4 H5 H6 H7 H8 H9 _ _ H12]. destruct HU as (LT & HU).
  destruct (C79_residuals_partial (srt L) (sort L) (obj tops t0) m refb R (sy_irreps sy) (sy_irrep sy) (rank_limit (sy_rank sy) (nelectrons m R)) pl ts (is_jacobi_run o) L1 L2 HR) as (rs & vs & F1 & F2 & F3 & F4 & F5 & _); try assumption.
  - cbn [Uprep spqe_object]. rewrite H4. now rewrite <- H2.
  - apply pool_same.
  - intros _. exact H9.
  - now apply ham_applicable.
  - exists rs, vs. split; [exact F1|]. split; [exact F3|]. split; [exact F4|]. unfold spqe_residuals. rewrite H2, map_length. destruct HR as (HL & _). rewrite HL, <- H4. apply F5. apply F2; assumption.
Qed.
Lemma residuals_unique tops ts rs rs' : ExactResiduals s m R pl tops ts rs -> ExactResiduals s m R pl tops ts rs' -> rs' = rs.
Proof.
  unfold ExactResiduals. intros F. revert rs'. generalize (spqe_factors s pl tops ts) F. clear F. intros fs F. induction F as [|t r tl rl (D & op & E & HJ) _ IH]; intros rs' F'; inversion F' as [|? r' ? rl' (D' & op' & E' & HJ') FT]; subst; [reflexivity|]. f_equal; [|now apply IH].
  rewrite E in E'. injection E' as <- <-. destruct HJ as (a & b & A1 & B1 & ->), HJ' as (a' & b' & A2 & B2 & ->). rewrite (state_eq _ _ (exp_product_unique _ _ _ _ A2 A1)), (state_eq _ _ (exp_product_unique _ _ _ _ B2 B1)). reflexivity.
Qed.
(** the weights with which update_ansatz selects *)
Lemma spqe_measured tops ts dt : SpqeAnsatz s m R pl tops ts -> dt <> 0%R -> exists c, spqe_coeffs (srt L) (sort L) (obj tops ts) (length (ref o)) dt = Ok c /\ Measured s m R pl dt tops ts (residual dt pl (fun _ _ _ => c) 0 [] []).
Proof.
  intros HU Hdt. pose proof HO as [(L1 & L2 & L3) HR H2 H3 H4 H5 H6 H7 H8 H9 _ _ _]. destruct HU as (LT & HU).
  destruct (C79_convergence_partial (srt L) (sort L) (obj tops ts) m refb R (sy_irreps sy) (sy_irrep sy) (rank_limit (sy_rank sy) (nelectrons m R)) pl ts L1 L2 HR) as (M & HM & HC); try assumption.
  - cbn [Uprep spqe_object]. rewrite H4. now rewrite <- H2.
  - apply pool_same.
  - reflexivity.
  - destruct (HC dt Hdt) as (c & EC & HB). exists c. rewrite H2, map_length. pose proof HR as (HL & _). rewrite HL. split; [exact EC|]. exists M. split; [exact HM|]. intros l Hl. unfold step_error. cbv zeta. exact (HB l Hl).
Qed.
End Object.

(** ---- the micro-iterations ---- *)
Lemma sum_squares_fold rs : sum_squares rs = fold_right Rplus 0%R (map (fun c => Re c * Re c + Im c * Im c)%R rs).
Proof. unfold sum_squares, total. induction rs as [|r rs IH]; cbn [map fold_right]; [reflexivity|]. now rewrite IH. Qed.
Lemma norm2_sum rs : norm2 rs = sqrt (sum_squares rs).
Proof. unfold ResModel.norm2. now rewrite sum_squares_fold. Qed.
Lemma cabs_sum rs vs : Forall2 (fun r v => v = r \/ v = (- r)%C) rs vs -> fold_right Rplus 0%R (map (fun c => Cabs c * Cabs c)%R vs) = sum_squares rs.
Proof.
  unfold sum_squares, total. induction 1 as [|r v rs vs H _ IH]; cbn [map fold_right]; [reflexivity|]. rewrite IH. f_equal.
  assert (SQ : forall c, (Cabs c * Cabs c = Re c * Re c + Im c * Im c)%R) by (intros c; unfold Cabs, Cnorm2; rewrite sqrt_sqrt; [reflexivity|nra]). rewrite SQ. destruct H as [-> | ->]; [reflexivity|]. cbn. ring.
Qed.
Lemma selected_zero s m R pl p t : Selected s m R pl p t -> Selected s m R pl p 0.
Proof. intros (D & op & E & H6 & HA). exists D, op. split; [exact E|]. split; [exact H6|]. destruct (compact s); [|now left]. intros k _. replace (0 / 2 ^ k)%R with 0%R by (unfold Rdiv; ring). apply sharp_zero. Qed.
Lemma combine_app_eq {A B} (a a' : list A) (b b' : list B) : length b = length a -> combine (a ++ a') (b ++ b') = (combine a b ++ combine a' b')%list.
Proof. revert b. induction a as [|x a IH]; intros [|y b] H; try discriminate; cbn [app combine]; [reflexivity|]. now rewrite IH by (now injection H). Qed.
(** operators put in front with amplitude zero *)
Lemma ansatz_front s m R pl tops ts new ts' : SpqeAnsatz s m R pl tops ts -> SpqeAnsatz s m R pl (new ++ tops) ts' -> SpqeAnsatz s m R pl (new ++ tops) (repeat 0%R (length new) ++ ts).
Proof.
  intros (L1 & F1) (L2 & F2). split; [now rewrite !app_length, repeat_length, L1|]. rewrite combine_app_eq by (now rewrite repeat_length). apply Forall_app. split; [|exact F1].
  rewrite app_length in L2. clear F1. revert ts' L2 F2. induction new as [|a new IH]; intros [|t ts'] L2 F2; cbn [length repeat combine app] in *; try constructor; try lia.
  - exact (selected_zero _ _ _ _ _ _ (Forall_inv F2)).
  - apply (IH ts'); [lia|exact (Forall_inv_tail F2)].
Qed.
(** one macro-iteration: the measured squared residuals by pool position, the operators added,
    the ansatz and its energy afterwards, the evaluations of the residual vector, and the number
    of passes (quasi-Newton) or callbacks (scipy) *)
Record stage := mkStage { g_weights : nat -> R; g_new : list nat; g_tops : list nat; g_tamps : list R; g_energy : R; g_evals : nat; g_count : nat }.
(** what the micro-iterations leave; [ts0] are the amplitudes at their start *)
Definition MicroResult (o : run_options) (mz : minimizer) (s : ucc) (m : nat) (R : N) (pl : list (N * list fterm)) (ts0 : list Rdefinitions.R) (g : stage) : Prop :=
  length (g_tamps g) = length (g_tops g) /\ (SpqeAnsatz s m R pl (g_tops g) (g_tamps g) -> IsSpqeEnergy s m R pl (g_tops g) (g_tamps g) (g_energy g)) /\
  if is_jacobi_run o then g_count g = g_evals g /\ 1 <= g_evals g <= opt_maxiter o /\
    (g_evals g < opt_maxiter o -> exists t_old, length t_old = length (g_tops g) /\ forall rs, SpqeAnsatz s m R pl (g_tops g) t_old -> ExactResiduals s m R pl (g_tops g) t_old rs -> (sqrt (sum_squares rs) < opt_thresh o)%R)
  else
    (** the amplitudes and both counters are those reported by the minimizer for the sum of
        squared residuals, started from [ts0] *)
    (exists f x, mz (optimizer o) (pqe_opts o) f None ts0 = Ok x /\ g_tamps g = opt_x x /\ g_evals g = opt_nfev x /\ g_count g = opt_nit x /\
      forall ts rs, SpqeAnsatz s m R pl (g_tops g) ts -> ExactResiduals s m R pl (g_tops g) ts rs -> f ts = Ok (sum_squares rs)) /\
    (NeverWorse mz -> SpqeAnsatz s m R pl (g_tops g) ts0 -> SpqeAnsatz s m R pl (g_tops g) (g_tamps g) ->
    forall rs0 rs, ExactResiduals s m R pl (g_tops g) ts0 rs0 -> ExactResiduals s m R pl (g_tops g) (g_tamps g) rs -> (sum_squares rs <= sum_squares rs0)%R).
Section Micro.
Variables (L : libraries) (o : run_options) (sy : spqe_system) (s : ucc) (m : nat) (refb : list bool) (R : N) (pl : list (N * list fterm)).
Hypotheses (HO : SpqeObject L o sy s m refb R) (HP : SpqePool sy m R pl) (HM : ReturnsAPoint (minimize L) \/ is_jacobi_run o = true) (HF : fast o = true).
Notation obj := (spqe_object s pl).
Lemma objective_value tops ts t0 rs : SpqeAnsatz s m R pl tops ts -> ExactResiduals s m R pl tops ts rs -> spqe_objective L o (obj tops t0) pl ts = Ok (sum_squares rs).
Proof.
  intros HU HR. destruct (spqe_residuals_ok L o sy s m refb R pl HO HP tops ts t0 HU) as (rs' & vs & H1 & H2 & _ & E). rewrite (residuals_unique s m R pl tops ts rs rs' HR H1) in *. unfold spqe_objective. rewrite E. cbn [bind fst]. now rewrite (cabs_sum rs vs H2).
Qed.
Lemma micro_ok orb_e w new tops ts0 r : length ts0 = length tops -> spqe_micro L o (obj tops ts0) orb_e pl ts0 = Ok r -> MicroResult o (minimize L) s m R pl ts0 (mkStage w new tops (mi_tamps r) (mi_energy r) (mi_evals r) (mi_k r)).
Proof.
  intros LT E. unfold spqe_micro in E. unfold MicroResult. cbn [g_tamps g_tops g_energy g_evals g_count]. destruct (is_jacobi_run o) eqn:EJ.
  - unfold spqe_jacobi in E. match type of E with bind (quasi_newton L o ?d ?en ?t0) _ = _ => set (dir := d) in *; destruct (quasi_newton L o dir en t0) as [((E1, t), k)|] eqn:EQ; [|discriminate] end. cbn [bind fst snd] in E. injection E as <-. cbn [mi_tamps mi_energy mi_evals mi_k].
    destruct (quasi_newton_ok L o dir (energy_of L o (obj tops ts0)) ts0 (length tops) (E1, t, k)) as (G1 & G2 & G3 & G4); [|exact LT|exact EQ|].
    { intros t' u Hu. unfold dir in Hu. destruct (spqe_residuals _ _ _ _ _) as [g|]; [|discriminate]. cbn [bind] in Hu. unfold over_denominators in Hu. destruct (get_res_over_mpdenom _ _ _ _ _) as [d|] eqn:ED; [|discriminate]. cbn [bind] in Hu. injection Hu as <-. cbn [fst]. rewrite map_length. now apply mpdenom_length in ED. }
    cbn [fst snd] in *. split; [exact G1|]. split; [intros HU; exact (spqe_energy_ok L o sy s m refb R pl HO HP tops t ts0 E1 HF HU G2)|]. split; [reflexivity|]. split; [exact G3|]. intros Hk. destruct (G4 Hk) as (t_old & u & H1 & H2 & H3). exists t_old. split; [exact H1|]. intros rs HU HR.
    destruct (spqe_residuals_ok L o sy s m refb R pl HO HP tops t_old ts0 HU) as (rs' & vs & Q1 & _ & _ & Q2). rewrite (residuals_unique s m R pl tops t_old rs rs' HR Q1) in Q2. unfold dir in H2. rewrite Q2 in H2. cbn [bind fst snd] in H2. destruct (over_denominators _ _ _ _); [|discriminate]. cbn [bind] in H2. injection H2 as <-. cbn [snd] in H3. now rewrite norm2_sum in H3.
  - destruct (isin _ _); [|discriminate]. unfold spqe_scipy in E. destruct (energy_of L o (obj tops ts0) ts0) as [e0|]; [|discriminate]. cbn [bind] in E. destruct (minimize L _ _ _ _ _) as [x|] eqn:EM; [|discriminate]. cbn [bind] in E. destruct (energy_of L o (obj tops ts0) (opt_x x)) as [E1|] eqn:EE; [|discriminate]. cbn [bind] in E. injection E as <-. cbn [mi_tamps mi_energy mi_evals mi_k].
    destruct HM as [HM'|HM']; [|discriminate]. destruct (HM' _ _ _ _ _ _ EM) as (R1 & R2). split; [now rewrite R1|]. split; [intros HU; exact (spqe_energy_ok L o sy s m refb R pl HO HP tops _ ts0 E1 HF HU EE)|].
    split; [exists (spqe_objective L o (obj tops ts0) pl), x; split; [exact EM|]; split; [reflexivity|]; split; [reflexivity|]; split; [reflexivity|]; intros ts rs U X; now apply objective_value|].
    intros NW U0 U1 rs0 rs X0 X1. rewrite (objective_value tops _ ts0 rs U1 X1) in R2. injection R2 as R2. rewrite R2. exact (NW _ _ _ _ _ _ _ (objective_value tops ts0 ts0 rs0 U0 X0) EM).
Qed.
End Micro.

(** ---- histories ---- *)
(** macro-iterations from an empty ansatz to [tops] and [ts]: in each the squared residuals of
    the unused operators are measured and are not small, operators are chosen and put in front
    with amplitude zero, and the amplitudes are optimized *)
Inductive SpqeHistory (o : run_options) (so : spqe_opts) (mz : minimizer) (s : ucc) (m : nat) (R : N) (pl : list (N * list fterm)) : list stage -> list nat -> list Rdefinitions.R -> Prop :=
| spqe_start : SpqeHistory o so mz s m R pl [] [] []
| spqe_step hist tops ts g : SpqeHistory o so mz s m R pl hist tops ts ->
    (SpqeAnsatz s m R pl tops ts -> Measured s m R pl (sp_dt so) tops ts (g_weights g)) ->
    (spqe_thresh so * spqe_thresh so <= total (g_weights g) (unused (length pl) tops))%R ->
    Choice so (length pl) (g_weights g) tops (g_new g) -> g_tops g = (g_new g ++ tops)%list ->
    MicroResult o mz s m R pl (repeat 0%R (length (g_new g)) ++ ts) g ->
    SpqeHistory o so mz s m R pl (hist ++ [g]) (g_tops g) (g_tamps g).
Lemma history_lengths o so mz s m R pl hist tops ts : SpqeHistory o so mz s m R pl hist tops ts -> length ts = length tops.
Proof. destruct 1 as [|hist tops ts g _ _ _ _ _ HMi]; [reflexivity|apply HMi]. Qed.

Section Runs.
Variables (L : libraries) (o : run_options) (so : spqe_opts) (sy : spqe_system) (s : ucc) (m : nat) (refb : list bool) (R : N) (pl : list (N * list fterm)) (orb_e : list C).
Hypotheses (HO : SpqeObject L o sy s m refb R) (HP : SpqePool sy m R pl) (HM : ReturnsAPoint (minimize L) \/ is_jacobi_run o = true) (HF : fast o = true) (Hdt : sp_dt so <> 0%R).
Notation size := (length pl).
Notation nel := (nelectrons m R).
Notation rank := (pool_rank m R pl).
Definition limit_of : nat := S (Z.to_nat (spqe_maxiter so)).
Definition tracks (st : spqe_state) (hist : list stage) : Prop :=
  SpqeHistory o so (minimize L) s m R pl hist (s_tops (ss_sel st)) (s_tamps (ss_sel st)) /\ inv nel rank pl (ss_sel st) /\
  s_energies (ss_sel st) = map g_energy hist /\ s_nparams (ss_sel st) = map (fun g => length (g_tops g)) hist /\ length (s_ncnot (ss_sel st)) = length hist /\
  ss_measures st = map (fun g => Nl o * g_count g * (2 * length (g_tops g) + 1)) hist /\ ss_vec st = list_sum (map g_evals hist) /\ ss_m st = list_sum (map (fun g => g_evals g * length (g_tops g)) hist).
Lemma weights_of c : weight_of pl so c = residual (sp_dt so) pl (fun _ _ _ => c) 0 [] [].
Proof. pose proof (residual_weight so pl (fun _ _ _ => c)) as E. apply (f_equal (fun f => f 0 [] [])) in E. exact E. Qed.
Lemma residual_nonneg c p : (0 <= residual (sp_dt so) pl (fun _ _ _ => c) 0 [] [] p)%R.
Proof. rewrite <- weights_of. apply weight_nonneg, Hdt. Qed.
Lemma iteration_tracks iter st hist st1 : tracks st hist -> s_conv (ss_sel st) = false -> s_stop (ss_sel st) = false -> spqe_iteration L o so s orb_e pl iter st = Ok st1 ->
  exists w, (SpqeAnsatz s m R pl (s_tops (ss_sel st)) (s_tamps (ss_sel st)) -> Measured s m R pl (sp_dt so) (s_tops (ss_sel st)) (s_tamps (ss_sel st)) w) /\
  let tot := total w (unused size (s_tops (ss_sel st))) in let T := (spqe_thresh so * spqe_thresh so)%R in
  if s_conv (ss_sel st1) then s_tops (ss_sel st1) = s_tops (ss_sel st) /\ s_tamps (ss_sel st1) = s_tamps (ss_sel st) /\ tracks st1 hist /\ s_stop (ss_sel st1) = true /\
    ((tot < T)%R \/ (T <= tot)%R /\ (Z.of_nat iter <= spqe_maxiter so)%Z /\ length (s_tops (ss_sel st)) = size)
  else (T <= tot)%R /\ ((spqe_maxiter so < Z.of_nat iter)%Z \/ length (s_tops (ss_sel st)) <> size) /\ (s_stop (ss_sel st1) = true <-> (spqe_maxiter so < Z.of_nat iter)%Z) /\ exists g, g_weights g = w /\ tracks st1 (hist ++ [g]).
Proof.
  intros (T1 & T2 & T3 & T4 & T5 & T6 & T7 & T8) HC0 HS0 E. unfold spqe_iteration in E. set (sel := ss_sel st) in *. destruct (energy_of _ _ _ _) as [e0|]; [|discriminate]. cbn [bind] in E.
  destruct (spqe_coeffs _ _ _ _ _) as [c|] eqn:EC; [|discriminate]. cbn [bind] in E. set (w := residual (sp_dt so) pl (fun _ _ _ => c) 0 [] []) in *. exists w. split.
  { intros HU. destruct (spqe_measured L o sy s m refb R pl HO HP _ _ (sp_dt so) HU Hdt) as (c' & EC' & HX). rewrite EC in EC'. injection EC' as <-. exact HX. }
  cbv zeta. pose proof (pool_is_ok _ _ _ _ _ _ (rank_limit_le (sy_rank sy) nel) HP) as HOK. destruct (update_spec nel rank pl HOK so c iter sel Hdt T2) as (sel1 & EU & U1 & U2 & U3 & U4 & U5). rewrite EU in E. cbn [bind] in E. rewrite weights_of in *. fold w in U1, U2, U5.
  set (tot := total w (unused size (s_tops sel))) in *. assert (Htot : (0 <= tot)%R) by (apply total_pos; intros p; apply residual_nonneg). unfold spqe_conv in *. rewrite (Rabs_right tot) in * by lra. rewrite (Rabs_right (spqe_thresh so * spqe_thresh so)) in * by (apply Rle_ge, Rle_0_sqr). rewrite choice_chosen in U5. rewrite HC0, HS0 in *.
  assert (KEEP : s_tops sel1 = s_tops sel /\ s_tamps sel1 = s_tamps sel /\ s_nbody sel1 = s_nbody sel /\ s_nparams sel1 = s_nparams sel -> tracks (mkSps sel1 (ss_measures st) (ss_vec st) (ss_m st)) hist).
  { intros (V1 & V2 & V3 & V4). unfold tracks, inv. cbn [ss_sel ss_measures ss_vec ss_m]. rewrite V1, V2, V3, V4, U3, U4. auto 10. }
  assert (STEP : s_conv sel1 = false -> (spqe_thresh so * spqe_thresh so <= tot)%R -> (exists new, Choice so size w (s_tops sel) new /\ s_tops sel1 = (new ++ s_tops sel)%list /\ s_tamps sel1 = (repeat 0%R (length new) ++ s_tamps sel)%list /\ counts nel rank (s_nbody sel1) (s_tops sel1) /\ s_nparams sel1 = (s_nparams sel ++ [length (s_tops sel1)])%list) ->
    s_conv (ss_sel st1) = false /\ s_stop (ss_sel st1) = s_stop sel1 /\ exists g, g_weights g = w /\ tracks st1 (hist ++ [g])).
  { intros EV NL (new & V1 & V2 & V3 & V4 & V5). rewrite EV in E. assert (LT : length (s_tamps sel1) = length (s_tops sel1)) by (rewrite V2, V3, !app_length, repeat_length, (history_lengths _ _ _ _ _ _ _ _ _ _ T1); reflexivity).
    destruct (spqe_micro _ _ _ _ _ _) as [r|] eqn:ER; [|discriminate]. cbn [bind] in E. destruct (build_Uvqc _ _ _ _) as [U|]; [|discriminate]. cbn [bind] in E. injection E as <-. cbn [ss_sel spqe_solve s_conv s_stop]. split; [exact EV|]. split; [reflexivity|].
    set (g := mkStage w new (s_tops sel1) (mi_tamps r) (mi_energy r) (mi_evals r) (mi_k r)). exists g. split; [reflexivity|]. pose proof (micro_ok L o sy s m refb R pl HO HP HM HF orb_e w new _ _ r LT ER) as MR. fold g in MR. pose proof MR as (ML & _). cbn [g g_tops g_tamps] in ML.
    unfold tracks. cbn [ss_sel ss_measures ss_vec ss_m spqe_solve s_tops s_tamps s_energies s_nparams s_ncnot s_nbody fst snd]. split; [|split; [|]].
    - change (s_tops sel1) with (g_tops g). change (mi_tamps r) with (g_tamps g). apply spqe_step with (tops := s_tops sel) (ts := s_tamps sel); [exact T1| |exact NL|exact V1|exact V2|cbn [g g_new]; rewrite <- V3; exact MR].
      intros HU. destruct (spqe_measured L o sy s m refb R pl HO HP _ _ (sp_dt so) HU Hdt) as (c' & EC' & HX). fold sel in EC'. rewrite EC in EC'. injection EC' as <-. exact HX.
    - unfold inv. cbn [ss_sel spqe_solve s_tops s_nbody]. destruct T2 as (N1 & N2 & N3). rewrite <- choice_chosen in V1. split; [|split; [|exact V4]]; rewrite V2.
      + pose proof (chosen_nodup pl _ _ _ _ V1) as ND. pose proof (chosen_subset pl _ _ _ _ V1) as HSub. clear - N1 ND HSub. induction ND as [|x l Hx ND IH]; [exact N1|]. cbn [app]. constructor; [|apply IH; intros; apply HSub; right; assumption].
        intros H. apply in_app_or in H. destruct H as [H|H]; [contradiction|]. specialize (HSub x (or_introl eq_refl)). apply unused_in in HSub. destruct HSub. contradiction.
      + apply Forall_app. split; [|exact N2]. apply Forall_forall. intros p Hp. apply (chosen_subset pl _ _ _ _ V1) in Hp. apply unused_in in Hp. apply Hp.
    - rewrite !map_app, U3, U4, V5, T3, T4, T6, T7, T8, !app_length, T5. cbn [map g g_energy g_tops g_count g_evals]. rewrite ML, !list_sum_app. cbn [list_sum fold_right]. rewrite !Nat.add_0_r. repeat split. do 2 f_equal. rewrite (Nat.mul_succ_l 1), Nat.mul_1_l. reflexivity. }
  destruct (Rltb_spec tot (spqe_thresh so * spqe_thresh so)) as [HL|HL].
  - cbn [fst snd] in *. rewrite U1 in E. injection E as <-. cbn [ss_sel]. rewrite U1. destruct U5 as (V1 & V2 & V34). split; [exact V1|]. split; [exact V2|]. split; [apply KEEP; tauto|]. split; [exact U2|]. now left.
  - apply Rnot_lt_le in HL. destruct (Z.ltb_spec (spqe_maxiter so) (Z.of_nat iter)) as [LZ|LZ].
    + cbn [fst snd] in *. destruct (STEP U1 HL U5) as (S1 & S2 & S3). rewrite S1. split; [exact HL|]. split; [now left|]. rewrite S2, U2. split; [tauto|exact S3].
    + destruct (Nat.eqb_spec (length (s_tops sel)) size) as [LD|LD].
      * cbn [fst snd] in *. rewrite U1 in E. injection E as <-. cbn [ss_sel]. rewrite U1. destruct U5 as (V1 & V2 & V34). split; [exact V1|]. split; [exact V2|]. split; [apply KEEP; tauto|]. split; [exact U2|]. right. now repeat split.
      * cbn [fst snd] in *. destruct (STEP U1 HL U5) as (S1 & S2 & S3). rewrite S1. split; [exact HL|]. split; [now right|]. rewrite S2, U2. split; [|exact S3]. split; [discriminate|lia].
Qed.
Lemma loop_tracks : forall fuel k st hist st1, tracks st hist -> length hist = k -> s_conv (ss_sel st) = false -> (if s_stop (ss_sel st) then k = limit_of else k < limit_of) -> spqe_macro_loop L o so s orb_e pl fuel (S k) st = Ok st1 ->
  exists hist', tracks st1 hist' /\ length hist' <= limit_of /\
  if s_conv (ss_sel st1) then length hist' < limit_of /\ exists w, (SpqeAnsatz s m R pl (s_tops (ss_sel st1)) (s_tamps (ss_sel st1)) -> Measured s m R pl (sp_dt so) (s_tops (ss_sel st1)) (s_tamps (ss_sel st1)) w) /\
    ((total w (unused size (s_tops (ss_sel st1))) < spqe_thresh so * spqe_thresh so)%R \/ (spqe_thresh so * spqe_thresh so <= total w (unused size (s_tops (ss_sel st1))))%R /\ length (s_tops (ss_sel st1)) = size)
  else length hist' = limit_of.
Proof.
  induction fuel as [|fuel IH]; intros k st hist st1 HT HK HC HS E; [discriminate|]. cbn [spqe_macro_loop] in E. destruct (s_stop (ss_sel st)) eqn:ES.
  - injection E as <-. exists hist. rewrite HC. split; [exact HT|]. split; lia.
  - destruct (spqe_iteration _ _ _ _ _ _ _ _) as [st2|] eqn:EI; [|discriminate]. cbn [bind] in E. destruct (iteration_tracks (S k) st hist st2 HT HC ES EI) as (w & HW & HQ). cbv zeta in HQ. destruct (s_conv (ss_sel st2)) eqn:EC.
    + injection E as <-. rewrite EC. destruct HQ as (Q1 & Q2 & Q3 & Q4 & Q5). exists hist. split; [exact Q3|]. split; [lia|]. split; [lia|]. exists w. rewrite Q1, Q2. split; [exact HW|]. destruct Q5 as [Q5|(Q5 & _ & Q6)]; [now left|right; now split].
    + destruct HQ as (Q1 & Q2 & Q3 & g & _ & Q4). apply (IH (S k) st2 (hist ++ [g])%list st1 Q4); [rewrite app_length, HK; cbn; lia|exact EC| |exact E]. unfold limit_of in *. destruct (s_stop (ss_sel st2)); [assert (spqe_maxiter so < Z.of_nat (S k))%Z by (now apply Q3); lia|]. assert (~ (spqe_maxiter so < Z.of_nat (S k))%Z) by (intros X; apply Q3 in X; discriminate). lia.
Qed.
End Runs.

(** ---- complete runs ---- *)
Lemma bits_list refb : bits_of_ref (map Nat.b2n refb) = refb.
Proof. unfold bits_of_ref. rewrite map_map. induction refb as [|[|] l IH]; cbn [map]; [reflexivity| |]; f_equal; exact IH. Qed.
Lemma rabs_le (a b : R) : (Rabs a <= b)%R -> (- b <= a <= b)%R.
Proof. unfold Rabs. destruct (Rcase_abs a); lra. Qed.
Lemma unused_none n : unused n [] = seq 0 n.
Proof. unfold unused. cbn [existsb negb]. induction (seq 0 n) as [|x l IH]; [reflexivity|]. cbn [filter]. now rewrite IH. Qed.
Lemma start_tracks L o so sy s m refb R pl : SpqeObject L o sy s m refb R -> tracks L o so s m R pl (mkSps (spqe_init refb) [] 0 0) [].
Proof.
  intros HO. pose proof (so_reference _ _ _ _ _ _ _ HO) as HR. unfold tracks. cbn [ss_sel ss_measures ss_vec ss_m spqe_init s_tops s_tamps s_energies s_nparams s_ncnot]. split; [apply spqe_start|]. split; [|repeat split].
  split; [constructor|]. split; [constructor|]. cbn [ss_sel spqe_init s_nbody s_tops]. pose proof (ref_unique m refb R HR) as ER. destruct HR as (HL & _). destruct (count_every_spec m refb HL) as [-> ->]. rewrite <- ER. apply count_zero.
Qed.
Lemma the_pool L o sy s m refb R : SpqeObject L o sy s m refb R -> exists pl, build_pool (srt L) (bits_of_ref (ref o)) (sy_irreps sy) (sy_irrep sy) (sy_rank sy) = Ok pl /\ SpqePool sy m R pl.
Proof.
  intros HO. rewrite (so_list _ _ _ _ _ _ _ HO), bits_list. apply C46_pool; [apply (so_libraries _ _ _ _ _ _ _ HO)|apply (so_reference _ _ _ _ _ _ _ HO)|apply (so_irreps _ _ _ _ _ _ _ HO)|apply (so_rank _ _ _ _ _ _ _ HO)].
Qed.
Lemma slow_energy L o s t : fast o = false -> exists e, energy_of L o s t = Throw e.
Proof. intros HF. unfold energy_of, energy_feval. rewrite HF. destruct (build_Uvqc _ _ _ _) as [U|e]; eexists; reflexivity. Qed.
(** the slow mode (fast = False) never returns *)
Theorem C91_slow_mode_refuted : forall L o so sy s, fast o = false -> exists e, spqe_full_run L o so sy s = Throw e.
Proof.
  intros L o so sy s HF. unfold spqe_full_run. destruct (negb _); [eexists; reflexivity|]. destruct (build_pool _ _ _ _ _) as [pl|]; [|eexists; reflexivity]. cbn [bind]. destruct (orbital_energies _ _ _) as [oe|]; [|eexists; reflexivity]. cbn [bind].
  change (spqe_macro_loop L o so s oe pl (S (S (S (Z.to_nat (spqe_maxiter so))))) 1 ?st) with (if s_stop (ss_sel st) then Ok st else do st1 <- spqe_iteration L o so s oe pl 1 st; if s_conv (ss_sel st1) then Ok st1 else spqe_macro_loop L o so s oe pl (S (S (Z.to_nat (spqe_maxiter so)))) 2 st1).
  cbn [ss_sel spqe_init s_stop]. unfold spqe_iteration at 1. cbn [ss_sel]. destruct (slow_energy L o (spqe_object s pl (s_tops (spqe_init (bits_of_ref (ref o)))) (s_tamps (spqe_init (bits_of_ref (ref o))))) (s_tamps (spqe_init (bits_of_ref (ref o)))) HF) as (e & ->). eexists. reflexivity.
Qed.
Print Assumptions C91_slow_mode_refuted.

(** what the run reports of its history *)
Record SpqeReport (o : run_options) (so : spqe_opts) (m : nat) (R : N) (r : spqe_result) (hist : list stage) : Prop := {
  rp_energies : sr_energies r = map g_energy hist;
  rp_result : hist <> [] /\ sr_Egs r = last (map g_energy hist) 0%R;
  rp_lengths : length (sr_tamps r) = length (sr_tops r) /\ sr_params r = length (sr_tops r) /\ sr_params_lst r = map (fun g => length (g_tops g)) hist /\ length (sr_cnot_lst r) = length hist /\ sr_cnot r = last (sr_cnot_lst r) 0;
  (* every operator is used at most once *)
  rp_once : NoDup (sr_tops r) /\ Forall (fun p => p < length (sr_pool r)) (sr_tops r);
  (* the n-body counts count the operators of the ansatz *)
  rp_nbody : length (sr_nbody r) = nelectrons m R /\ forall k, 1 <= k <= nelectrons m R -> nth (k - 1) (sr_nbody r) 0 = length (filter (fun p => Nat.eqb (pool_rank m R (sr_pool r) p) k) (sr_tops r));
  rp_limit : length hist <= S (Z.to_nat (spqe_maxiter so)) }.
Lemma full_run L o so sy s m refb R r : SpqeObject L o sy s m refb R -> ReturnsAPoint (minimize L) \/ is_jacobi_run o = true -> sp_dt so <> 0%R -> spqe_full_run L o so sy s = Ok r ->
  fast o = true /\ SpqePool sy m R (sr_pool r) /\ exists hist, SpqeHistory o so (minimize L) s m R (sr_pool r) hist (sr_tops r) (sr_tamps r) /\ SpqeReport o so m R r hist /\
  (sr_measures_lst r = map (fun g => Nl o * g_count g * (2 * length (g_tops g) + 1)) hist /\ sr_measures r = list_sum (sr_measures_lst r) /\ sr_vec_evals r = list_sum (map g_evals hist) /\ sr_m_evals r = list_sum (map (fun g => g_evals g * length (g_tops g)) hist)) /\
  if sr_converged r then length hist <= Z.to_nat (spqe_maxiter so) /\ exists w, (SpqeAnsatz s m R (sr_pool r) (sr_tops r) (sr_tamps r) -> Measured s m R (sr_pool r) (sp_dt so) (sr_tops r) (sr_tamps r) w) /\
    ((total w (unused (length (sr_pool r)) (sr_tops r)) < spqe_thresh so * spqe_thresh so)%R \/ (spqe_thresh so * spqe_thresh so <= total w (unused (length (sr_pool r)) (sr_tops r)))%R /\ length (sr_tops r) = length (sr_pool r))
  else length hist = S (Z.to_nat (spqe_maxiter so)).
Proof.
  intros HO HM Hdt E. assert (HF : fast o = true). { destruct (fast o) eqn:EF; [reflexivity|]. destruct (C91_slow_mode_refuted L o so sy s EF) as (e & E'). rewrite E in E'. discriminate. }
  split; [exact HF|]. unfold spqe_full_run in E. destruct (negb _); [discriminate|]. destruct (the_pool L o sy s m refb R HO) as (pl & EP & HP). rewrite EP in E. cbn [bind] in E. destruct (orbital_energies _ _ _) as [oe|]; [|discriminate]. cbn [bind] in E.
  destruct (spqe_macro_loop _ _ _ _ _ _ _ _ _) as [st|] eqn:EL; [|discriminate]. cbn [bind] in E. rewrite (so_list _ _ _ _ _ _ _ HO), bits_list in EL.
  destruct (loop_tracks L o so sy s m refb R pl oe HO HP HM HF Hdt (S (S (S (Z.to_nat (spqe_maxiter so))))) 0 (mkSps (spqe_init refb) [] 0 0) [] st (start_tracks L o so sy s m refb R pl HO) eq_refl eq_refl) as (hist & HT & HL & HC); [cbn; unfold limit_of; lia|exact EL|].
  destruct HT as (T1 & T2 & T3 & T4 & T5 & T6 & T7 & T8). destruct (py_last (s_energies _)) as [e|] eqn:E1; [|discriminate]. cbn [bind] in E. destruct (py_last (s_ncnot _)) as [c|] eqn:E2; [|discriminate]. cbn [bind] in E. injection E as <-. cbn [sr_pool sr_tops sr_tamps sr_measures_lst sr_measures sr_vec_evals sr_m_evals sr_converged].
  split; [exact HP|]. exists hist. split; [exact T1|]. split; [|split].
  - assert (NE : hist <> []) by (intros ->; rewrite T3 in E1; discriminate).
    constructor; cbn [sr_energies sr_Egs sr_tamps sr_tops sr_params sr_params_lst sr_cnot_lst sr_cnot sr_pool sr_nbody].
    + exact T3.
    + split; [exact NE|]. rewrite T3 in E1. rewrite (PropAdapt.py_last_ok _ 0%R) in E1 by (intros Q; apply NE; apply map_eq_nil in Q; exact Q). now injection E1.
    + pose proof (history_lengths _ _ _ _ _ _ _ _ _ _ T1) as LT. split; [exact LT|]. split; [exact LT|]. split; [exact T4|]. split; [exact T5|]. rewrite (PropAdapt.py_last_ok _ 0) in E2 by (intros Q; rewrite Q in T5; destruct hist; [now apply NE|discriminate]). now injection E2.
    + split; apply T2.
    + destruct T2 as (_ & _ & CL & CN). split; [exact CL|]. intros k Hk. rewrite CN by lia. now replace (S (k - 1)) with k by lia.
    + exact HL.
  - split; [exact T6|]. split; [|split; assumption]. clear. induction (ss_measures st) as [|x l IH]; [reflexivity|]. cbn [fold_right]. now rewrite IH.
  - destruct (s_conv (ss_sel st)); [|exact HC]. destruct HC as (HC1 & HC2). split; [unfold limit_of in HC1; lia|exact HC2].
Qed.
(** every run that returns is a history of macro-iterations over the pool of all target
    determinants, and reports it *)
Theorem C91_history_partial : forall L o so sy s m refb R r, SpqeObject L o sy s m refb R -> ReturnsAPoint (minimize L) \/ is_jacobi_run o = true -> sp_dt so <> 0%R -> spqe_full_run L o so sy s = Ok r ->
  SpqePool sy m R (sr_pool r) /\ exists hist, SpqeHistory o so (minimize L) s m R (sr_pool r) hist (sr_tops r) (sr_tamps r) /\ SpqeReport o so m R r hist.
Proof. intros L o so sy s m refb R r HO HM Hdt E. destruct (full_run L o so sy s m refb R r HO HM Hdt E) as (_ & HP & hist & H1 & H2 & _). split; [exact HP|]. now exists hist. Qed.
Print Assumptions C91_history_partial.

Lemma history_shape o so mz s m R pl hist tops ts : SpqeHistory o so mz s m R pl hist tops ts ->
  Forall (fun g => SpqeAnsatz s m R pl (g_tops g) (g_tamps g) -> IsSpqeEnergy s m R pl (g_tops g) (g_tamps g) (g_energy g)) hist /\
  Forall (fun g => exists added, tops = (added ++ g_tops g)%list) hist /\ (hist <> [] -> exists h g, hist = (h ++ [g])%list /\ g_tops g = tops /\ g_tamps g = ts).
Proof.
  induction 1 as [|hist tops ts g HH (IH1 & IH2 & _) _ _ HC ET HMi]; [split; [constructor|split; [constructor|now intros []]]|]. split; [|split].
  - apply Forall_app. split; [exact IH1|]. constructor; [apply HMi|constructor].
  - apply Forall_app. split; [|constructor; [now exists []|constructor]]. eapply Forall_impl; [|exact IH2]. intros g' (a & Ha). exists (g_new g ++ a)%list. now rewrite ET, Ha, app_assoc.
  - intros _. exists hist, g. now repeat split.
Qed.
(** the result is the energy of the returned amplitudes, and not below the lowest energy; the
    same holds of every reported energy *)
Theorem C91_energy_partial : forall L o so sy s m refb R r, SpqeObject L o sy s m refb R -> ReturnsAPoint (minimize L) \/ is_jacobi_run o = true -> sp_dt so <> 0%R -> spqe_full_run L o so sy s = Ok r ->
  SpqeAnsatz s m R (sr_pool r) (sr_tops r) (sr_tamps r) -> IsSpqeEnergy s m R (sr_pool r) (sr_tops r) (sr_tamps r) (sr_Egs r) /\ forall e, EnergyBound (2 * m) (ham s) e -> (e <= sr_Egs r)%R.
Proof.
  intros L o so sy s m refb R r HO HM Hdt E HU. destruct (full_run L o so sy s m refb R r HO HM Hdt E) as (_ & _ & hist & HH & HRp & _). destruct (history_shape _ _ _ _ _ _ _ _ _ _ HH) as (F & _ & FL). destruct (rp_result _ _ _ _ _ _ HRp) as (NE & EQ). destruct (FL NE) as (h & g & Eh & E1 & E2).
  assert (HE : IsSpqeEnergy s m R (sr_pool r) (sr_tops r) (sr_tamps r) (sr_Egs r)). { rewrite Eh in F, EQ. rewrite map_app in EQ. cbn [map] in EQ. rewrite last_last in EQ. apply Forall_app in F. destruct F as (_ & F). pose proof (Forall_inv F) as FG. cbn beta in FG. rewrite E1, E2, <- EQ in FG. exact (FG HU). }
  split; [exact HE|]. intros e He. destruct HE as (phi & _ & HN & ->). exact (He phi HN).
Qed.
Print Assumptions C91_energy_partial.
(** a converged run: all operators are used, or the exact residuals of the unused ones are small
    up to the error of the time step; any other run made spqe_maxiter + 1 macro-iterations *)
Theorem C91_converged_partial : forall L o so sy s m refb R r, SpqeObject L o sy s m refb R -> ReturnsAPoint (minimize L) \/ is_jacobi_run o = true -> sp_dt so <> 0%R -> spqe_full_run L o so sy s = Ok r -> SpqeAnsatz s m R (sr_pool r) (sr_tops r) (sr_tamps r) ->
  if sr_converged r then length (sr_energies r) <= Z.to_nat (spqe_maxiter so) /\ (length (sr_tops r) = length (sr_pool r) \/ exists M, ExactMoments s m R (sr_pool r) (sr_tops r) (sr_tamps r) M /\ let rest := unused (length (sr_pool r)) (sr_tops r) in
      (total (fun p => Cabs (M p) * Cabs (M p)) rest < spqe_thresh so * spqe_thresh so + INR (length rest) * step_error s (sp_dt so))%R)
  else length (sr_energies r) = S (Z.to_nat (spqe_maxiter so)).
Proof.
  intros L o so sy s m refb R r HO HM Hdt E HU. destruct (full_run L o so sy s m refb R r HO HM Hdt E) as (_ & _ & hist & HH & HRp & _ & HC). rewrite (rp_energies _ _ _ _ _ _ HRp), map_length. destruct (sr_converged r); [|exact HC]. destruct HC as (HC1 & w & HW & HC). split; [exact HC1|].
  destruct HC as [HC|HC]; [right|left; apply HC]. destruct (HW HU) as (M & HM1 & HM2). exists M. split; [exact HM1|]. cbv zeta. set (rest := unused _ _) in *. specialize (HM2 rest). assert (FR : Forall (fun p => p < length (sr_pool r)) rest) by (apply Forall_forall; intros p Hp; apply unused_in in Hp; apply Hp). specialize (HM2 FR). apply rabs_le in HM2. lra.
Qed.
Print Assumptions C91_converged_partial.
(** resource counts: for each macro-iteration Nl * k * (2 * len(tops) + 1) Pauli measurements,
    k the passes or callbacks; the residual vector has one entry for each operator *)
Theorem C91_counts : forall L o so sy s m refb R r, SpqeObject L o sy s m refb R -> ReturnsAPoint (minimize L) \/ is_jacobi_run o = true -> sp_dt so <> 0%R -> spqe_full_run L o so sy s = Ok r ->
  exists hist, SpqeHistory o so (minimize L) s m R (sr_pool r) hist (sr_tops r) (sr_tamps r) /\ sr_measures_lst r = map (fun g => Nl o * g_count g * (2 * length (g_tops g) + 1)) hist /\ sr_measures r = list_sum (sr_measures_lst r) /\
  sr_vec_evals r = list_sum (map g_evals hist) /\ sr_m_evals r = list_sum (map (fun g => g_evals g * length (g_tops g)) hist).
Proof. intros L o so sy s m refb R r HO HM Hdt E. destruct (full_run L o so sy s m refb R r HO HM Hdt E) as (_ & _ & hist & H1 & _ & H2 & _). exists hist. split; [exact H1|exact H2]. Qed.
Print Assumptions C91_counts.
(** a reference that is already converged: the run raises an IndexError *)
Theorem C91_converged_reference_refuted : forall L o so sy s m refb R orb_e, SpqeObject L o sy s m refb R -> fast o = true -> state_prep_type o = "occupation_list"%string -> sp_dt so <> 0%R -> orbital_energies L o s = Ok orb_e ->
  (forall pl M, SpqePool sy m R pl -> ExactMoments s m R pl [] [] M -> (total (fun p => Cabs (M p) * Cabs (M p)) (seq 0 (length pl)) + INR (length pl) * step_error s (sp_dt so) < spqe_thresh so * spqe_thresh so)%R) ->
  spqe_full_run L o so sy s = IndexError.
Proof.
  intros L o so sy s m refb R orb_e HO HF HS Hdt EO HX. destruct (the_pool L o sy s m refb R HO) as (pl & EP & HP). unfold spqe_full_run. rewrite HS. cbn [String.eqb Ascii.eqb Bool.eqb negb]. rewrite EP, EO. cbn [bind]. rewrite (so_list _ _ _ _ _ _ _ HO), bits_list.
  change (spqe_macro_loop L o so s orb_e pl (S (S (S (Z.to_nat (spqe_maxiter so))))) 1 ?st) with (if s_stop (ss_sel st) then Ok st else do st1 <- spqe_iteration L o so s orb_e pl 1 st; if s_conv (ss_sel st1) then Ok st1 else spqe_macro_loop L o so s orb_e pl (S (S (Z.to_nat (spqe_maxiter so)))) 2 st1).
  cbn [ss_sel spqe_init s_stop]. fold (spqe_init refb). pose proof (start_tracks L o so sy s m refb R pl HO) as (_ & T2 & _). cbn [ss_sel] in T2.
  assert (HU : SpqeAnsatz s m R pl [] []) by (split; [reflexivity|constructor]). unfold spqe_iteration at 1. cbn [ss_sel s_tops s_tamps spqe_init].
  destruct (spqe_value L o sy s m refb R pl HO HP [] [] HU) as (U & _ & _ & _ & EV). rewrite (EV HF). cbn [bind]. destruct (spqe_measured L o sy s m refb R pl HO HP [] [] (sp_dt so) HU Hdt) as (c & EC & M & HM1 & HM2). rewrite EC. cbn [bind].
  pose proof (pool_is_ok _ _ _ _ _ _ (rank_limit_le (sy_rank sy) (nelectrons m R)) HP) as HOK. destruct (update_spec (nelectrons m R) (pool_rank m R pl) pl HOK so c 1 (spqe_init refb) Hdt T2) as (sel1 & EU & U1 & U2 & U3 & U4 & U5). cbn [spqe_init s_tops s_tamps] in *. fold (spqe_init refb) in EU. rewrite EU. cbn [bind].
  rewrite weights_of, unused_none in *. specialize (HM2 (seq 0 (length pl))). specialize (HX pl M HP HM1). rewrite seq_length in HM2. assert (FR : Forall (fun p => p < length pl) (seq 0 (length pl))) by (apply Forall_forall; intros p Hp; apply in_seq in Hp; lia). specialize (HM2 FR). apply rabs_le in HM2.
  set (tot := total (residual (sp_dt so) pl (fun _ _ _ => c) 0 [] []) (seq 0 (length pl))) in *. assert (Htot : (0 <= tot)%R) by (apply total_pos; intros p; apply (residual_nonneg so pl Hdt)).
  unfold spqe_conv in U1. rewrite (Rabs_right tot) in U1 by lra. rewrite (Rabs_right (spqe_thresh so * spqe_thresh so)) in U1 by (apply Rle_ge, Rle_0_sqr). destruct (Rltb_spec tot (spqe_thresh so * spqe_thresh so)) as [HL|HL]; [|exfalso; apply HL; lra]. cbn [fst] in U1. rewrite U1. cbn [bind ss_sel]. rewrite U1. cbn [bind ss_sel]. rewrite U3. reflexivity.
Qed.
Print Assumptions C91_converged_reference_refuted.

(** ---- runs that return ---- *)
(** the optimizer returns usable amplitudes from usable ones *)
Definition SpqeSucceeds (L : libraries) (o : run_options) (s : ucc) (m : nat) (R : N) (pl : list (N * list fterm)) : Prop := forall tops ts, Forall (fun p => p < length pl) tops -> SpqeAnsatz s m R pl tops ts ->
  exists x, minimize L (optimizer o) (pqe_opts o) (spqe_objective L o (spqe_object s pl tops ts) pl) None ts = Ok x /\ SpqeAnsatz s m R pl tops (opt_x x).
Section Success.
Variables (L : libraries) (o : run_options) (so : spqe_opts) (sy : spqe_system) (s : ucc) (m : nat) (refb : list bool) (R : N) (pl : list (N * list fterm)) (orb_e : list C).
Hypotheses (HO : SpqeObject L o sy s m refb R) (HP : SpqePool sy m R pl) (HM : ReturnsAPoint (minimize L)) (HF : fast o = true) (Hdt : sp_dt so <> 0%R) (HJ : is_jacobi_run o = false)
  (HN : isin (lower (optimizer o)) ["nelder-mead"; "powell"; "bfgs"; "l-bfgs-b"; "cg"; "slsqp"]%string = true) (H6 : rank_limit (sy_rank sy) (nelectrons m R) <= 6) (HS : SpqeSucceeds L o s m R pl).
Notation ST st := (SpqeAnsatz s m R pl (s_tops (ss_sel st)) (s_tamps (ss_sel st))).
Lemma zero_selected p : p < length pl -> Selected s m R pl p 0.
Proof.
  intros Hp. destruct (nth_error pl p) as [(D, op)|] eqn:E; [|apply nth_error_None in E; lia]. exists D, op. split; [exact E|]. destruct HP as (_ & HT & _). assert (HD : Target m (sy_irreps sy) (sy_irrep sy) (rank_limit (sy_rank sy) (nelectrons m R)) R D) by (apply HT; apply in_map_iff; exists (D, op); split; [reflexivity|]; now apply nth_error_In in E).
  destruct HD as (_ & _ & _ & HD). split; [lia|]. destruct (compact s); [|now left]. intros k _. replace (0 / 2 ^ k)%R with 0%R by (unfold Rdiv; ring). apply sharp_zero.
Qed.
Lemma front_usable new tops ts : Forall (fun p => p < length pl) new -> SpqeAnsatz s m R pl tops ts -> SpqeAnsatz s m R pl (new ++ tops) (repeat 0%R (length new) ++ ts).
Proof.
  intros FN (L1 & F1). split; [now rewrite !app_length, repeat_length, L1|]. rewrite combine_app_eq by (now rewrite repeat_length). apply Forall_app. split; [|exact F1]. clear - FN HP H6. induction FN as [|p new Hp _ IH]; cbn [length repeat combine]; constructor; [|exact IH]. cbn [fst snd]. now apply zero_selected.
Qed.
Lemma iteration_succeeds iter st hist : tracks L o so s m R pl st hist -> s_conv (ss_sel st) = false -> s_stop (ss_sel st) = false -> ST st -> exists st1, spqe_iteration L o so s orb_e pl iter st = Ok st1 /\ ST st1.
Proof.
  intros (_ & T2 & _) HC HSt HU. unfold spqe_iteration. set (sel := ss_sel st) in *. destruct (spqe_value L o sy s m refb R pl HO HP _ _ HU) as (U & _ & _ & _ & EV). rewrite (EV HF). cbn [bind].
  destruct (spqe_measured L o sy s m refb R pl HO HP _ _ (sp_dt so) HU Hdt) as (c & EC & _). rewrite EC. cbn [bind]. pose proof (pool_is_ok _ _ _ _ _ _ (rank_limit_le (sy_rank sy) (nelectrons m R)) HP) as HOK. destruct (update_spec (nelectrons m R) (pool_rank m R pl) pl HOK so c iter sel Hdt T2) as (sel1 & EU & U1 & U2 & U3 & U4 & U5). rewrite EU. cbn [bind].
  assert (ALT : (s_conv sel1 = true /\ s_tops sel1 = s_tops sel /\ s_tamps sel1 = s_tamps sel) \/ (s_conv sel1 = false /\ SpqeAnsatz s m R pl (s_tops sel1) (s_tamps sel1) /\ Forall (fun p => p < length pl) (s_tops sel1))).
  { rewrite choice_chosen in U5. rewrite U1. destruct (fst (spqe_conv _ _ _ _ _)) eqn:EF; [left; tauto|right; split; [reflexivity|]]. destruct U5 as (new & V1 & V2 & V3 & _).
    assert (FN : Forall (fun p => p < length pl) new). { apply Forall_forall. intros p Hp. rewrite <- choice_chosen in V1. apply (chosen_subset pl _ _ _ _ V1) in Hp. apply unused_in in Hp. apply Hp. }
    rewrite V2, V3. split; [now apply front_usable|]. apply Forall_app. split; [exact FN|apply T2]. }
  destruct ALT as [(E1 & E2 & E3)|(E1 & HU1 & HB)].
  - rewrite E1. eexists. split; [reflexivity|]. cbn [ss_sel]. rewrite E2, E3. exact HU.
  - rewrite E1. unfold spqe_micro, spqe_scipy. rewrite HJ, HN. destruct (spqe_value L o sy s m refb R pl HO HP _ _ HU1) as (U' & _ & _ & _ & EV'). rewrite (EV' HF). cbn [bind]. destruct (HS _ _ HB HU1) as (x & EX & HX). rewrite EX. cbn [bind]. destruct (spqe_value L o sy s m refb R pl HO HP _ _ HX) as (W & EW & _ & _ & EVx). rewrite (EVx HF). cbn [bind mi_tamps mi_energy mi_evals mi_k].
    change (with_tamps (spqe_object s pl (s_tops sel1) (s_tamps sel1)) (opt_x x)) with (spqe_object s pl (s_tops sel1) (opt_x x)). rewrite EW. cbn [bind]. eexists. split; [reflexivity|]. cbn [ss_sel spqe_solve s_tops s_tamps fst snd]. exact HX.
Qed.
Lemma loop_succeeds : forall fuel k st hist, tracks L o so s m R pl st hist -> length hist = k -> s_conv (ss_sel st) = false -> (if s_stop (ss_sel st) then k = limit_of so else k < limit_of so) -> ST st -> limit_of so - k < fuel ->
  exists st1, spqe_macro_loop L o so s orb_e pl fuel (S k) st = Ok st1 /\ ST st1.
Proof.
  induction fuel as [|fuel IH]; intros k st hist HT HK HC HSt HU HFu; [lia|]. cbn [spqe_macro_loop]. destruct (s_stop (ss_sel st)) eqn:ES; [exists st; now split|].
  destruct (iteration_succeeds (S k) st hist HT HC ES HU) as (st1 & EI & HU1). rewrite EI. cbn [bind]. destruct (iteration_tracks L o so sy s m refb R pl orb_e HO HP (or_introl HM) HF Hdt (S k) st hist st1 HT HC ES EI) as (w & _ & HQ). cbv zeta in HQ. destruct (s_conv (ss_sel st1)) eqn:EC; [exists st1; now split|].
  destruct HQ as (_ & _ & Q3 & g & _ & Q4). apply (IH (S k) st1 (hist ++ [g])%list Q4); [rewrite app_length, HK; cbn; lia|exact EC| |exact HU1|lia]. unfold limit_of in *. destruct (s_stop (ss_sel st1)); [assert (spqe_maxiter so < Z.of_nat (S k))%Z by (now apply Q3); lia|]. assert (~ (spqe_maxiter so < Z.of_nat (S k))%Z) by (intros X; apply Q3 in X; discriminate). lia.
Qed.
End Success.
Lemma history_nil o so mz s m R pl hist tops ts : SpqeHistory o so mz s m R pl hist tops ts -> hist = [] -> tops = [] /\ ts = [].
Proof. destruct 1 as [|h tops' ts' g]; intros E; [now split|destruct h; discriminate]. Qed.
(** A run with a scipy optimizer returns, with usable amplitudes, if the optimizer succeeds, the
    orbital energies are defined, the pool is not empty, and the exact residuals of the
    reference are not small *)
Theorem C91_run_succeeds_partial : forall L o so sy s m refb R orb_e, SpqeObject L o sy s m refb R -> ReturnsAPoint (minimize L) -> fast o = true -> state_prep_type o = "occupation_list"%string -> sp_dt so <> 0%R -> is_jacobi_run o = false ->
  isin (lower (optimizer o)) ["nelder-mead"; "powell"; "bfgs"; "l-bfgs-b"; "cg"; "slsqp"]%string = true -> rank_limit (sy_rank sy) (nelectrons m R) <= 6 -> orbital_energies L o s = Ok orb_e -> (forall pl, SpqePool sy m R pl -> SpqeSucceeds L o s m R pl) ->
  (forall pl M, SpqePool sy m R pl -> ExactMoments s m R pl [] [] M -> pl <> [] /\ (spqe_thresh so * spqe_thresh so + INR (length pl) * step_error s (sp_dt so) <= total (fun p => Cabs (M p) * Cabs (M p)) (seq 0 (length pl)))%R) ->
  exists r, spqe_full_run L o so sy s = Ok r /\ SpqeAnsatz s m R (sr_pool r) (sr_tops r) (sr_tamps r) /\ sr_energies r <> [].
Proof.
  intros L o so sy s m refb R orb_e HO HM HF HSP Hdt HJ HN H6 EO HS HX. destruct (the_pool L o sy s m refb R HO) as (pl & EP & HP). unfold spqe_full_run. rewrite HSP. cbn [String.eqb Ascii.eqb Bool.eqb negb]. rewrite EP, EO. cbn [bind]. rewrite (so_list _ _ _ _ _ _ _ HO), bits_list.
  assert (HU : SpqeAnsatz s m R pl [] []) by (split; [reflexivity|constructor]). pose proof (start_tracks L o so sy s m refb R pl HO) as HT. specialize (HS pl HP).
  destruct (loop_succeeds L o so sy s m refb R pl orb_e HO HP HM HF Hdt HJ HN H6 HS (S (S (S (Z.to_nat (spqe_maxiter so))))) 0 (mkSps (spqe_init refb) [] 0 0) [] HT eq_refl eq_refl) as (st & EL & HU1); [cbn; unfold limit_of; lia|exact HU|unfold limit_of; lia|].
  assert (NE : s_energies (ss_sel st) <> [] /\ s_ncnot (ss_sel st) <> []).
  { destruct (iteration_succeeds L o so sy s m refb R pl orb_e HO HP HF Hdt HJ HN H6 HS 1 _ [] HT eq_refl eq_refl HU) as (st1 & EI & _). destruct (iteration_tracks L o so sy s m refb R pl orb_e HO HP (or_introl HM) HF Hdt 1 _ [] st1 HT eq_refl eq_refl EI) as (w & HW & HQ). cbv zeta in HQ. cbn [ss_sel spqe_init s_tops s_tamps] in HW, HQ.
    destruct (HW HU) as (M & HM1 & HM2). destruct (HX pl M HP HM1) as (HNE & HXM). specialize (HM2 (seq 0 (length pl))). rewrite seq_length in HM2. assert (FR : Forall (fun p => p < length pl) (seq 0 (length pl))) by (apply Forall_forall; intros p Hp; apply in_seq in Hp; lia). specialize (HM2 FR). apply rabs_le in HM2. rewrite unused_none in HQ.
    cbn [spqe_macro_loop ss_sel spqe_init s_stop] in EL. fold (spqe_init refb) in EL. rewrite EI in EL. cbn [bind] in EL. destruct (s_conv (ss_sel st1)) eqn:EC.
    { exfalso. destruct HQ as (_ & _ & _ & _ & [HQ|(_ & _ & HQ)]); [lra|]. cbn [length] in HQ. destruct pl; [now apply HNE|discriminate]. }
    destruct HQ as (_ & _ & Q3 & g & _ & Q4). change (if s_stop (ss_sel st1) then Ok st1 else ?x) with (if s_stop (ss_sel st1) then Ok st1 else x) in EL.
    destruct (loop_tracks L o so sy s m refb R pl orb_e HO HP (or_introl HM) HF Hdt (S (S (Z.to_nat (spqe_maxiter so)))) 1 st1 [g] st Q4 eq_refl EC) as (hist & HTr & _ & HL); [|exact EL|].
    { unfold limit_of. destruct (s_stop (ss_sel st1)); [assert (spqe_maxiter so < Z.of_nat 1)%Z by (now apply Q3); lia|]. assert (~ (spqe_maxiter so < Z.of_nat 1)%Z) by (intros X; apply Q3 in X; discriminate). lia. }
    assert (NH : hist <> []).
    { clear - HTr HL HX HM HP HU HF HO Hdt HW. intros ->. destruct HTr as (T1 & _). destruct (s_conv (ss_sel st)); [|discriminate]. destruct (history_nil _ _ _ _ _ _ _ _ _ _ T1 eq_refl) as (E1 & E2). destruct HL as (_ & w' & HW' & HL). rewrite E1, E2 in HW'. rewrite E1 in HL. destruct (HW' HU) as (M & HM1 & HM2). destruct (HX pl M HP HM1) as (HNE & HXM). specialize (HM2 (seq 0 (length pl))). rewrite seq_length in HM2. assert (FR : Forall (fun p => p < length pl) (seq 0 (length pl))) by (apply Forall_forall; intros p Hp; apply in_seq in Hp; lia). specialize (HM2 FR). apply rabs_le in HM2. rewrite unused_none in HL. destruct HL as [HL|(_ & HL)]; [lra|]. cbn [length] in HL. destruct pl; [now apply HNE|discriminate]. }
    destruct HTr as (_ & _ & T3 & _ & T5 & _). rewrite T3. split; [intros Q; now apply map_eq_nil in Q|]. intros Q. rewrite Q in T5. destruct hist; [now apply NH|discriminate]. }
  rewrite EL. cbn [bind]. destruct NE as (N1 & N2). rewrite (PropAdapt.py_last_ok _ 0%R) by exact N1. cbn [bind]. rewrite (PropAdapt.py_last_ok _ 0) by exact N2. cbn [bind]. eexists. split; [reflexivity|]. split; [exact HU1|exact N1].
Qed.
Print Assumptions C91_run_succeeds_partial.

(** ---- an object that meets the hypotheses ---- *)
(** four spin orbitals, two electrons, H = X0 X1 X2 X3 *)
Definition ex_hamiltonian : qop := [(C1, [gX1 0; gX1 1; gX1 2; gX1 3])].
Definition ex_spqe : ucc := mkUcc (new_computer 4) (StateProofs.xgates 0 [1; 1; 0; 0]) ex_hamiltonian "2" false false 2 [] [] [].
Definition ex_halves : minimizer := fun method opts f g x0 =>
  do a <- f x0;
  let x1 := repeat (1/2)%R (length x0) in
  do b <- f x1;
  if Rltb b a then Ok (mkOpt x1 b 2 1 (Some 1)) else Ok (mkOpt x0 a 2 1 (Some 1)).
Definition ex_spqe_libraries : libraries := mkLib ex_halves (fun _ _ _ _ => 0%R) (fun _ m _ => m) None PropSQ.isort tsort.
Definition ex_spqe_run : run_options := mkRun "BFGS" true (1/100000) (1/100000) 50 0 8 true false "occupation_list" [1; 1; 0; 0] (StateProofs.xgates 0 [1; 1; 0; 0]) (Some [C0; C1]) 1.
Definition ex_spqe_opts (thresh : R) : spqe_opts := mkSO thresh 3 (1/1000) false.
Definition ex_system : spqe_system := mkSys [0; 0]%N 0%N None.
Lemma ex_halves_legal : ReturnsAPoint ex_halves /\ NeverWorse ex_halves.
Proof.
  split.
  - intros method opts f g x0 r E. unfold ex_halves in E. destruct (f x0) as [a|] eqn:Ea; [|discriminate]. cbn [bind] in E. cbv zeta in E. destruct (f (repeat _ _)) as [b|] eqn:Eb; [|discriminate]. cbn [bind] in E. destruct (Rltb b a); injection E as <-; split; try assumption; [apply repeat_length|reflexivity].
  - intros method opts f g x0 r e0 E0 E. unfold ex_halves in E. rewrite E0 in E. cbn [bind] in E. cbv zeta in E. destruct (f (repeat _ _)) as [b|]; [|discriminate]. cbn [bind] in E. destruct (Rltb_spec b e0); injection E as <-; cbn; lra.
Qed.
Lemma ex_object_ok : SpqeObject ex_spqe_libraries ex_spqe_run ex_system ex_spqe 2 [true; true; false; false] 3.
Proof.
  constructor.
  - split; [exact PropSQ.isort_legal|split; [exact tsort_legal|exact Logic.I]].
  - apply C46_nonvacuous.
  - reflexivity.
  - apply StateProofs.refprep_eq.
  - reflexivity.
  - reflexivity.
  - constructor; [|constructor]. cbn [fst snd]. split; [|reflexivity]. split; [|repeat constructor; cbn; lia]. split.
    + repeat constructor; [exists "X"%string, 0|exists "X"%string, 1|exists "X"%string, 2|exists "X"%string, 3]; (split; [now left|reflexivity]).
    + unfold DistinctQubits. cbn. repeat constructor; cbn; intuition lia.
  - repeat constructor.
  - discriminate.
  - cbn; lia.
  - cbn; lia.
  - discriminate.
  - cbn; lia.
Qed.
Lemma ex_pool_size pl : SpqePool ex_system 2 3 pl -> length pl <= 16 /\ exists top o, nth_error pl top = Some (12%N, o).
Proof.
  intros (HS & HT & _). split.
  - rewrite <- (map_length fst). replace 16 with (length (map N.of_nat (seq 0 16))) by reflexivity. apply NoDup_incl_length.
    + clear - HS. induction HS as [|x l _ IH HF]; constructor; [|exact IH]. intros HI. rewrite Forall_forall in HF. specialize (HF x HI). lia.
    + intros D HD. apply HT in HD. destruct HD as (HD & _). change (2 ^ N.of_nat (2 * 2))%N with 16%N in HD. apply in_map_iff. exists (N.to_nat D). split; [apply N2Nat.id|]. apply in_seq. lia.
  - destruct C46_nonvacuous as (_ & T1 & _). apply HT in T1. apply in_map_iff in T1. destruct T1 as ((D & o) & ED & HI). cbn in ED. subst D. destruct (In_nth_error _ _ HI) as (top & EN). now exists top, o.
Qed.
(** the exact residual of the reference along |D>: 1 for D = 12, 0 otherwise *)
Lemma ex_moment D r : D < 16 -> Projection 4 (op_act ex_hamiltonian) (spqe_factors ex_spqe [] [] []) 3 (ket D) r -> r = ket 12 D.
Proof.
  intros HD (a & b & A & B & ->). cbn [exp_product spqe_factors ex_spqe compact trotter_steps] in A, B.
  assert (EA : a = ket 3) by (apply state_eq; exact A). assert (EB : b = ket D) by (apply state_eq; exact B). subst a b. rewrite QftProofs.inner_ket by exact HD.
  unfold op_act, ex_hamiltonian. rewrite Csum_cons, Csum_nil. cbn [fst snd]. unfold circ_act. cbn [fold_left]. unfold gX1. rewrite !act_1, !ev_X.
  replace (ket 3 (flip (flip (flip (flip D 3) 2) 1) 0)) with (ket 12 D); [ring|]. do 16 (destruct D as [|D]; [reflexivity|]). lia.
Qed.
Lemma ex_moments pl M : SpqePool ex_system 2 3 pl -> ExactMoments ex_spqe 2 3 pl [] [] M -> forall p D o, nth_error pl p = Some (D, o) -> M p = ket 12 (N.to_nat D).
Proof.
  intros HP HM p D o E. specialize (HM p D o E). apply ex_moment; [|exact HM]. destruct HP as (_ & HT & _). assert (HD : Target 2 (sy_irreps ex_system) (sy_irrep ex_system) (rank_limit (sy_rank ex_system) (nelectrons 2 3)) 3 D) by (apply HT; apply in_map_iff; exists (D, o); split; [reflexivity|now apply nth_error_In in E]). destruct HD as (HD & _). change (2 ^ N.of_nat (2 * 2))%N with 16%N in HD. lia.
Qed.
Lemma ex_step_error : (0 <= step_error ex_spqe (1 / 1000) <= 11 / 10000)%R.
Proof.
  assert (EW : QiteNorm.weight (ham ex_spqe) = 1%R). { unfold QiteNorm.weight, ex_spqe, ex_hamiltonian. cbn [ham]. unfold QpeProofs.Rsum; cbn [fold_right fst]. unfold Cabs, Cnorm2. cbn. replace (1 * 1 + 0 * 0)%R with 1%R by ring. rewrite sqrt_1. ring. }
  unfold step_error. rewrite EW. cbv zeta. rewrite Rabs_right by lra. lra.
Qed.
Lemma ex_succeeds pl : SpqePool ex_system 2 3 pl -> SpqeSucceeds ex_spqe_libraries ex_spqe_run ex_spqe 2 3 pl.
Proof.
  intros HP tops ts HB HU. pose proof ex_object_ok as HO. cbn [minimize ex_spqe_libraries]. unfold ex_halves.
  assert (HV : SpqeAnsatz ex_spqe 2 3 pl tops (repeat (1/2)%R (length ts))).
  { split; [rewrite repeat_length; apply HU|]. rewrite (proj1 HU). clear HU. induction HB as [|p tops Hp _ IH]; cbn [length repeat combine]; constructor; [|exact IH]. cbn [fst snd]. destruct (zero_selected ex_system ex_spqe 2 3 pl HP ltac:(cbn; lia) p Hp) as (D & op & E & H6 & _). exists D, op. split; [exact E|]. split; [exact H6|]. cbn [compact ex_spqe]. right. rewrite Rabs_right; lra. }
  destruct (spqe_residuals_ok _ _ _ _ _ _ _ _ HO HP tops ts ts HU) as (rs & vs & X1 & _). destruct (spqe_residuals_ok _ _ _ _ _ _ _ _ HO HP tops _ ts HV) as (rs' & vs' & X2 & _).
  rewrite (objective_value _ _ _ _ _ _ _ _ HO HP tops ts ts rs HU X1). cbn [bind]. cbv zeta. rewrite (objective_value _ _ _ _ _ _ _ _ HO HP tops _ ts rs' HV X2). cbn [bind]. destruct (Rltb _ _); eexists; (split; [reflexivity|]); cbn [opt_x]; assumption.
Qed.
Lemma total_ge (w : nat -> R) l k : (forall p, 0 <= w p)%R -> In k l -> (w k <= total w l)%R.
Proof. intros HW. unfold total. induction l as [|x l IH]; [intros []|]. cbn [fold_right]. pose proof (total_pos w l HW) as HT. unfold total in HT. intros [->|H]; [lra|]. specialize (IH H). pose proof (HW x). lra. Qed.
Lemma total_le (w : nat -> R) l b : (forall p, In p l -> w p <= b)%R -> (total w l <= INR (length l) * b)%R.
Proof. unfold total. induction l as [|x l IH]; intros HW; [cbn; lra|]. cbn [fold_right length]. rewrite S_INR. pose proof (HW x (or_introl eq_refl)). specialize (IH (fun p Hp => HW p (or_intror Hp))). lra. Qed.
Lemma ket_square J I : (0 <= Cabs (ket J I) * Cabs (ket J I) <= 1)%R /\ (J = I -> Cabs (ket J I) * Cabs (ket J I) = 1)%R.
Proof.
  assert (SQ : forall c, (Cabs c * Cabs c = Re c * Re c + Im c * Im c)%R) by (intros c; unfold Cabs, Cnorm2; rewrite sqrt_sqrt; [reflexivity|nra]). rewrite !SQ. unfold ket. destruct (Nat.eqb_spec I J) as [->|E]; cbn; split; try lra. intros ->. now elim E.
Qed.
Lemma history_last o so mz s m R pl hist tops ts : SpqeHistory o so mz s m R pl hist tops ts -> hist <> [] -> exists h g w tops0, Choice so (length pl) w tops0 (g_new g) /\ tops = (g_new g ++ tops0)%list /\ hist = (h ++ [g])%list.
Proof. destruct 1 as [|h tops0 ts0 g HH HW HT HC ET HMi]; intros NH; [now elim NH|]. exists h, g, (g_weights g), tops0. now repeat split. Qed.
Example C91_nonvacuous : SpqeObject ex_spqe_libraries ex_spqe_run ex_system ex_spqe 2 [true; true; false; false] 3 /\ ReturnsAPoint (minimize ex_spqe_libraries) /\ NeverWorse (minimize ex_spqe_libraries) /\
  (exists r, spqe_full_run ex_spqe_libraries ex_spqe_run (ex_spqe_opts (1/2)) ex_system ex_spqe = Ok r /\ SpqeAnsatz ex_spqe 2 3 (sr_pool r) (sr_tops r) (sr_tamps r) /\ sr_tops r <> []) /\
  spqe_full_run ex_spqe_libraries ex_spqe_run (ex_spqe_opts 10) ex_system ex_spqe = IndexError.
Proof.
  split; [exact ex_object_ok|]. split; [apply ex_halves_legal|]. split; [apply ex_halves_legal|]. pose proof ex_step_error as HE. split.
  - destruct (C91_run_succeeds_partial ex_spqe_libraries ex_spqe_run (ex_spqe_opts (1/2)) ex_system ex_spqe 2 [true; true; false; false] 3 (orb_energies_hf [C0; C1]) ex_object_ok (proj1 ex_halves_legal) eq_refl eq_refl) as (r & E & HU & NE); [cbn; lra|reflexivity|reflexivity|cbn; lia|reflexivity|exact ex_succeeds| |].
    + intros pl M HP HM. destruct (ex_pool_size pl HP) as (HL & top & op & ET). split; [intros ->; destruct top; discriminate|]. cbn [spqe_thresh sp_dt ex_spqe_opts]. pose proof (ex_moments pl M HP HM top 12%N op ET) as EM.
      assert (H1 : (1 <= total (fun p => Cabs (M p) * Cabs (M p)) (seq 0 (length pl)))%R). { replace 1%R with (Cabs (M top) * Cabs (M top))%R by (rewrite EM; apply ket_square; reflexivity). apply (total_ge (fun p => Cabs (M p) * Cabs (M p))%R); [intros p; apply Rle_0_sqr|]. apply in_seq. assert (top < length pl) by (apply nth_error_Some; rewrite ET; discriminate). lia. }
      apply le_INR in HL. rewrite (INR_IZR_INZ 16) in HL. change (IZR (Z.of_nat 16)) with 16%R in HL. pose proof (pos_INR (length pl)) as HP0. assert (HB : (INR (length pl) * step_error ex_spqe (1 / 1000) <= 16 * (11 / 10000))%R) by (apply Rmult_le_compat; lra). lra.
    + exists r. split; [exact E|]. split; [exact HU|]. intros Q. assert (DT : sp_dt (ex_spqe_opts (1/2)) <> 0%R) by (cbn; lra). destruct (C91_history_partial _ _ _ _ _ _ _ _ _ ex_object_ok (or_introl (proj1 ex_halves_legal)) DT E) as (HP & hist & HH & HRp).
      destruct (rp_result _ _ _ _ _ _ HRp) as (NH & _). destruct (history_last _ _ _ _ _ _ _ _ _ _ HH NH) as (h & g & w & tops & HC & ET & _). rewrite Q in ET. symmetry in ET. apply app_eq_nil in ET. destruct ET as (EN & ET). rewrite EN, ET in HC. cbn [Choice sp_cumulative ex_spqe_opts] in HC. destruct HC as [(HC & _)|(p & HC & _)]; [|discriminate]. rewrite unused_none in HC. destruct (ex_pool_size _ HP) as (_ & top & op & EP). destruct (sr_pool r); [destruct top; discriminate|discriminate].
  - apply (C91_converged_reference_refuted ex_spqe_libraries ex_spqe_run (ex_spqe_opts 10) ex_system ex_spqe 2 [true; true; false; false] 3 (orb_energies_hf [C0; C1]) ex_object_ok eq_refl eq_refl); [cbn; lra|reflexivity|].
    intros pl M HP HM. destruct (ex_pool_size pl HP) as (HL & _). cbn [spqe_thresh sp_dt ex_spqe_opts].
    assert (H1 : (total (fun p => Cabs (M p) * Cabs (M p)) (seq 0 (length pl)) <= INR (length (seq 0 (length pl))) * 1)%R). { apply total_le. intros p Hp. apply in_seq in Hp. destruct (nth_error pl p) as [(D, op)|] eqn:ED; [|apply nth_error_None in ED; lia]. rewrite (ex_moments pl M HP HM p D op ED). apply ket_square. }
    rewrite seq_length in H1. apply le_INR in HL. rewrite (INR_IZR_INZ 16) in HL. change (IZR (Z.of_nat 16)) with 16%R in HL. pose proof (pos_INR (length pl)) as HP0. assert (HB : (INR (length pl) * step_error ex_spqe (1 / 1000) <= 16 * (11 / 10000))%R) by (apply Rmult_le_compat; lra). lra.
Qed.
