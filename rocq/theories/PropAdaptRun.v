(** C90: complete runs of ADAPT-VQE. *)
From Coq Require Import Reals String List Arith NArith ZArith Bool Lia Lra Sorted.
From Verif Require Import CBase Result Bits Spec OpSpec GateModel ComputerModel SafeProofs LibProofs CleanProofs SimProofs CircuitModel OperatorModel MeasureModel MeasureProofs SQSpec SQModel SQPoolModel PyModel PyApply PointModel CompactModel CompactApply ExpSpec ExpProofs AnsatzSpec AnsatzModel AnsatzProofs DiisModel PropDiis ResModel SelectModel SelectSpec SelectProofs PropAdapt RunModel GradModel GradSpec GradCalc GradProofs GradAnsatz ExpCircuit GradExample PropOperator PropMeasure PropAnsatz PropGrad PropRes RunProofs PropRun AdaptRunModel.
Import ListNotations.
Local Open Scope nat_scope.

(** ---- vocabulary ---- *)
(** jw_transform leaves the operators of the pool as they are; fill_pool has simplified them *)
Definition Settled (srt : sorter) (p : sqpool) : Prop := Forall (fun e => forall qe, exists K, jw_transform srt qe (snd e) = Ok (snd e, K)) p.
Definition AdaptObject (L : libraries) (s : ucc) (n : nat) : Prop := LegalLibraries L n (ham s) /\ Prepared s n /\ Forall (Plain n) (pool s) /\ Settled (srt L) (pool s).
(** amplitudes with which the circuit of the selected operators is an exact product of exponentials *)
Definition UsableAnsatz (s : ucc) (n : nat) (tops : list N) (ts : list R) : Prop := length ts = length tops /\ Forall (fun x => Usable s n (fst x) (snd x)) (combine (map N.to_nat tops) ts).
(** the exponentials of the ansatz, in the order in which they act *)
Definition adapt_factors (s : ucc) (tops : list N) (ts : list R) : list (C * (state -> state)) :=
  let l := factors (qubit_excitations s) (pool s) (map N.to_nat tops) ts in if compact s then l else trotter_steps (trotter_number s) l.
Definition AnsatzState (s : ucc) (n : nat) (tops : list N) (ts : list R) (phi : state) : Prop := exp_product (adapt_factors s tops ts) (reference s) phi /\ inner n phi phi = C1.
Definition IsAdaptEnergy (s : ucc) (n : nat) (tops : list N) (ts : list R) (E : R) : Prop := exists phi, AnsatzState s n tops ts phi /\ E = energy n (op_act (ham s)) phi.
(** g has, for every operator of the pool, the derivative at zero of the energy with that
    operator added at the end of the ansatz *)
Definition PoolGradients (s : ucc) (n : nat) (tops : list N) (ts : list R) (g : list R) : Prop :=
  length g = length (pool s) /\ exists phi, AnsatzState s n tops ts phi /\
    forall mu, mu < length (pool s) -> slope n (op_act (ham s)) (fun x => [(RtoC x, act (qubit_excitations s) (op_at (pool s) mu))]) phi 0%R (nth mu g 0%R).

(** ---- products with trivial factors ---- *)
Inductive Drop : list (C * (state -> state)) -> list (C * (state -> state)) -> Prop :=
| drop_nil : Drop [] []
| drop_keep x l l' : Drop l l' -> Drop (x :: l) (x :: l')
| drop_zero x l l' : fst x = C0 -> Drop l l' -> Drop (x :: l) l'.
Lemma drop_refl l : Drop l l.
Proof. induction l; constructor; assumption. Qed.
Lemma drop_app a a' b b' : Drop a a' -> Drop b b' -> Drop (a ++ b) (a' ++ b').
Proof. induction 1; intros HB; cbn [app]; [exact HB|constructor; auto|apply drop_zero; auto]. Qed.
Lemma drop_zeros l : Forall (fun x => fst x = C0) l -> Drop l [].
Proof. induction 1; [constructor|now apply drop_zero]. Qed.
Lemma drop_product l l' : Drop l l' -> forall psi phi, exp_product l psi phi -> exp_product l' psi phi.
Proof.
  induction 1 as [|(c, A) l l' _ IH|(c, A) l l' Hc _ IH]; intros psi phi HP; cbn [exp_product] in *; [exact HP| |].
  - destruct HP as (chi & H1 & H2). exists chi. split; [exact H1|now apply IH].
  - destruct HP as (chi & H1 & H2). apply IH. cbn [fst] in Hc. apply (exp_zero c A psi chi Hc), state_eq in H1. now subst chi.
Qed.
Lemma drop_steps m l l' : Drop l l' -> Drop (trotter_steps m l) (trotter_steps m l').
Proof.
  intros HD. unfold trotter_steps.
  assert (D1 : Drop (map (fun x : C * (state -> state) => ((fst x * RtoC (/ INR m))%C, snd x)) l) (map (fun x => ((fst x * RtoC (/ INR m))%C, snd x)) l')).
  { induction HD as [|x l l' _ IH|x l l' Hx _ IH]; cbn [map]; [constructor|now constructor|]. apply drop_zero; [|exact IH]. cbn [fst]. rewrite Hx. apply C_ext; cbn; ring. }
  revert D1. generalize (map (fun x : C * (state -> state) => ((fst x * RtoC (/ INR m))%C, snd x)) l) as a, (map (fun x : C * (state -> state) => ((fst x * RtoC (/ INR m))%C, snd x)) l') as b. intros a b D1. clear HD. generalize m as k. induction k as [|k IH]; cbn [repeat concat]; [constructor|]. now apply drop_app.
Qed.
Lemma combine_app_eq {A B} (a a' : list A) (b b' : list B) : length b = length a -> combine (a ++ a') (b ++ b') = (combine a b ++ combine a' b')%list.
Proof. revert b. induction a as [|x a IH]; intros [|y b] H; try discriminate; cbn [app combine]; [reflexivity|]. now rewrite IH by (now injection H). Qed.
Lemma combine_zero_factors qe pl tops k : Forall (fun x => fst x = C0) (factors qe pl tops (repeat 0%R k)).
Proof. unfold factors. apply Forall_map. revert k. induction tops as [|t tops IH]; intros [|k]; cbn [repeat combine]; constructor; [reflexivity|apply IH]. Qed.
(** operators added with amplitude zero do not change the state *)
Lemma factors_zero_tail s tops ts new : length ts = length tops -> Drop (adapt_factors s (tops ++ new) (ts ++ repeat 0%R (length new))) (adapt_factors s tops ts).
Proof.
  intros HL. unfold adapt_factors. cbv zeta.
  assert (D : Drop (factors (qubit_excitations s) (pool s) (map N.to_nat (tops ++ new)) (ts ++ repeat 0%R (length new))) (factors (qubit_excitations s) (pool s) (map N.to_nat tops) ts)).
  { rewrite map_app. unfold factors at 1. rewrite combine_app_eq, map_app by (now rewrite map_length).
    rewrite <- (app_nil_r (factors (qubit_excitations s) (pool s) (map N.to_nat tops) ts)). apply drop_app; [apply drop_refl|]. apply drop_zeros, (combine_zero_factors (qubit_excitations s) (pool s)). }
  destruct (compact s); [exact D|now apply drop_steps].
Qed.
Lemma usable_tail s n tops ts new ts' : UsableAnsatz s n tops ts -> UsableAnsatz s n (tops ++ new) ts' -> UsableAnsatz s n (tops ++ new) (ts ++ repeat 0%R (length new)).
Proof.
  intros (L1 & F1) (L2 & F2). split; [now rewrite !app_length, repeat_length, L1|]. rewrite map_app in *. rewrite combine_app_eq by (now rewrite map_length). apply Forall_app. split; [exact F1|].
  assert (F3 : Forall (fun x => Usable s n (fst x) (snd x)) (combine (map N.to_nat new) (skipn (length tops) ts'))).
  { clear F1 L1. rewrite app_length in L2. revert tops L2 F2. induction ts' as [|t ts' IH]; intros [|a tops] L2 F2.
    - destruct new; constructor.
    - cbn [length] in L2. lia.
    - exact F2.
    - cbn [length skipn map app combine] in *. apply IH; [lia|exact (Forall_inv_tail F2)]. }
  assert (L3 : length (skipn (length tops) ts') = length new) by (rewrite skipn_length, L2, app_length; lia).
  clear - F3 L3. revert F3 L3. generalize (skipn (length tops) ts') as l. induction new as [|a new IH]; intros [|t l] F3 L3; try discriminate; cbn [map length repeat combine]; [constructor|]. cbn [map combine] in F3. constructor; [exact (usable_zero _ _ _ _ (Forall_inv F3))|]. apply (IH l); [exact (Forall_inv_tail F3)|now injection L3].
Qed.

(** ---- energies and gradients of the object ---- *)
Lemma ansatz_value L o s n tops ts : AdaptObject L s n -> UsableAnsatz s n tops ts -> exists U, build_Uvqc (srt L) (sort L) (with_ansatz s (pool s) tops ts) None = Ok (Uprep s ++ U)%list /\ Applicable n U /\ AnsatzState s n tops ts (circ_act U (reference s)) /\
  forall ts0, fast o = true -> energy_of L o (with_ansatz s (pool s) tops ts0) ts = Ok (energy n (op_act (ham s)) (circ_act U (reference s))).
Proof.
  intros ((L1 & L2 & L3) & (W & N & AP & HH & Nt & T1 & NR) & _ & _) (LT & FU).
  destruct (ansatz_built (srt L) (sort L) (with_ansatz s (pool s) tops ts) n ts L1 L2 Nt T1) as (U & EU & AU & HU); [cbn [GradModel.tops with_ansatz]; now rewrite map_length|exact FU|].
  exists U. split; [unfold build_Uvqc; cbn [amplitudes]; change (GradModel.tamps (with_ansatz s (pool s) tops ts)) with (map RtoC ts); rewrite EU; reflexivity|]. split; [exact AU|].
  assert (HS : AnsatzState s n tops ts (circ_act U (reference s))). { split; [apply HU|]. destruct AU as (A1 & _ & A3). now rewrite (circ_preserves_inner n U _ _ A1 A3). }
  split; [exact HS|]. intros ts0 HF.
  destruct (energy_value L o (with_ansatz s (pool s) tops ts0) n ts L1 L2 L3 HF W N AP HH Nt T1) as (U' & EB & _ & HU' & EE); [cbn [GradModel.tops with_ansatz]; now rewrite map_length|exact FU|].
  rewrite EE. do 2 f_equal. apply state_eq. refine (exp_product_unique _ (reference s) _ _ (HU' _) _). apply HS.
Qed.
Lemma state_unique s n tops ts phi phi' : AnsatzState s n tops ts phi -> AnsatzState s n tops ts phi' -> phi' = phi.
Proof. intros (H1 & _) (H2 & _). apply state_eq. exact (exp_product_unique _ _ _ _ H2 H1). Qed.
Lemma energy_unique s n tops ts E E' : IsAdaptEnergy s n tops ts E -> IsAdaptEnergy s n tops ts E' -> E' = E.
Proof. intros (phi & H1 & ->) (phi' & H2 & ->). now rewrite (state_unique s n tops ts phi phi' H1 H2). Qed.
Lemma energy_ok L o s n tops ts E ts0 : AdaptObject L s n -> UsableAnsatz s n tops ts -> fast o = true -> energy_of L o (with_ansatz s (pool s) tops ts0) ts = Ok E -> IsAdaptEnergy s n tops ts E.
Proof. intros HO HU HF E1. destruct (ansatz_value L o s n tops ts HO HU) as (U & _ & _ & HS & EE). rewrite EE in E1 by exact HF. injection E1 as <-. now exists (circ_act U (reference s)). Qed.
(** adding operators with amplitude zero leaves the energy *)
Lemma energy_zero_tail s n tops ts new E : length ts = length tops -> IsAdaptEnergy s n (tops ++ new) (ts ++ repeat 0%R (length new)) E -> IsAdaptEnergy s n tops ts E.
Proof. intros HL (phi & (H1 & H2) & ->). exists phi. split; [|reflexivity]. split; [|exact H2]. exact (drop_product _ _ (factors_zero_tail s tops ts new HL) _ _ H1). Qed.
Lemma gradient3_settled sr qe sig psi p : Settled sr p -> forall st r, foreach p (fun e st =>
    do r <- jw_transform sr qe (snd e);
    do g <- grad_element sig psi (op_mult_coeffs (snd r) (fst e));
    Ok ((fst st ++ [(fst e, fst r)])%list, (snd st ++ [g])%list)) st = Ok r -> fst r = (fst st ++ p)%list /\ length (snd r) = length (snd st) + length p.
Proof.
  intros HS. induction HS as [|e p He _ IH]; intros st r E; cbn [foreach] in E; [injection E as <-; rewrite app_nil_r; split; [reflexivity|cbn; lia]|]. destruct (He qe) as (K & EK). rewrite EK in E. cbn [bind fst snd] in E.
  destruct (grad_element _ _ _) as [g|]; [|discriminate]. cbn [bind] in E. apply IH in E. cbn [fst snd] in E. destruct E as (-> & ->). rewrite <- app_assoc, app_length. cbn [app length]. split; [now destruct e|lia].
Qed.
Lemma measured_pool L s p tops ts r : Settled (srt L) p -> measure_gradient3 (srt L) (sort L) (with_ansatz s p tops ts) = Ok r -> fst r = p /\ length (snd r) = length p.
Proof.
  intros HS E. unfold measure_gradient3 in E. destruct (build_Uvqc _ _ _ _); [|discriminate]. cbn [bind] in E. destruct (apply_circuit _ _); [|discriminate]. cbn [bind] in E. destruct (apply_operator _ _); [|discriminate]. cbn [bind] in E. apply gradient3_settled in E; [|exact HS]. exact E.
Qed.
Lemma gradients_ok L s n tops ts : AdaptObject L s n -> UsableAnsatz s n tops ts -> exists g, measure_gradient3 (srt L) (sort L) (with_ansatz s (pool s) tops ts) = Ok (pool s, g) /\ PoolGradients s n tops ts g.
Proof.
  intros HO HU. destruct (ansatz_value L (mkRun "" false 0 0 0 0 0 true false "" [] [] None 0)%R s n tops ts HO HU) as (U & EB & AU & HS & _). destruct HO as ((L1 & L2 & L3) & (W & N & AP & HH & Nt & T1 & NR) & HP & HX).
  destruct (C64_adapt_gradients_partial (srt L) (sort L) L1 (with_ansatz s (pool s) tops ts) n (Uprep s ++ U) W N HH HP EB) as (pool' & g & EG & _ & LG & SG); [now apply applicable_app|].
  destruct (measured_pool L s (pool s) tops ts (pool', g) HX EG) as (EP & _). cbn [fst] in EP. subst pool'. exists g. split; [exact EG|]. split; [exact LG|]. exists (circ_act U (reference s)). split; [exact HS|]. intros mu Hmu. specialize (SG mu Hmu). rewrite circ_act_app in SG. exact SG.
Qed.

(** ---- inversion of one macro-iteration ---- *)
Lemma py_last_inv (l : list R) e : py_last l = Ok e -> l <> [] /\ e = last l 0%R.
Proof. intros E. destruct l as [|x l]; [rewrite py_last_nil in E; discriminate|]. split; [discriminate|]. rewrite (py_last_ok _ 0%R) in E by discriminate. now injection E. Qed.
Lemma update_inv o g s s1 : update_ansatz o g s = Ok s1 ->
  a_energies s1 = a_energies s /\ a_norms s1 = (a_norms s ++ [norm g])%list /\ a_ncnot s1 = a_ncnot s /\ n_results s1 = n_results s /\
  (if a_conv s1 then a_tops s1 = a_tops s /\ a_tamps s1 = a_tamps s /\ a_nparams s1 = a_nparams s /\ (norm g < Rabs (avqe_thresh o))%R /\ a_energies s <> [] /\ a_final s1 = Some (last (a_energies s) 0%R)
   else (Rabs (avqe_thresh o) <= norm g)%R /\ a_final s1 = a_final s /\ exists new, a_tops s1 = (a_tops s ++ new)%list /\ a_tamps s1 = (a_tamps s ++ repeat 0%R (length new))%list /\ a_nparams s1 = (a_nparams s ++ [length (a_tops s1)])%list /\
     (cumulative o = true \/ add_equiv o = false -> SelectOf o g new)).
Proof.
  intros E. pose proof (update_ok o g s) as HX. rewrite E in HX. unfold update_ansatz in E. destruct (foreach (enumerate g) scan_grad (0%R, None, None)) as [sc|]; [|discriminate]. cbn [bind] in E.
  unfold adapt_conv in E. rewrite sum_sq_total in E. fold (norm g) in E. rewrite (Rabs_right (norm g)) in E by (apply Rle_ge, norm_nonneg). destruct (Rltb_spec (norm g) (Rabs (avqe_thresh o))) as [L|L].
  - destruct (py_last (a_energies s)) as [e|] eqn:EL; [|discriminate]. cbn [bind] in E. apply py_last_inv in EL. destruct EL as (Ne & ->).
    assert (EQ : exists b, (if is_jacobi o then Ok (true, Some (last (a_energies s) 0%R)) else if Nat.eqb (n_results s) 0 then IndexError else Ok (true, Some (last (a_energies s) 0%R))) = Ok b /\ b = (true, Some (last (a_energies s) 0%R))).
    { destruct (is_jacobi o); [eauto|]. destruct (Nat.eqb (n_results s) 0); [discriminate|eauto]. }
    destruct EQ as (b & EQ & ->). rewrite EQ in E. cbn [bind fst snd] in E. injection E as <-. cbn. tauto.
  - cbn [bind fst snd] in E.
    assert (K : exists new, a_conv s1 = false /\ a_tops s1 = (a_tops s ++ new)%list /\ a_tamps s1 = (a_tamps s ++ repeat 0%R (length new))%list /\ a_nparams s1 = (a_nparams s ++ [length (a_tops s1)])%list /\ a_energies s1 = a_energies s /\ a_norms s1 = (a_norms s ++ [norm g])%list /\ a_ncnot s1 = a_ncnot s /\ n_results s1 = n_results s /\ a_final s1 = a_final s).
    { destruct (cumulative o).
      - destruct (adapt_cumulative_spec (avqe_thresh o) g (a_tamps s)) as (_ & _ & H3). cbn [bind fst snd] in E. injection E as <-. eexists. cbn [a_conv a_tops a_tamps a_energies a_nparams a_ncnot n_results a_norms a_final fst snd]. split; [reflexivity|]. split; [reflexivity|]. split; [exact H3|]. repeat split.
      - destruct (snd (fst sc)) as [i|]; [|discriminate]. destruct (add_equiv o).
        + destruct (snd sc) as [(g2, i2)|]; [|discriminate]. destruct (Rltb _ _); cbn [bind fst snd] in E; injection E as <-; [exists [i; i2]|exists [i]]; cbn [a_conv a_tops a_tamps a_energies a_nparams a_ncnot n_results a_norms a_final fst snd length repeat]; rewrite <- ?app_assoc; cbn [app]; repeat split; reflexivity.
        + cbn [bind fst snd] in E. injection E as <-. exists [i]. cbn [a_conv a_tops a_tamps a_energies a_nparams a_ncnot n_results a_norms a_final fst snd length repeat]. repeat split; reflexivity. }
    destruct K as (new & K1 & K2 & K3 & K4 & K5 & K6 & K7 & K8 & K9). rewrite K1. split; [exact K5|]. split; [exact K6|]. split; [exact K7|]. split; [exact K8|]. split; [now apply Rnot_lt_le|]. split; [exact K9|]. exists new. split; [exact K2|]. split; [exact K3|]. split; [exact K4|]. intros HM. specialize (HX HM).
    destruct HX as (HX & HY). assert (HF : cumulative o = true \/ ~ Forall (eq 0%R) g). { destruct (cumulative o); [now left|]. right. intros HF. specialize (HY eq_refl HF). discriminate. }
    destruct (HX HF) as (s' & new' & E' & _ & HS & ET & _). injection E' as ->. rewrite K2 in ET. apply app_inv_head in ET. now subst new'.
Qed.
Lemma scipy_inv L o Nm s x0 m r : adapt_scipy L o Nm s x0 m = Ok r -> exists e0 x U, energy_of L o s x0 = Ok e0 /\
  minimize L (optimizer o) (adapt_scipy_opts o) (energy_of L o s) (if analytic o then Some (fun t => do g <- gradient_of L o s t; Ok (fst g)) else None) x0 = Ok x /\
  (exists file, reports (vqe_report o) (opt_nit x) = Ok file) /\ adapt_measures o Nm (tops s) x m = Ok (so_measures r) /\ build_Uvqc (srt L) (sort L) (with_tamps s (opt_x x)) None = Ok U /\
  so_energy r = opt_fun x /\ so_tamps r = opt_x x /\ so_cnot r = get_num_cnots U /\ so_result r = Some x.
Proof.
  unfold adapt_scipy. intros E. destruct (energy_of L o s x0) as [e0|]; [|discriminate]. cbn [bind] in E. destruct (minimize L _ _ _ _ _) as [x|] eqn:EM; [|discriminate]. cbn [bind] in E. destruct (reports _ _) as [file|] eqn:ER; [|discriminate]. cbn [bind] in E. destruct (adapt_measures _ _ _ _ _) as [m'|] eqn:EA; [|discriminate]. cbn [bind] in E. destruct (build_Uvqc _ _ _ _) as [U|] eqn:EU; [|discriminate]. cbn [bind] in E. injection E as <-.
  exists e0, x, U. cbn. repeat (split; [first [reflexivity|assumption|eauto]|]). reflexivity.
Qed.
Lemma jacobi_inv L o s x0 m r : length x0 = length (tops s) -> adapt_jacobi L o s x0 m = Ok r -> exists k U, energy_of L o s (so_tamps r) = Ok (so_energy r) /\ length (so_tamps r) = length (tops s) /\ 1 <= k <= opt_maxiter o /\
  (k < opt_maxiter o -> exists t_old g nm, length t_old = length (tops s) /\ gradient_of L o s t_old = Ok (g, nm) /\ (nm < opt_thresh o)%R) /\
  so_measures r = m + Nl o * k * (2 * length (tops s) + 1) /\ build_Uvqc (srt L) (sort L) (with_tamps s (so_tamps r)) None = Ok U /\ so_cnot r = get_num_cnots U /\ so_result r = None.
Proof.
  unfold adapt_jacobi. intros LX E. destruct (orbital_energies _ _ _) as [orb_e|]; [|discriminate]. cbn [bind] in E.
  match type of E with bind (quasi_newton L o ?d ?en ?t0) _ = _ => set (dir := d) in *; destruct (quasi_newton L o dir en t0) as [((E1, t), k)|] eqn:EQ; [|discriminate] end. cbn [bind fst snd] in E.
  destruct (build_Uvqc _ _ _ _) as [U|] eqn:EU; [|discriminate]. cbn [bind] in E. injection E as <-. cbn [so_energy so_tamps so_cnot so_measures so_result].
  destruct (quasi_newton_ok L o dir (energy_of L o s) x0 (length (tops s)) (E1, t, k)) as (G1 & G2 & G3 & G4); [|exact LX|exact EQ|].
  { intros t' u Hu. unfold dir in Hu. destruct (gradient_of _ _ _ _) as [g|]; [|discriminate]. cbn [bind] in Hu. unfold over_denominators in Hu. destruct (get_res_over_mpdenom _ _ _ _ _) as [d|] eqn:ED; [|discriminate]. cbn [bind] in Hu. injection Hu as <-. cbn [fst]. rewrite map_length. now apply mpdenom_length in ED. }
  cbn [fst snd] in *. exists k, U. split; [exact G2|]. split; [exact G1|]. split; [exact G3|]. split; [|rewrite <- G1; repeat split; assumption].
  intros Hk. destruct (G4 Hk) as (t_old & u & H1 & H2 & H3). unfold dir in H2. destruct (gradient_of L o s t_old) as [(g, nm)|] eqn:EG; [|discriminate]. cbn [bind] in H2. destruct (over_denominators _ _ _ _); [|discriminate]. cbn [bind] in H2. injection H2 as <-. cbn [snd] in H3. now exists t_old, g, nm.
Qed.

(** ---- histories ---- *)
(** one macro-iteration: the measured gradients, the operators added, the ansatz and the energy
    afterwards *)
Record macro_record := mkIt { it_grads : list R; it_new : list N; it_tops : list N; it_tamps : list R; it_energy : R }.
(** macro-iterations from an empty ansatz to [tops] and [ts] *)
Inductive AdaptHistory (o : run_options) (ao : adapt_settings) (m : minimizer) (s : ucc) (n : nat) : list macro_record -> list N -> list R -> Prop :=
| history_start : AdaptHistory o ao m s n [] [] []
| history_step hist tops ts g new ts' E : AdaptHistory o ao m s n hist tops ts ->
    (* the gradients of the pool are measured, and are not small *)
    length g = length (pool s) -> (UsableAnsatz s n tops ts -> PoolGradients s n tops ts g) -> (Rabs (avqe_threshold ao) <= norm g)%R ->
    (* operators are selected *)
    (cumulative_thresh ao = true \/ equiv_ops ao = false -> SelectOf (select_opts o ao) g new) ->
    (* the amplitudes are optimized *)
    length ts' = length (tops ++ new) -> (UsableAnsatz s n (tops ++ new) ts' -> IsAdaptEnergy s n (tops ++ new) ts' E) ->
    (NeverWorse m -> use_jacobi o = false -> UsableAnsatz s n tops ts -> UsableAnsatz s n (tops ++ new) ts' -> forall E0, IsAdaptEnergy s n tops ts E0 -> (E <= E0)%R) ->
    AdaptHistory o ao m s n (hist ++ [mkIt g new (tops ++ new) ts' E]) (tops ++ new) ts'.

(** the counts of one macro-iteration with scipy: Nl measurements for every pool operator's
    number of Pauli terms, for every energy, and for every gradient and selected operator's
    number of Pauli terms *)
Definition scipy_count (o : run_options) (Nm : list nat) (pool_size : nat) (tops : list N) (r : opt_result) : nat :=
  Nl o * list_sum (map (fun m => nth m Nm 0) (seq 0 pool_size)) + Nl o * opt_nfev r +
  (if analytic o then Nl o * match opt_njev r with Some j => j | None => 0 end * list_sum (map (fun m => nth (N.to_nat m) Nm 0) tops) else 0).

Lemma gradient_measures_ok o Nm g m : gradient_measures o Nm g = Ok m -> m = Nl o * list_sum (map (fun k => nth k Nm 0) (seq 0 (length g))).
Proof.
  unfold gradient_measures, enumerate.
  assert (G : forall l j a m, length l <= length g -> foreach (combine (map N.of_nat (seq j (length l))) l) (fun (mg : N * R) m => do nm <- py_get Nm (N.to_nat (fst mg)); Ok (m + Nl o * nm)) a = Ok m -> m = a + Nl o * list_sum (map (fun k => nth k Nm 0) (seq j (length l)))).
  { induction l as [|x l IH]; intros j a m' HL E; cbn [length seq map combine foreach fst] in E; [injection E as <-; cbn; lia|]. rewrite Nat2N.id in E. unfold py_get in E at 1. destruct (nth_error Nm j) as [nm|] eqn:EN; [|discriminate]. cbn [bind] in E. apply IH in E; [|cbn [length] in HL; lia]. rewrite E. cbn [length seq map list_sum]. apply nth_error_nth with (d := 0) in EN. rewrite EN. cbn [list_sum fold_right]. unfold list_sum. lia. }
  intros E. apply G in E; [|lia]. lia.
Qed.
Lemma adapt_measures_ok o Nm tops r m m' : adapt_measures o Nm (map N.to_nat tops) r m = Ok m' -> m' = m + Nl o * opt_nfev r +
  (if analytic o then Nl o * match opt_njev r with Some j => j | None => 0 end * list_sum (map (fun m => nth (N.to_nat m) Nm 0) tops) else 0).
Proof.
  unfold adapt_measures. destruct (analytic o); [|intros E; injection E as <-; lia]. generalize (m + Nl o * opt_nfev r). induction tops as [|t tops IH]; intros a E; cbn [map foreach] in E; [injection E as <-; cbn; lia|].
  unfold py_get in E at 1. destruct (nth_error Nm (N.to_nat t)) as [nm|] eqn:EN; [|discriminate]. cbn [bind] in E. destruct (opt_njev r) as [j|]; [|discriminate]. cbn [bind] in E. apply IH in E. rewrite E. apply nth_error_nth with (d := 0) in EN. cbn [map list_sum fold_right]. rewrite EN. unfold list_sum. lia.
Qed.
Section Runs.
Variables (L : libraries) (o : run_options) (ao : adapt_settings) (s : ucc) (n : nat) (Nm : list nat).
Hypothesis (HO : AdaptObject L s n) (HM : ReturnsAPoint (minimize L) \/ use_jacobi o = true) (HF : fast o = true).

(** the state after macro-iterations that have not converged *)
Definition tracks (st : adapt_state) (hist : list macro_record) : Prop :=
  as_pool st = pool s /\ AdaptHistory o ao (minimize L) s n hist (a_tops (as_sel st)) (a_tamps (as_sel st)) /\
  a_energies (as_sel st) = map it_energy hist /\ a_norms (as_sel st) = map (fun it => norm (it_grads it)) hist /\ a_nparams (as_sel st) = map (fun it => length (it_tops it)) hist /\
  length (a_ncnot (as_sel st)) = length hist /\ length (as_measures st) = length hist /\
  (use_jacobi o = false -> map opt_x (as_results st) = map it_tamps hist /\ map opt_fun (as_results st) = map it_energy hist /\
     as_measures st = map (fun ir => scipy_count o Nm (length (pool s)) (it_tops (fst ir)) (snd ir)) (combine hist (as_results st)) /\
     (print_summary_file o = true -> Forall (fun r => opt_nit r <= 1) (as_results st)) /\ (analytic o = true -> Forall (fun it => it_tops it <> []) hist -> Forall (fun r => opt_njev r <> None) (as_results st))) /\
  (use_jacobi o = true -> as_results st = []).

Lemma history_length hist tops ts : AdaptHistory o ao (minimize L) s n hist tops ts -> length ts = length tops.
Proof. destruct 1; [reflexivity|assumption]. Qed.
Lemma with_same p t ts : forall ts', energy_of L o (with_ansatz s p t ts) ts' = energy_of L o (with_ansatz s p t ts') ts'.
Proof. reflexivity. Qed.
(** one macro-iteration from such a state *)
Lemma iteration_tracks st hist st1 : tracks st hist -> macro_iteration L o ao Nm s st = Ok st1 ->
  exists g, length g = length (pool s) /\ (UsableAnsatz s n (a_tops (as_sel st)) (a_tamps (as_sel st)) -> PoolGradients s n (a_tops (as_sel st)) (a_tamps (as_sel st)) g) /\
  if a_conv (as_sel st1) then
    as_pool st1 = pool s /\ a_tops (as_sel st1) = a_tops (as_sel st) /\ a_tamps (as_sel st1) = a_tamps (as_sel st) /\ a_energies (as_sel st1) = a_energies (as_sel st) /\ a_nparams (as_sel st1) = a_nparams (as_sel st) /\ a_ncnot (as_sel st1) = a_ncnot (as_sel st) /\
    as_measures st1 = as_measures st /\ as_results st1 = as_results st /\ a_norms (as_sel st1) = (a_norms (as_sel st) ++ [norm g])%list /\ (norm g < Rabs (avqe_threshold ao))%R /\ a_energies (as_sel st) <> [] /\ a_final (as_sel st1) = Some (last (a_energies (as_sel st)) 0%R)
  else exists it, it_grads it = g /\ tracks st1 (hist ++ [it]).
Proof.
  intros (T1 & T2 & T3 & T4 & T5 & T6 & T7 & T8 & T9) E. unfold macro_iteration in E. rewrite T1 in E. set (sel := as_sel st) in *.
  destruct (measure_gradient3 _ _ _) as [pg|] eqn:EG; [|discriminate]. cbn [bind] in E. destruct HO as (_ & _ & _ & HX). destruct (measured_pool L s (pool s) (a_tops sel) (a_tamps sel) pg HX EG) as (EP & LG). exists (snd pg). split; [exact LG|].
  assert (PG : UsableAnsatz s n (a_tops sel) (a_tamps sel) -> PoolGradients s n (a_tops sel) (a_tamps sel) (snd pg)). { intros HU. destruct (gradients_ok L s n _ _ HO HU) as (g & EG' & HG). rewrite EG in EG'. injection EG' as ->. exact HG. }
  split; [exact PG|]. destruct (gradient_measures o Nm (snd pg)) as [m|] eqn:EM; [|discriminate]. cbn [bind] in E. apply gradient_measures_ok in EM. rewrite LG in EM.
  destruct (update_ansatz _ _ _) as [sel1|] eqn:EU; [|discriminate]. cbn [bind] in E. apply update_inv in EU. cbn [avqe_thresh select_opts cumulative add_equiv] in EU. destruct EU as (U1 & U2 & U3 & U4 & U5). destruct (a_conv sel1) eqn:EC.
  - injection E as <-. cbn [as_sel as_pool as_measures as_results]. rewrite EC. destruct U5 as (V1 & V2 & V3 & V4 & V5 & V6). rewrite EP. repeat (split; [first [reflexivity|assumption]|]). exact V6.
  - destruct U5 as (V1 & V2 & new & V3 & V4 & V5 & V6). rewrite EP in E. pose proof (history_length _ _ _ T2) as HL.
    destruct (adapt_inner L o Nm _ _ m) as [r|] eqn:ER; [|discriminate]. cbn [bind] in E. injection E as <-. unfold adapt_solve. cbn [as_sel as_pool as_measures as_results a_conv fst snd]. rewrite EC.
    assert (LX : length (a_tamps sel1) = length (a_tops sel1)) by (rewrite V3, V4, !app_length, repeat_length; lia).
    set (it := mkIt (snd pg) new (a_tops sel1) (so_tamps r) (so_energy r)). exists it. split; [reflexivity|]. unfold tracks. cbn [as_sel as_pool as_measures as_results a_tops a_tamps a_energies a_norms a_nparams a_ncnot]. unfold adapt_inner in ER.
    assert (HIST : length (so_tamps r) = length (a_tops sel1) -> energy_of L o (with_ansatz s (pool s) (a_tops sel1) (so_tamps r)) (so_tamps r) = Ok (so_energy r) ->
      (NeverWorse (minimize L) -> use_jacobi o = false -> forall e0, energy_of L o (with_ansatz s (pool s) (a_tops sel1) (a_tamps sel1)) (a_tamps sel1) = Ok e0 -> (so_energy r <= e0)%R) ->
      AdaptHistory o ao (minimize L) s n (hist ++ [it]) (a_tops sel1) (so_tamps r)).
    { intros H1 H2 H3. unfold it. rewrite V3 in *. apply history_step with (ts := a_tamps sel); try assumption.
      - intros HU. eapply energy_ok; [exact HO|exact HU|exact HF|exact H2].
      - intros N1 N2 HU HU' E0 HE0. pose proof (usable_tail _ _ _ _ _ _ HU HU') as HZ. rewrite V4 in H3. destruct (ansatz_value L o s n _ _ HO HZ) as (U & _ & _ & HS & EE). specialize (EE (a_tamps sel ++ repeat 0%R (length new)) HF).
        specialize (H3 N1 N2 _ EE). replace E0 with (energy n (op_act (ham s)) (circ_act U (reference s))); [exact H3|]. apply (energy_unique s n (a_tops sel) (a_tamps sel)); [exact HE0|]. apply (energy_zero_tail s n _ _ new); [exact HL|]. now exists (circ_act U (reference s)). }
    destruct (use_jacobi o) eqn:EJ.
    + assert (LX' : length (a_tamps sel1) = length (tops (with_ansatz s (pool s) (a_tops sel1) (a_tamps sel1)))) by (cbn [tops with_ansatz]; rewrite map_length; exact LX). destruct (jacobi_inv L o _ _ _ _ LX' ER) as (k & U & J1 & J2 & J3 & J4 & J5 & J6 & J7 & J8). cbn [tops with_ansatz] in J2. rewrite map_length in J2. rewrite J8.
      split; [reflexivity|]. split; [apply HIST; [exact J2|exact J1|intros _ Q; discriminate Q]|]. rewrite U1, U2, U3, V5, !map_app, T3, T4, T5. cbn [map it it_energy it_grads it_tops]. rewrite !app_length, T6, T7. repeat (split; [reflexivity|]). split; [discriminate|]. intros _. now apply T9.
    + destruct (scipy_inv L o Nm _ _ _ _ ER) as (e0 & x & U & S1 & S2 & (file & S3) & S4 & S5 & S6 & S7 & S8 & S9). rewrite S9. destruct HM as [HM'|HM']; [|discriminate]. destruct (HM' _ _ _ _ _ _ S2) as (R1 & R2). rewrite <- S7 in R1, R2. rewrite <- S6 in R2. rewrite LX in R1.
      split; [reflexivity|]. split; [apply HIST; [exact R1|exact R2|intros NW _ e E1; rewrite S6; exact (NW _ _ _ _ _ _ _ E1 S2)]|].
      rewrite U1, U2, U3, V5, !map_app, T3, T4, T5. cbn [map it it_energy it_grads it_tops it_tamps]. rewrite !app_length, T6, T7. repeat (split; [reflexivity|]). split; [|discriminate]. intros _. destruct (T8 eq_refl) as (P1 & P2 & P3 & P4 & P5).
      rewrite P1, P2, S6, S7. split; [reflexivity|]. split; [reflexivity|]. cbn [tops with_ansatz] in S4. pose proof (adapt_measures_ok _ _ _ _ _ _ S4) as S4'. split; [|split].
      * rewrite P3. assert (LR : length (as_results st) = length hist) by (rewrite <- (map_length opt_x), P1, map_length; reflexivity). rewrite combine_app_eq, map_app by exact LR. cbn [combine map fst snd it_tops it]. f_equal. f_equal. rewrite S4', EM. unfold scipy_count. lia.
      * intros HP. apply Forall_app. split; [now apply P4|]. constructor; [|constructor]. rewrite C87_summary_file_refuted in S3 by exact HP. destruct (opt_nit x) as [|[|?]]; [lia|lia|discriminate].
      * intros HA HT. apply Forall_app in HT. destruct HT as (HT1 & HT2). apply Forall_app. split; [now apply P5|]. constructor; [|constructor]. apply Forall_inv in HT2. cbn [it_tops it] in HT2. unfold adapt_measures in S4. rewrite HA in S4. destruct (a_tops sel1) as [|a l]; [contradiction|]. cbn [map foreach] in S4. destruct (py_get Nm (N.to_nat a)); [|discriminate]. cbn [bind] in S4. destruct (opt_njev x); [discriminate|discriminate S4].
Qed.
End Runs.
Lemma run_tracks L o ao s n Nm : AdaptObject L s n -> ReturnsAPoint (minimize L) \/ use_jacobi o = true -> fast o = true ->
  forall fuel k st hist r, tracks L o ao s n Nm st hist -> length hist = k -> (k < last_iteration (max_macro ao)) -> macro_loop L o ao Nm s fuel k st = Ok r ->
  exists st0 hist', tracks L o ao s n Nm st0 hist' /\
    if snd r then fst r = st0 /\ length hist' = last_iteration (max_macro ao) /\ a_conv (as_sel st0) = false
    else length hist' < last_iteration (max_macro ao) /\ macro_iteration L o ao Nm s st0 = Ok (fst r) /\ a_conv (as_sel (fst r)) = true.
Proof.
  intros HO HM HF. induction fuel as [|fuel IH]; intros k st hist r HT HK Hk E; [discriminate|]. cbn [macro_loop] in E. destruct (macro_iteration L o ao Nm s st) as [st1|] eqn:EI; [|discriminate]. cbn [bind] in E.
  destruct (iteration_tracks L o ao s n Nm HO HM HF st hist st1 HT EI) as (g & LG & PG & HR). destruct (a_conv (as_sel st1)) eqn:EC.
  - injection E as <-. cbn [fst snd]. exists st, hist. split; [exact HT|]. rewrite HK. split; [exact Hk|]. split; [exact EI|exact EC].
  - destruct HR as (it & _ & HT1). assert (LH : length (hist ++ [it]) = S k) by (rewrite app_length, HK; cbn; lia). unfold last_iteration in *. destruct (Z.ltb_spec (max_macro ao - 1) (Z.of_nat (S k))) as [LZ|LZ].
    + injection E as <-. cbn [fst snd]. exists st1, (hist ++ [it])%list. split; [exact HT1|]. split; [reflexivity|]. split; [lia|exact EC].
    + apply (IH (S k) st1 (hist ++ [it])%list r HT1 LH); [lia|exact E].
Qed.
Lemma pool_lengths_settled sr p r : Settled sr p -> pool_lengths sr p = Ok r -> fst r = p /\ length (snd r) = length p.
Proof.
  unfold pool_lengths. intros HS. assert (G : forall st r, foreach p (fun (e : C * list fterm) (st : sqpool * list nat) => do r <- jw_transform sr false (snd e); Ok ((fst st ++ [(fst e, fst r)])%list, (snd st ++ [length (snd r)])%list)) st = Ok r -> fst r = (fst st ++ p)%list /\ length (snd r) = length (snd st) + length p).
  { induction HS as [|e p He _ IH]; intros st r' E; cbn [foreach] in E; [injection E as <-; rewrite app_nil_r; split; [reflexivity|cbn; lia]|]. destruct (He false) as (K & EK). rewrite EK in E. cbn [bind fst snd] in E. apply IH in E. cbn [fst snd] in E. destruct E as (-> & ->). rewrite <- app_assoc, app_length. cbn [app length]. split; [now destruct e|lia]. }
  intros E. apply G in E. exact E.
Qed.
Lemma fast_needed L o ao s r : adapt_vqe_run L o ao s = Ok r -> fast o = true.
Proof. unfold adapt_vqe_run, energy_of. intros E. destruct (fast o); [reflexivity|]. destruct (build_Uvqc _ _ _ _); discriminate. Qed.

(** what a finished run reports, in terms of its macro-iterations *)
Definition ReportedBy (o : run_options) (ao : adapt_settings) (s : ucc) (n : nat) (r : adapt_result) (hist : list macro_record) : Prop :=
  ar_energies r = map it_energy hist /\ ar_params_lst r = map (fun it => length (it_tops it)) hist /\ length (ar_cnot_lst r) = length hist /\ length (ar_measures_lst r) = length hist /\
  (use_jacobi o = false -> map opt_x (ar_results r) = map it_tamps hist /\ map opt_fun (ar_results r) = map it_energy hist) /\
  ar_Egs r = last (ar_energies r) 0%R /\ ar_params r = length (ar_tamps r) /\ ar_cnot r = last (ar_cnot_lst r) 0 /\ ar_measures r = list_sum (ar_measures_lst r) /\ ar_pool r = pool s.
Lemma run_history L o ao s n r : AdaptObject L s n -> ReturnsAPoint (minimize L) \/ use_jacobi o = true -> adapt_vqe_run L o ao s = Ok r ->
  exists hist Nm, pool_lengths (srt L) (pool s) = Ok (pool s, Nm) /\ AdaptHistory o ao (minimize L) s n hist (ar_tops r) (ar_tamps r) /\ ReportedBy o ao s n r hist /\ 1 <= length hist <= last_iteration (max_macro ao) /\
  (if ar_converged r then exists g, (UsableAnsatz s n (ar_tops r) (ar_tamps r) -> PoolGradients s n (ar_tops r) (ar_tamps r) g) /\ length g = length (pool s) /\ (norm g < Rabs (avqe_threshold ao))%R /\ ar_norms r = (map (fun it => norm (it_grads it)) hist ++ [norm g])%list
   else length hist = last_iteration (max_macro ao) /\ ar_norms r = map (fun it => norm (it_grads it)) hist) /\
  (use_jacobi o = false -> ar_measures_lst r = map (fun ir => scipy_count o Nm (length (pool s)) (it_tops (fst ir)) (snd ir)) (combine hist (ar_results r)) /\ (print_summary_file o = true -> Forall (fun r => opt_nit r <= 1) (ar_results r)) /\ (analytic o = true -> Forall (fun it => it_tops it <> []) hist -> Forall (fun r => opt_njev r <> None) (ar_results r))) /\
  (use_jacobi o = true -> ar_results r = []).
Proof.
  intros HO HM E. pose proof (fast_needed _ _ _ _ _ E) as HF. unfold adapt_vqe_run in E. destruct (energy_of _ _ _ _) as [e0|]; [|discriminate]. cbn [bind] in E.
  destruct (pool_lengths (srt L) (pool s)) as [(p, Nm)|] eqn:EP; [|discriminate]. destruct (pool_lengths_settled (srt L) (pool s) (p, Nm)) as (X1 & X2); [apply HO|exact EP|]. cbn [fst snd] in X1, X2. subst p. cbn [bind fst snd] in E.
  destruct (macro_loop _ _ _ _ _ _ _ _) as [(st, hit)|] eqn:EL; [|discriminate]. cbn [bind fst snd] in E.
  assert (T0 : tracks L o ao s n Nm (mkAS (pool s) adapt_init [] []) []) by (unfold tracks; cbn; repeat split; try constructor; auto). assert (K0 : 0 < last_iteration (max_macro ao)) by (unfold last_iteration; lia).
  destruct (run_tracks L o ao s n Nm HO HM HF _ 0 _ [] _ T0 eq_refl K0 EL) as (st0 & hist & HT & HR). cbn [fst snd] in HR.
  match type of E with bind ?x _ = _ => destruct x as [fin|] eqn:EFin'; [|discriminate] end. cbn [bind] in E. destruct fin as [e|]; [|discriminate]. destruct (py_last (a_ncnot (as_sel st))) as [c|] eqn:ECn; [|discriminate]. cbn [bind] in E. injection E as <-.
  cbn [ar_tops ar_tamps ar_energies ar_norms ar_params_lst ar_cnot_lst ar_measures_lst ar_results ar_Egs ar_params ar_cnot ar_measures ar_converged ar_pool]. unfold ReportedBy. cbn [ar_tops ar_tamps ar_energies ar_norms ar_params_lst ar_cnot_lst ar_measures_lst ar_results ar_Egs ar_params ar_cnot ar_measures ar_converged ar_pool].
  assert (EC : c = last (a_ncnot (as_sel st)) 0). { destruct (a_ncnot (as_sel st)) as [|x l] eqn:EN; [discriminate|]. rewrite (py_last_ok _ 0) in ECn by discriminate. now injection ECn. }
  pose proof HT as (T1 & T2 & T3 & T4 & T5 & T6 & T7 & T8 & T9). exists hist, Nm. split; [reflexivity|]. destruct hit.
  - destruct HR as (-> & LH & EC0). destruct (py_last (a_energies (as_sel st0))) as [e'|] eqn:EE; [|discriminate]. cbn [bind] in EFin'. assert (e' = e) by (destruct (_ && _); [discriminate|now injection EFin']). subst e'. apply py_last_inv in EE. destruct EE as (NE & ->).
    split; [exact T2|]. split.
    { split; [exact T3|]. split; [exact T5|]. split; [exact T6|]. split; [exact T7|]. split; [intros HJ; destruct (T8 HJ) as (A1 & A2 & _); now split|]. repeat (split; [first [reflexivity|exact EC]|]). exact T1. }
    split; [unfold last_iteration in *; lia|]. rewrite EC0. split; [split; [exact LH|exact T4]|]. split; [|exact T9]. intros HJ. destruct (T8 HJ) as (_ & _ & A3 & A4 & A5). now repeat split.
  - destruct HR as (LH & EI & EC1). destruct (iteration_tracks L o ao s n Nm HO HM HF st0 hist st HT EI) as (g & LG & PG & HQ). rewrite EC1 in HQ |- *. destruct HQ as (Q1 & Q2 & Q3 & Q4 & Q5 & Q6 & Q7 & Q8 & Q9 & Q10 & Q11 & Q12).
    rewrite Q12 in EFin'. injection EFin' as <-. rewrite Q2, Q3, Q4, Q5, Q6, Q7, Q8, Q9, Q1. rewrite Q6 in EC. split; [exact T2|]. split.
    { split; [exact T3|]. split; [exact T5|]. split; [exact T6|]. split; [exact T7|]. split; [intros HJ; destruct (T8 HJ) as (A1 & A2 & _); now split|]. repeat (split; [first [reflexivity|exact EC]|]). reflexivity. }
    split. { split; [|unfold last_iteration in *; lia]. destruct hist; [|cbn [length]; lia]. rewrite T3 in Q11. now elim Q11. }
    split. { exists g. split; [exact PG|]. split; [exact LG|]. split; [exact Q10|]. now rewrite T4. }
    split; [|exact T9]. intros HJ. destruct (T8 HJ) as (_ & _ & A3 & A4 & A5). now repeat split.
Qed.

(** ---- C90 ---- *)
(** A run that returns has this history: macro-iterations that each measure the gradients of the
    pool, are not converged, select operators, append them with amplitude zero and replace the
    amplitudes by the optimizer's; the recorded lists have one entry per macro-iteration, the
    energies are those of the optimizer's results, the sums are sums over the recorded lists *)
Theorem C90_history_partial : forall L o ao s n r, AdaptObject L s n -> ReturnsAPoint (minimize L) \/ use_jacobi o = true -> adapt_vqe_run L o ao s = Ok r ->
  exists hist, AdaptHistory o ao (minimize L) s n hist (ar_tops r) (ar_tamps r) /\ ReportedBy o ao s n r hist /\ 1 <= length hist <= last_iteration (max_macro ao) /\
  (if ar_converged r then exists g, (UsableAnsatz s n (ar_tops r) (ar_tamps r) -> PoolGradients s n (ar_tops r) (ar_tamps r) g) /\ length g = length (pool s) /\ (norm g < Rabs (avqe_threshold ao))%R /\ ar_norms r = (map (fun it => norm (it_grads it)) hist ++ [norm g])%list
   else length hist = last_iteration (max_macro ao) /\ ar_norms r = map (fun it => norm (it_grads it)) hist).
Proof. intros L o ao s n r HO HM E. destruct (run_history L o ao s n r HO HM E) as (hist & Nm & _ & H1 & H2 & H3 & H4 & _). exists hist. now repeat (split; [assumption|]). Qed.
Print Assumptions C90_history_partial.

Lemma history_shape o ao m s n hist tops ts : AdaptHistory o ao m s n hist tops ts -> Forall (fun it => it_tops it = firstn (length (it_tops it)) tops /\ length (it_tamps it) = length (it_tops it) /\ (UsableAnsatz s n (it_tops it) (it_tamps it) -> IsAdaptEnergy s n (it_tops it) (it_tamps it) (it_energy it))) hist /\
  (hist <> [] -> exists it h, hist = (h ++ [it])%list /\ it_tops it = tops /\ it_tamps it = ts).
Proof.
  induction 1 as [|hist tops ts g new ts' E HH (IH & IH2) _ _ _ _ LT HE _]; [split; [constructor|intros Q; now elim Q]|]. split.
  - apply Forall_app. split.
    + eapply Forall_impl; [|exact IH]. intros it (A & B & D). split; [|now split]. rewrite A at 1. rewrite firstn_app. replace (length (it_tops it) - length tops) with 0; [cbn [firstn]; now rewrite app_nil_r|]. rewrite A, firstn_length. lia.
    + constructor; [|constructor]. cbn [it_tops it_tamps it_energy]. split; [now rewrite firstn_all|]. now split.
  - intros _. exists (mkIt g new (tops ++ new) ts' E), hist. cbn. now split.
Qed.
(** the result is the energy of the returned amplitudes, and variational *)
Theorem C90_energy_partial : forall L o ao s n r, AdaptObject L s n -> ReturnsAPoint (minimize L) \/ use_jacobi o = true -> adapt_vqe_run L o ao s = Ok r -> UsableAnsatz s n (ar_tops r) (ar_tamps r) ->
  IsAdaptEnergy s n (ar_tops r) (ar_tamps r) (ar_Egs r) /\ forall e, EnergyBound n (ham s) e -> (e <= ar_Egs r)%R.
Proof.
  intros L o ao s n r HO HM E HU. destruct (run_history L o ao s n r HO HM E) as (hist & Nm & _ & HH & (R1 & _ & _ & _ & _ & R6 & _) & HL & _). destruct (history_shape _ _ _ _ _ _ _ _ HH) as (F & HX). destruct HX as (it & h & -> & T1 & T2); [intros ->; cbn in HL; lia|].
  assert (HE : IsAdaptEnergy s n (ar_tops r) (ar_tamps r) (ar_Egs r)). { rewrite R6, R1, map_app. cbn [map]. rewrite last_last. apply Forall_app in F. destruct F as (_ & F). apply Forall_inv in F. destruct F as (_ & _ & F). rewrite T1, T2 in F. now apply F. }
  split; [exact HE|]. intros e He. destruct HE as (phi & (_ & N) & ->). now apply He.
Qed.
Print Assumptions C90_energy_partial.
(** a run that reports convergence: the gradients of the whole pool, at the returned state, are
    below the threshold; otherwise it used all its macro-iterations *)
Lemma total_term (w : R -> R) l x : (forall y, (0 <= w y)%R) -> In x l -> (w x <= total w l)%R.
Proof.
  intros Hw. assert (P : forall l, (0 <= total w l)%R) by (intros l0; induction l0 as [|a l0 IH]; cbn [total fold_right]; [lra|fold (total w l0); specialize (Hw a); lra]).
  induction l as [|a l IH]; [intros []|]. cbn [total fold_right]. fold (total w l). intros [<-|Hi]; [specialize (P l); lra|specialize (IH Hi); specialize (Hw a); lra].
Qed.
Lemma entry_norm g k : k < length g -> (Rabs (nth k g 0%R) <= norm g)%R.
Proof.
  intros Hk. unfold norm. rewrite <- (sqrt_Rsqr (Rabs (nth k g 0%R))) by apply Rabs_pos. apply sqrt_le_1_alt. rewrite <- Rsqr_abs. apply (total_term (fun x => (x * x)%R)); [intros y; nra|now apply nth_In].
Qed.
Theorem C90_converged_partial : forall L o ao s n r, AdaptObject L s n -> ReturnsAPoint (minimize L) \/ use_jacobi o = true -> adapt_vqe_run L o ao s = Ok r -> UsableAnsatz s n (ar_tops r) (ar_tamps r) ->
  if ar_converged r then exists g, PoolGradients s n (ar_tops r) (ar_tamps r) g /\ last (ar_norms r) 0%R = norm g /\ (norm g < Rabs (avqe_threshold ao))%R /\ forall mu, mu < length (pool s) -> (Rabs (nth mu g 0) < Rabs (avqe_threshold ao))%R
  else length (ar_energies r) = last_iteration (max_macro ao).
Proof.
  intros L o ao s n r HO HM E HU. destruct (run_history L o ao s n r HO HM E) as (hist & Nm & _ & HH & (R1 & _) & HL & HC & _). destruct (ar_converged r).
  - destruct HC as (g & PG & LG & NG & EN). exists g. split; [now apply PG|]. split; [rewrite EN; apply last_last|]. split; [exact NG|]. intros mu Hmu. eapply Rle_lt_trans; [apply entry_norm; lia|exact NG].
  - rewrite R1, map_length. apply HC.
Qed.
Print Assumptions C90_converged_partial.

(** with an optimizer that is never worse than its start, the energies decrease, from that of the
    reference.  Required of every macro-iteration: amplitudes with which the circuit is exact *)
Definition UsableRun (s : ucc) (n : nat) (r : adapt_result) : Prop := Forall2 (fun k x => UsableAnsatz s n (firstn k (ar_tops r)) (opt_x x)) (ar_params_lst r) (ar_results r).
Lemma reference_energy s n : inner n (reference s) (reference s) = C1 -> IsAdaptEnergy s n [] [] (energy n (op_act (ham s)) (reference s)).
Proof.
  intros HN. exists (reference s). split; [|reflexivity]. split; [|exact HN]. unfold adapt_factors, factors. cbn [map combine].
  assert (G : forall m, trotter_steps m [] = []) by (intros m; unfold trotter_steps; cbn [map]; generalize m as j; induction j as [|j IH]; cbn [repeat concat app]; [reflexivity|exact IH]). cbv zeta. rewrite G. destruct (compact s); intros I; reflexivity.
Qed.
Lemma sorted_snoc (l : list R) : forall a b, Sorted (fun x y => y <= x)%R (a :: l) -> (b <= last (a :: l) 0)%R -> Sorted (fun x y => y <= x)%R ((a :: l) ++ [b]).
Proof.
  induction l as [|c l IH]; intros a b HS HB; [cbn in HB |- *; apply Sorted_cons; [repeat constructor|constructor; exact HB]|]. apply Sorted_inv in HS. destruct HS as (HS & HR). cbn [app]. constructor; [apply (IH c b HS); exact HB|]. inversion HR; subst. now constructor.
Qed.
Theorem C90_never_worse_partial : forall L o ao s n r, AdaptObject L s n -> use_jacobi o = false -> ReturnsAPoint (minimize L) -> NeverWorse (minimize L) -> adapt_vqe_run L o ao s = Ok r -> UsableRun s n r ->
  Sorted (fun a b => b <= a)%R (energy n (op_act (ham s)) (reference s) :: ar_energies r) /\ (ar_Egs r <= energy n (op_act (ham s)) (reference s))%R.
Proof.
  intros L o ao s n r HO HJ HM HW E HU. destruct (run_history L o ao s n r HO (or_introl HM) E) as (hist & Nm & _ & HH & (R1 & R2 & _ & _ & R5 & R6 & _) & HL & _ & _). destruct (R5 HJ) as (P1 & P2). unfold UsableRun in HU. rewrite R2 in HU.
  assert (FU : Forall (fun it => UsableAnsatz s n (it_tops it) (it_tamps it)) hist).
  { destruct (history_shape _ _ _ _ _ _ _ _ HH) as (F & _). clear - HU P1 F. revert HU P1 F. generalize (ar_results r) as xs. induction hist as [|it hist IH]; intros [|x xs] HU P1 F; try discriminate; [constructor|]. cbn [map] in *. injection P1 as P1 P1'. inversion HU; subst. inversion F as [|? ? (F1 & _) F']; subst. constructor; [now rewrite F1, <- P1|now apply (IH xs)]. }
  set (E0 := energy n (op_act (ham s)) (reference s)). assert (HE0 : IsAdaptEnergy s n [] [] E0) by (apply reference_energy; apply HO).
  assert (G : forall hist tops ts, AdaptHistory o ao (minimize L) s n hist tops ts -> Forall (fun it => UsableAnsatz s n (it_tops it) (it_tamps it)) hist ->
    Sorted (fun a b => b <= a)%R (E0 :: map it_energy hist) /\ UsableAnsatz s n tops ts /\ IsAdaptEnergy s n tops ts (last (E0 :: map it_energy hist) 0%R)).
  { clear - HW HJ HE0. induction 1 as [|hist tops ts g new ts' Ek HH IH LG PG NG HS LT HE HN]; intros FU; [split; [repeat constructor|split; [split; [reflexivity|constructor]|exact HE0]]|].
    apply Forall_app in FU. destruct FU as (FU & FN). destruct (IH FU) as (I1 & I2 & I3). apply Forall_inv in FN. cbn [it_tops it_tamps] in FN. rewrite map_app. cbn [map it_energy]. split; [|split; [exact FN|]].
    - apply sorted_snoc; [exact I1|]. exact (HN HW HJ I2 FN _ I3).
    - rewrite app_comm_cons, last_last. now apply HE. }
  destruct (G hist _ _ HH FU) as (G1 & _). rewrite R1. split; [exact G1|]. rewrite R6, R1. apply Sorted_StronglySorted in G1; [|intros x y z Hxy Hyz; lra]. apply StronglySorted_inv in G1. destruct G1 as (_ & G1). rewrite Forall_forall in G1. apply G1. destruct hist as [|it hist]; [cbn in HL; lia|]. cbn [map]. rewrite (app_removelast_last 0%R (l := it_energy it :: map it_energy hist)) at 2 by discriminate. apply in_or_app. right. now left.
Qed.
Print Assumptions C90_never_worse_partial.

(** ---- resource counts ---- *)
(** numbers of Pauli terms of the pool operators *)
Definition PoolTerms (srt : sorter) (p : sqpool) (Nm : list nat) : Prop := Forall2 (fun e m => exists K, jw_transform srt false (snd e) = Ok (snd e, K) /\ m = length K) p Nm.
Lemma pool_lengths_terms sr p r : Settled sr p -> pool_lengths sr p = Ok r -> PoolTerms sr p (snd r).
Proof.
  unfold pool_lengths, PoolTerms. intros HS. assert (G : forall st r, foreach p (fun (e : C * list fterm) (st : sqpool * list nat) => do r <- jw_transform sr false (snd e); Ok ((fst st ++ [(fst e, fst r)])%list, (snd st ++ [length (snd r)])%list)) st = Ok r -> exists l, snd r = (snd st ++ l)%list /\ Forall2 (fun e m => exists K, jw_transform sr false (snd e) = Ok (snd e, K) /\ m = length K) p l).
  { induction HS as [|e p He _ IH]; intros st r' E; cbn [foreach] in E; [injection E as <-; exists []; rewrite app_nil_r; split; [reflexivity|constructor]|]. destruct (He false) as (K & EK). rewrite EK in E. cbn [bind fst snd] in E. apply IH in E. cbn [fst snd] in E. destruct E as (l & E1 & F). exists (length K :: l). rewrite E1, <- app_assoc. split; [reflexivity|]. constructor; [now exists K|exact F]. }
  intros E. apply G in E. destruct E as (l & -> & F). exact F.
Qed.
(** with scipy the reported number of measurements is the sum of the counts of the
    macro-iterations: for every Hamiltonian term, those of the pool gradients, of the energies
    and of the gradients of the selected operators.  The measurements for the last test, which
    finds convergence, are not counted. *)
Theorem C90_counts : forall L o ao s n r, AdaptObject L s n -> use_jacobi o = false -> ReturnsAPoint (minimize L) -> adapt_vqe_run L o ao s = Ok r ->
  exists Nm, PoolTerms (srt L) (pool s) Nm /\ ar_measures_lst r = map (fun kr => scipy_count o Nm (length (pool s)) (firstn (fst kr) (ar_tops r)) (snd kr)) (combine (ar_params_lst r) (ar_results r)) /\
  ar_measures r = list_sum (ar_measures_lst r) /\ ar_params r = length (ar_tops r) /\ ar_params_lst r <> [] /\ ar_cnot r = last (ar_cnot_lst r) 0 /\
  length (ar_norms r) = length (ar_measures_lst r) + (if ar_converged r then 1 else 0).
Proof.
  intros L o ao s n r HO HJ HM E. destruct (run_history L o ao s n r HO (or_introl HM) E) as (hist & Nm & EP & HH & (R1 & R2 & R3 & R4 & R5 & R6 & R7 & R8 & R9 & _) & HL & HC & HX & _). destruct (HX HJ) as (X1 & _). destruct (history_shape _ _ _ _ _ _ _ _ HH) as (F & _). exists Nm.
  split; [exact (pool_lengths_terms (srt L) (pool s) (pool s, Nm) (proj2 (proj2 (proj2 HO))) EP)|]. split; [|split; [exact R9|split; [rewrite R7; exact (history_length _ _ _ _ _ _ _ _ HH)|split; [|split; [exact R8|]]]]].
  - rewrite X1, R2. clear - F. revert F. generalize (ar_results r) as xs. induction hist as [|it hist IH]; intros xs F; cbn [map combine]; [reflexivity|]. destruct xs as [|x xs]; [reflexivity|]. inversion F as [|? ? (F1 & _) F']; subst. cbn [map fst snd]. rewrite <- F1. f_equal. now apply IH.
  - rewrite R2. destruct hist; [cbn in HL; lia|discriminate].
  - rewrite R4. destruct (ar_converged r); [destruct HC as (g & _ & _ & _ & ->)|destruct HC as (_ & ->)]; rewrite ?app_length, map_length; cbn [length]; lia.
Qed.
Print Assumptions C90_counts.

(** the evaluations of the Hamiltonian: the sum over the optimizer's results; asked again, the
    method returns twice the number *)
Theorem C90_ham_count : forall L o ao s n r, AdaptObject L s n -> adapt_vqe_run L o ao s = Ok r ->
  get_num_ham_measurements r 0 = list_sum (map opt_nfev (ar_results r)) /\ get_num_ham_measurements r (get_num_ham_measurements r 0) = 2 * list_sum (map opt_nfev (ar_results r)).
Proof.
  intros L o ao s n r _ _. unfold get_num_ham_measurements. assert (G : forall l a, fold_left (fun a x => a + opt_nfev x) l a = a + list_sum (map opt_nfev l)). { induction l as [|x l IH]; intros a; cbn [fold_left map list_sum fold_right]; [lia|]. rewrite IH. unfold list_sum. lia. }
  rewrite !G. lia.
Qed.
Print Assumptions C90_ham_count.
(** refuted for the quasi-Newton optimizer: no energy evaluation is reported *)
Theorem C90_jacobi_ham_count_refuted : forall L o ao s n r, AdaptObject L s n -> use_jacobi o = true -> adapt_vqe_run L o ao s = Ok r -> get_num_ham_measurements r 0 = 0 /\ get_num_commut_measurements o r 0 = Ok (length (ar_tops r) * length (pool s)).
Proof.
  intros L o ao s n r HO HJ E. destruct (run_history L o ao s n r HO (or_intror HJ) E) as (hist & Nm & _ & HH & (_ & _ & _ & _ & _ & _ & _ & _ & _ & R10) & _ & _ & _ & HX). unfold get_num_ham_measurements, get_num_commut_measurements. rewrite (HX HJ), R10, (history_length _ _ _ _ _ _ _ _ HH). cbn. destruct (analytic o); split; reflexivity.
Qed.
Print Assumptions C90_jacobi_ham_count_refuted.
(** default selection: one operator for every macro-iteration.  The number of commutators is the
    size of the pool for every selected operator, plus k for every gradient with k operators; the
    pool gradients with which convergence was found are left out. *)
Lemma default_lengths o ao m s n hist tops ts : cumulative_thresh ao = false -> equiv_ops ao = false -> AdaptHistory o ao m s n hist tops ts -> length tops = length hist /\ Forall (fun it => it_tops it <> []) hist.
Proof.
  intros HC HE. induction 1 as [|hist tops ts g new ts' E HH (IH & IH') _ _ _ HS _ _ _]; [split; [reflexivity|constructor]|]. specialize (HS (or_intror HE)). unfold SelectOf in HS. cbn [cumulative select_opts] in HS. rewrite HC in HS. destruct HS as (k & -> & _). rewrite !app_length, IH. cbn [length]. split; [lia|]. apply Forall_app. split; [exact IH'|]. constructor; [|constructor]. cbn [it_tops]. now destruct tops.
Qed.
Theorem C90_commutator_count : forall L o ao s n r, AdaptObject L s n -> ReturnsAPoint (minimize L) -> use_jacobi o = false -> cumulative_thresh ao = false -> equiv_ops ao = false -> adapt_vqe_run L o ao s = Ok r ->
  get_num_commut_measurements o r 0 = Ok (length (ar_tops r) * length (pool s) +
    (if analytic o then list_sum (map (fun kx => (fst kx + 1) * match opt_njev (snd kx) with Some j => j | None => 0 end) (combine (seq 0 (length (ar_results r))) (ar_results r))) else 0)) /\
  length (ar_norms r) = length (ar_tops r) + (if ar_converged r then 1 else 0).
Proof.
  intros L o ao s n r HO HM HJ H1 H2 E. destruct (run_history L o ao s n r HO (or_introl HM) E) as (hist & Nm & _ & HH & (_ & _ & _ & _ & _ & _ & _ & _ & _ & R10) & _ & HC & HX & _). destruct (HX HJ) as (_ & _ & HN). destruct (default_lengths _ _ _ _ _ _ _ _ H1 H2 HH) as (HL & HT). split.
  - unfold get_num_commut_measurements. cbn [Nat.add]. rewrite R10, (history_length _ _ _ _ _ _ _ _ HH). destruct (analytic o) eqn:EA; [|do 1 f_equal; lia]. specialize (HN eq_refl HT). 
    assert (G : forall l i a, Forall (fun r => opt_njev r <> None) l -> foreach (combine (seq i (length l)) l) (fun (mx : nat * opt_result) a => match opt_njev (snd mx) with Some j => Ok (a + j * (fst mx + 1)) | None => Throw (PyError "AttributeError") end) a =
      Ok (a + list_sum (map (fun kx : nat * opt_result => (fst kx + 1) * match opt_njev (snd kx) with Some j => j | None => 0 end) (combine (seq i (length l)) l)))).
    { clear. induction l as [|x l IH]; intros i a HN; cbn [length seq combine foreach map list_sum fold_right]; [f_equal; lia|]. cbn [fst snd]. destruct (opt_njev x) as [j|] eqn:EJ; [|now elim (Forall_inv HN)]. cbn [bind]. rewrite (IH _ _ (Forall_inv_tail HN)). f_equal. unfold list_sum. lia. }
    now apply G.
  - rewrite HL. destruct (ar_converged r); [destruct HC as (g & _ & _ & _ & ->)|destruct HC as (_ & ->)]; rewrite ?app_length, map_length; cbn [length]; lia.
Qed.
Print Assumptions C90_commutator_count.

(** ---- what fails ---- *)
(** slow mode: the first energy is never returned *)
Theorem C90_slow_mode_refuted : forall L o ao s, fast o = false -> exists e, adapt_vqe_run L o ao s = Throw e.
Proof. intros L o ao s HF. destruct (adapt_vqe_run L o ao s) as [r|e] eqn:E; [|now exists e]. apply fast_needed in E. congruence. Qed.
Print Assumptions C90_slow_mode_refuted.
(** with a summary file and scipy, no run succeeds in which the optimizer iterates twice *)
Theorem C90_summary_file_refuted : forall L o ao s n r, AdaptObject L s n -> use_jacobi o = false -> ReturnsAPoint (minimize L) -> print_summary_file o = true -> adapt_vqe_run L o ao s = Ok r -> Forall (fun x => opt_nit x <= 1) (ar_results r).
Proof. intros L o ao s n r HO HJ HM HP E. destruct (run_history L o ao s n r HO (or_introl HM) E) as (hist & Nm & _ & _ & _ & _ & _ & HX & _). now apply (HX HJ). Qed.
Print Assumptions C90_summary_file_refuted.
(** a reference at which the gradients are small already: IndexError *)
Lemma slope_unique n H l psi x0 d d' : slope n H l psi x0 d -> slope n H l psi x0 d' -> d' = d.
Proof. intros ((E & HE) & H1) (_ & H2). exact (uniqueness_limite E x0 d' d (H2 E HE) (H1 E HE)). Qed.
Lemma gradients_unique s n tops ts g g' : PoolGradients s n tops ts g -> PoolGradients s n tops ts g' -> g' = g.
Proof.
  intros (L1 & phi & A1 & S1) (L2 & phi' & A2 & S2). rewrite (state_unique s n tops ts phi phi' A1 A2) in S2. apply (nth_ext _ _ 0%R 0%R); [congruence|]. intros mu Hmu. rewrite L2 in Hmu. exact (slope_unique _ _ _ _ _ _ _ (S1 mu Hmu) (S2 mu Hmu)).
Qed.
Lemma pool_lengths_ok sr p : Settled sr p -> exists Nm, pool_lengths sr p = Ok (p, Nm) /\ length Nm = length p.
Proof.
  intros HS. assert (G : exists r, pool_lengths sr p = Ok r).
  { unfold pool_lengths. generalize (([], []) : sqpool * list nat) as st. induction HS as [|e p He _ IH]; intros st; cbn [foreach]; [now exists st|]. destruct (He false) as (K & EK). rewrite EK. cbn [bind fst snd]. apply IH. }
  destruct G as ((p', Nm) & E). destruct (pool_lengths_settled sr p _ HS E) as (A & B). cbn [fst snd] in *. subst p'. now exists Nm.
Qed.
Lemma gradient_measures_total o Nm g : length g = length Nm -> exists m, gradient_measures o Nm g = Ok m.
Proof.
  intros HL. unfold gradient_measures, enumerate. assert (G : forall l j a, j + length l <= length Nm -> exists m, foreach (combine (map N.of_nat (seq j (length l))) l) (fun (mg : N * R) m => do nm <- py_get Nm (N.to_nat (fst mg)); Ok (m + Nl o * nm)) a = Ok m).
  { induction l as [|x l IH]; intros j a Hj; cbn [length seq map combine foreach fst]; [now exists a|]. cbn [length] in Hj. rewrite Nat2N.id. unfold py_get at 1. rewrite (nth_error_nth' Nm 0) by lia. cbn [bind]. apply IH. lia. }
  apply G. lia.
Qed.
Lemma usable_empty s n : UsableAnsatz s n [] [].
Proof. split; [reflexivity|constructor]. Qed.
Theorem C90_converged_reference_refuted : forall L o ao s n g, AdaptObject L s n -> fast o = true -> cumulative_thresh ao = true \/ equiv_ops ao = false -> PoolGradients s n [] [] g -> (norm g < Rabs (avqe_threshold ao))%R ->
  adapt_vqe_run L o ao s = IndexError.
Proof.
  intros L o ao s n g HO HF HM PG NG. unfold adapt_vqe_run. destruct (ansatz_value L o s n [] [] HO (usable_empty s n)) as (U & _ & _ & _ & EE). rewrite EE by exact HF. cbn [bind]. destruct (pool_lengths_ok (srt L) (pool s)) as (Nm & EP & LN); [apply HO|]. rewrite EP. cbn [bind fst snd macro_loop]. unfold macro_iteration. cbn [as_sel as_pool adapt_init a_tops a_tamps].
  destruct (gradients_ok L s n [] [] HO (usable_empty s n)) as (g' & EG & PG'). rewrite (gradients_unique s n [] [] g g' PG PG') in EG. change (mkA [] [] [] [] [] [] 0 None false) with adapt_init. rewrite EG. cbn [bind fst snd]. destruct (gradient_measures_total o Nm g) as (m & EM); [rewrite LN; apply PG|]. rewrite EM. cbn [bind].
  pose proof (update_ok (select_opts o ao) g adapt_init HM) as HX. destruct (Rltb_spec (norm g) (Rabs (avqe_thresh (select_opts o ao)))) as [HL|HL]; [|elim HL; exact NG]. destruct HX as (_ & HX). rewrite (HX eq_refl). reflexivity.
Qed.
Print Assumptions C90_converged_reference_refuted.

(** ---- runs that succeed ---- *)
(** the optimizer succeeds on every ansatz of pool operators, with usable amplitudes *)
Definition Succeeds (L : libraries) (o : run_options) (s : ucc) (n : nat) : Prop := forall tops ts, Forall (fun m => N.to_nat m < length (pool s)) tops -> UsableAnsatz s n tops ts ->
  let s' := with_ansatz s (pool s) tops ts in
  exists r, minimize L (optimizer o) (adapt_scipy_opts o) (energy_of L o s') (if analytic o then Some (fun t => do g <- gradient_of L o s' t; Ok (fst g)) else None) ts = Ok r /\ UsableAnsatz s n tops (opt_x r) /\ (analytic o = true -> opt_njev r <> None).
Lemma select_range o g new : SelectOf o g new -> Forall (fun m => N.to_nat m < length g) new.
Proof.
  unfold SelectOf. destruct (cumulative o).
  - intros ((rest & HP & _) & _). apply Forall_forall. intros m Hm. assert (I : In m (map N.of_nat (seq 0 (length g)))) by (eapply Permutation.Permutation_in; [exact HP|]; apply in_or_app; now right). apply in_map_iff in I. destruct I as (k & <- & Hk). apply in_seq in Hk. rewrite Nat2N.id. lia.
  - intros (m & -> & (i & -> & Hi & _)). constructor; [now rewrite Nat2N.id|constructor].
Qed.
Definition Progress (s : ucc) (n : nat) (k : nat) (st : adapt_state) : Prop :=
  as_pool st = pool s /\ Forall (fun m => N.to_nat m < length (pool s)) (a_tops (as_sel st)) /\ UsableAnsatz s n (a_tops (as_sel st)) (a_tamps (as_sel st)) /\ length (a_energies (as_sel st)) = k /\ n_results (as_sel st) = k /\ length (a_ncnot (as_sel st)) = k /\ length (as_results st) = k /\
  Forall (fun m => m <= length (a_tops (as_sel st))) (a_nparams (as_sel st)) /\ Forall2 (fun m x => UsableAnsatz s n (firstn m (a_tops (as_sel st))) (opt_x x)) (a_nparams (as_sel st)) (as_results st) /\ (k = 0 -> a_tops (as_sel st) = [] /\ a_tamps (as_sel st) = []).
Section Success.
Variables (L : libraries) (o : run_options) (ao : adapt_settings) (s : ucc) (n : nat) (Nm : list nat).
Hypothesis (HO : AdaptObject L s n) (HF : fast o = true) (HJ : use_jacobi o = false) (HP : print_summary_file o = false) (HM : cumulative_thresh ao = true \/ equiv_ops ao = false) (HS : Succeeds L o s n) (LN : length Nm = length (pool s))
  (HT : cumulative_thresh ao = true \/ avqe_threshold ao <> 0%R) (HZ : forall m, m < length (pool s) -> Usable s n m 0)
  (HR : exists g, PoolGradients s n [] [] g /\ (Rabs (avqe_threshold ao) <= norm g)%R).

Lemma adapt_measures_total tops x m : Forall (fun a => N.to_nat a < length (pool s)) tops -> (analytic o = true -> opt_njev x <> None) -> exists m', adapt_measures o Nm (map N.to_nat tops) x m = Ok m'.
Proof.
  intros HB HN. unfold adapt_measures. destruct (analytic o); [|eauto]. destruct (opt_njev x) as [j|]; [|now elim (HN eq_refl)]. generalize (m + Nl o * opt_nfev x) as a. induction HB as [|t tops Ht _ IH]; intros a; cbn [map foreach]; [eauto|]. unfold py_get at 1. rewrite (nth_error_nth' Nm 0) by (now rewrite LN). cbn [bind]. apply IH.
Qed.
Lemma iteration_succeeds k st : Progress s n k st -> exists st1, macro_iteration L o ao Nm s st = Ok st1 /\
  if a_conv (as_sel st1) then 1 <= k /\ Progress s n k st1 /\ a_final (as_sel st1) <> None else Progress s n (S k) st1.
Proof.
  intros (P1 & P2 & P3 & P4 & P5 & P6 & P7 & P8 & P9 & P10). unfold macro_iteration. rewrite P1. cbv zeta. set (sel := as_sel st) in *.
  destruct (gradients_ok L s n _ _ HO P3) as (g & EG & PG). rewrite EG. cbn [bind fst snd]. destruct (gradient_measures_total o Nm g) as (m & EM); [rewrite LN; apply PG|]. rewrite EM. cbn [bind].
  pose proof (update_ok (select_opts o ao) g sel HM) as HX. cbn [avqe_thresh select_opts cumulative add_equiv is_jacobi] in HX. destruct (Rltb_spec (norm g) (Rabs (avqe_threshold ao))) as [NL|NL].
  - destruct HX as (HX & _). assert (K : 1 <= k). { destruct k as [|k]; [exfalso|lia]. destruct (P10 eq_refl) as (Z1 & Z2). rewrite Z1, Z2 in PG. destruct HR as (g' & PG' & NG). rewrite (gradients_unique s n [] [] g g' PG PG') in NG. lra. }
    destruct HX as (s' & EU & C1 & C2 & C3 & C4 & C5 & C6 & C7 & C8); [intros Q; rewrite Q in P4; cbn in P4; lia|intros _ Q; lia|]. rewrite EU. cbn [bind]. rewrite C1. eexists. split; [reflexivity|]. cbn [as_sel]. rewrite C1. split; [exact K|]. split; [|rewrite C8; discriminate].
    unfold Progress. cbn [as_sel as_pool as_results]. rewrite C2, C3, C4, C5, C6, C7. repeat (split; [first [reflexivity|assumption]|]). exact P10.
  - apply Rnot_lt_le in NL. destruct HX as (HX & _). destruct HX as (s' & new & EU & C1 & C2 & C3 & C4 & C5 & C6 & C7 & C8).
    { destruct HT as [HT'|HT']; [now left|]. right. intros HFo. rewrite (zero_norm _ HFo) in NL. apply Rabs_pos_lt in HT'. lra. }
    rewrite EU. cbn [bind]. rewrite C1. unfold adapt_inner. rewrite HJ. pose proof (select_range _ _ _ C2) as RG. rewrite (proj1 PG) in RG.
    assert (B1 : Forall (fun m => N.to_nat m < length (pool s)) (a_tops s')) by (rewrite C3; apply Forall_app; now split).
    assert (U1 : UsableAnsatz s n (a_tops s') (a_tamps s')).
    { rewrite C3, C4. destruct P3 as (L3 & F3). split; [now rewrite !app_length, repeat_length, L3|]. rewrite map_app, combine_app_eq by (now rewrite map_length). apply Forall_app. split; [exact F3|]. clear - RG HZ. induction new as [|a new IH]; cbn [map length repeat combine]; constructor; [exact (HZ _ (Forall_inv RG))|exact (IH (Forall_inv_tail RG))]. }
    destruct (HS _ _ B1 U1) as (x & EX & UX & NX). unfold adapt_scipy.
    destruct (ansatz_value L o s n _ _ HO U1) as (U & _ & _ & _ & EE). rewrite (EE (a_tamps s') HF). cbn [bind]. rewrite EX. cbn [bind]. rewrite reports_off by exact HP. cbn [bind]. destruct (adapt_measures_total (a_tops s') x m B1 NX) as (m' & EA). cbn [tops with_ansatz]. rewrite EA. cbn [bind].
    destruct (ansatz_value L o s n _ _ HO UX) as (U2 & EB & _ & _ & _). change (with_tamps (with_ansatz s (pool s) (a_tops s') (a_tamps s')) (opt_x x)) with (with_ansatz s (pool s) (a_tops s') (opt_x x)). rewrite EB. cbn [bind].
    eexists. split; [reflexivity|]. unfold adapt_solve. cbn [as_sel a_conv fst snd so_energy so_tamps so_cnot so_measures so_result]. rewrite C1. unfold Progress. cbn [as_sel as_pool as_results a_tops a_tamps a_energies a_norms a_nparams a_ncnot n_results is_jacobi select_opts]. rewrite HJ, C5, C7, C8, C6, !app_length, P4, P5, P6, P7. cbn [length].
    split; [reflexivity|]. split; [exact B1|]. split; [exact UX|]. do 4 (split; [lia|]). split; [|split; [|discriminate]].
    + apply Forall_app. split; [|constructor; [lia|constructor]]. eapply Forall_impl; [|exact P8]. intros a Ha. cbn beta in Ha |- *. rewrite C3, app_length. lia.
    + apply Forall2_app; [|constructor; [rewrite firstn_all; exact UX|constructor]]. rewrite C3. clear - P8 P9. induction P9 as [|a b la lb Hab _ IH]; [constructor|]. constructor; [|exact (IH (Forall_inv_tail P8))]. rewrite firstn_app. replace (a - length (a_tops sel)) with 0 by (pose proof (Forall_inv P8); cbn in *; lia). cbn [firstn]. now rewrite app_nil_r.
Qed.
Lemma loop_succeeds : forall fuel k st, Progress s n k st -> Z.to_nat (max_macro ao) < fuel + k -> k <= Z.to_nat (max_macro ao) -> exists r j, macro_loop L o ao Nm s fuel k st = Ok r /\ 1 <= j /\ Progress s n j (fst r) /\ (snd r = false -> a_final (as_sel (fst r)) <> None).
Proof.
  induction fuel as [|fuel IH]; intros k st HPr HFu HK; [lia|]. cbn [macro_loop]. destruct (iteration_succeeds k st HPr) as (st1 & E1 & H1). rewrite E1. cbn [bind]. destruct (a_conv (as_sel st1)).
  - destruct H1 as (K & H1 & H2). exists (st1, false), k. cbn [fst snd]. auto.
  - destruct (Z.ltb_spec (max_macro ao - 1) (Z.of_nat (S k))) as [LZ|LZ]; [exists (st1, true), (S k); cbn [fst snd]; split; [reflexivity|split; [lia|split; [exact H1|discriminate]]]|]. apply (IH (S k) st1 H1); lia.
Qed.
End Success.
(** A run returns, and with usable amplitudes, if: the optimizer succeeds, the threshold is not
    zero or the selection is cumulative, and the gradients of the reference are not small *)
Theorem C90_run_succeeds_partial : forall L o ao s n, AdaptObject L s n -> fast o = true -> use_jacobi o = false -> print_summary_file o = false -> cumulative_thresh ao = true \/ equiv_ops ao = false -> cumulative_thresh ao = true \/ avqe_threshold ao <> 0%R ->
  Succeeds L o s n -> (forall m, m < length (pool s) -> Usable s n m 0) -> (exists g, PoolGradients s n [] [] g /\ (Rabs (avqe_threshold ao) <= norm g)%R) ->
  exists r, adapt_vqe_run L o ao s = Ok r /\ UsableAnsatz s n (ar_tops r) (ar_tamps r) /\ UsableRun s n r.
Proof.
  intros L o ao s n HO HF HJ HP HM HT HS HZ HR. unfold adapt_vqe_run. destruct (ansatz_value L o s n [] [] HO (usable_empty s n)) as (U & _ & _ & _ & EE). rewrite EE by exact HF. cbn [bind]. destruct (pool_lengths_ok (srt L) (pool s)) as (Nm & EP & LN); [apply HO|]. rewrite EP. cbn [bind fst snd].
  destruct (loop_succeeds L o ao s n Nm HO HF HJ HP HM HS LN HT HZ HR (S (Z.to_nat (max_macro ao))) 0 (mkAS (pool s) adapt_init [] [])) as ((st, hit) & j & EL & Hj & (P1 & P2 & P3 & P4 & P5 & P6 & P7 & P8 & P9 & _) & HFin); [|lia|lia|].
  { unfold Progress. cbn. split; [reflexivity|]. split; [constructor|]. split; [apply usable_empty|]. repeat (split; [first [reflexivity|constructor]|]). now split. }
  rewrite EL. cbn [bind fst snd] in *.
  assert (EF : exists e, (if hit then do e <- py_last (a_energies (as_sel st)); (if negb (use_jacobi o) && Nat.eqb (length (as_results st)) 0 then IndexError else Ok (Some e)) else Ok (a_final (as_sel st))) = Ok (Some e)).
  { destruct hit.
    - rewrite (py_last_ok _ 0%R) by (intros Q; rewrite Q in P4; cbn in P4; lia). cbn [bind]. rewrite P7. destruct (Nat.eqb_spec j 0); [lia|]. rewrite andb_false_r. eauto.
    - destruct (a_final (as_sel st)) as [e|]; [eauto|]. now elim (HFin eq_refl). }
  destruct EF as (e & EF). rewrite EF. cbn [bind]. rewrite (py_last_ok _ 0) by (intros Q; rewrite Q in P6; cbn in P6; lia). cbn [bind]. eexists. split; [reflexivity|]. cbn [ar_tops ar_tamps]. split; [exact P3|exact P9].
Qed.
Print Assumptions C90_run_succeeds_partial.

(** ---- an algorithm object that meets the hypotheses ---- *)
(** three qubits, one electron in the first, H = X0 X1, the excitations 0 -> 1 and 1 -> 2 *)
Definition ex_pool : sqpool := [(C1, Antihermitian (-1) [0] [1]); (C1, Antihermitian (-1) [1] [2])].
Definition ex_object : ucc := mkUcc (new_computer 3) [gX1 0] XX "SD" false true 1 ex_pool [] [].
(** compares the starting point with amplitudes 1/2 *)
Definition halves : minimizer := fun method opts f g x0 =>
  do a <- f x0;
  let x1 := repeat (1/2)%R (length x0) in
  do b <- f x1;
  if Rltb b a then Ok (mkOpt x1 b 2 1 (Some 1)) else Ok (mkOpt x0 a 2 1 (Some 1)).
Definition ex_libraries : libraries := mkLib halves (fun _ _ _ _ => 0%R) (fun _ m _ => m) None PropSQ.isort tsort.
Definition ex_run : run_options := mkRun "BFGS" true (1/100000) (1/100000) 50 0 8 true false "occupation_list" [1; 0; 0] [gX1 0] None 1.
Definition ex_settings (thresh : R) : adapt_settings := mkSettings thresh 2 false false.
Lemma halves_legal : ReturnsAPoint halves /\ NeverWorse halves.
Proof.
  split.
  - intros method opts f g x0 r E. unfold halves in E. destruct (f x0) as [a|] eqn:Ea; [|discriminate]. cbn [bind] in E. cbv zeta in E. destruct (f (repeat _ _)) as [b|] eqn:Eb; [|discriminate]. cbn [bind] in E. destruct (Rltb b a); injection E as <-; split; try assumption; [apply repeat_length|reflexivity].
  - intros method opts f g x0 r e0 E0 E. unfold halves in E. rewrite E0 in E. cbn [bind] in E. cbv zeta in E. destruct (f (repeat _ _)) as [b|]; [|discriminate]. cbn [bind] in E. destruct (Rltb_spec b e0); injection E as <-; cbn; lra.
Qed.
Lemma ex_standard b : Standard (-1) [b] [S b] (Antihermitian (-1) [b] [S b]).
Proof.
  split; [reflexivity|]. split; [|split; [cbn; lia|rewrite Rabs_left; lra]]. split; [discriminate|]. split; [reflexivity|]. split; [repeat constructor|]. split; [repeat constructor|]. left. intros k [<-|[]] [E|[]]. lia.
Qed.
Lemma ex_settled b qe : exists K, jw_transform PropSQ.isort qe (Antihermitian (-1) [b] [S b]) = Ok (Antihermitian (-1) [b] [S b], K).
Proof.
  destruct (AnsatzJW.jw_pair_exists qe [b] [S b]) as (q & JP); [discriminate|intros Q; injection Q; lia|repeat constructor|repeat constructor|cbn; lia|].
  exists (op_mult_coeffs q (RtoC (-1))). rewrite (AnsatzJW.jp_jw _ _ _ _ JP PropSQ.isort (-1)%R PropSQ.isort_legal) by (cbn; rewrite Rabs_left; lra). assert (PL : pair_ltb ([b], [S b]) ([S b], [b]) = true). { unfold pair_ltb. cbn [fst vec_ltb]. rewrite (proj2 (Nat.ltb_lt b (S b))) by lia. reflexivity. }
  now rewrite PL.
Qed.
Lemma ex_adapt : AdaptObject ex_libraries ex_object 3.
Proof.
  split; [|split; [|split]].
  - split; [exact PropSQ.isort_legal|split; [exact tsort_legal|exact Logic.I]].
  - destruct (example_ready true 1 [] (fun H => ltac:(discriminate H))) as (W & N & A & HH & _). split; [exact W|]. split; [exact N|]. split; [exact A|]. split; [exact HH|]. split; [discriminate|]. split; [intros _; cbn; lia|]. change (reference ex_object) with (reference (example true 1 [])). unfold reference. rewrite example_reference. unfold inner. change (2 ^ 3) with 8. cbn [seq]. rewrite !Csum_cons, Csum_nil. unfold st. cbn [Nat.eqb]. apply C_ext; cbn; ring.
  - constructor; [|constructor; [|constructor]]; [exists (-1)%R, [0], [1]|exists (-1)%R, [1], [2]]; (split; [reflexivity|]); (split; [apply ex_standard|]); split; repeat constructor.
  - constructor; [|constructor; [|constructor]]; intros qe; apply ex_settled.
Qed.
Lemma ex_usable m t : m < 2 -> t = 0%R \/ (1e-8 < Rabs t)%R -> Usable ex_object 3 m t.
Proof.
  intros Hm Ht. assert (Z : Sizable t (-1)). { destruct Ht as [->|Ht]; [now left|right]. replace (t * -1)%R with (- t)%R by ring. now rewrite Rabs_Ropp. }
  destruct m as [|[|m]]; [exists (-1)%R, [0], [1]|exists (-1)%R, [1], [2]|lia]; (split; [reflexivity|]); (split; [apply ex_standard|]); (split; [repeat constructor|]); (split; [repeat constructor|exact Z]).
Qed.
Lemma ex_succeeds o : use_jacobi o = false -> fast o = true -> Succeeds ex_libraries o ex_object 3.
Proof.
  intros HJ HF tops ts HB HU. cbv zeta. destruct (ansatz_value ex_libraries o ex_object 3 tops ts ex_adapt HU) as (U & _ & _ & _ & EE). cbn [minimize ex_libraries]. unfold halves. rewrite (EE ts HF). cbn [bind]. cbv zeta.
  assert (HV : UsableAnsatz ex_object 3 tops (repeat (1/2)%R (length ts))).
  { split; [rewrite repeat_length; apply HU|]. rewrite (proj1 HU). clear - HB. induction tops as [|t tops IH]; cbn [map length repeat combine]; constructor; [|exact (IH (Forall_inv_tail HB))]. apply ex_usable; [exact (Forall_inv HB)|right; cbn [snd]; rewrite Rabs_right; lra]. }
  destruct (ansatz_value ex_libraries o ex_object 3 tops _ ex_adapt HV) as (V & _ & _ & _ & EV). rewrite (EV ts HF). cbn [bind]. destruct (Rltb _ _); eexists; (split; [reflexivity|]); cbn [opt_x opt_njev]; (split; [assumption|discriminate]).
Qed.
(** the gradient of the first operator at the reference is 2 *)
Lemma ex_gradient g : PoolGradients ex_object 3 [] [] g -> (2 <= norm g)%R.
Proof.
  intros (LG & phi & HA & HS). assert (EP : phi = st 1 0 0).
  { destruct (reference_energy ex_object 3) as (phi' & HA' & _); [apply ex_adapt|]. assert (HA2 : AnsatzState ex_object 3 [] [] (reference ex_object)). { destruct HA' as (HA' & HN'). split; [|apply ex_adapt]. unfold adapt_factors. cbn. intros I. reflexivity. }
    rewrite (state_unique _ _ _ _ _ _ HA2 HA). change (reference ex_object) with (reference (example true 1 [])). apply (example_reference true 1 []). }
  subst phi. specialize (HS 0 ltac:(cbn; lia)). destruct HS as (_ & HS). specialize (HS (fun x => 2 * cos x * sin x)%R).
  assert (D : derivable_pt_lim (fun x => 2 * cos x * sin x)%R 0 (nth 0 g 0%R)).
  { apply HS. intros x. exists (st (cos x) (sin x) 0). split.
    - cbn [exp_product]. exists (st (cos x) (sin x) 0). split; [|intros I; reflexivity]. change (act (qubit_excitations ex_object) (op_at (pool ex_object) 0)) with (act true (Antihermitian (-1) [0] [1])). rewrite pair_swap. replace (- -1)%R with 1%R by ring. pose proof (exp1 x 1 0 0) as H1. replace (1 * cos x - 0 * sin x)%R with (cos x) in H1 by ring. replace (1 * sin x + 0 * cos x)%R with (sin x) in H1 by ring. exact H1.
    - change (ham ex_object) with XX. rewrite energy_st. reflexivity. }
  assert (D2 : derivable_pt_lim (fun x => 2 * cos x * sin x)%R 0%R 2%R).
  { pose proof (derivable_pt_lim_mult (fun x => 2 * cos x)%R sin 0%R _ _ (derivable_pt_lim_scal cos 2%R 0%R _ (derivable_pt_lim_cos 0)) (derivable_pt_lim_sin 0)) as H. cbn beta in H. rewrite sin_0, cos_0 in H. replace (2 * - 0 * 0 + 2 * 1 * 1)%R with 2%R in H by ring. exact H. }
  pose proof (uniqueness_limite _ _ _ _ D D2) as EQ. pose proof (entry_norm g 0) as EN. rewrite EQ, Rabs_right in EN by lra. apply EN. rewrite LG. cbn. lia.
Qed.
Example C90_nonvacuous : AdaptObject ex_libraries ex_object 3 /\ ReturnsAPoint (minimize ex_libraries) /\ NeverWorse (minimize ex_libraries) /\
  (exists r, adapt_vqe_run ex_libraries ex_run (ex_settings (1/100)) ex_object = Ok r /\ UsableAnsatz ex_object 3 (ar_tops r) (ar_tamps r) /\ UsableRun ex_object 3 r /\ ar_tops r <> []) /\
  exists thresh g, PoolGradients ex_object 3 [] [] g /\ (norm g < Rabs (avqe_threshold (ex_settings thresh)))%R.
Proof.
  split; [exact ex_adapt|]. split; [apply halves_legal|]. split; [apply halves_legal|]. destruct (gradients_ok ex_libraries ex_object 3 [] [] ex_adapt (usable_empty _ _)) as (g & _ & PG). split.
  - destruct (C90_run_succeeds_partial ex_libraries ex_run (ex_settings (1/100)) ex_object 3 ex_adapt eq_refl eq_refl eq_refl) as (r & E & HU & HR); [now right|right; cbn; lra|now apply ex_succeeds|intros m Hm; apply ex_usable; [exact Hm|now left]| |].
    + exists g. split; [exact PG|]. cbn [avqe_threshold ex_settings]. rewrite Rabs_right by lra. pose proof (ex_gradient g PG). lra.
    + exists r. repeat (split; [assumption|]). destruct (C90_counts ex_libraries ex_run (ex_settings (1/100)) ex_object 3 r ex_adapt eq_refl (proj1 halves_legal) E) as (_ & _ & _ & _ & _ & _ & _ & _).
      destruct (C90_commutator_count ex_libraries ex_run (ex_settings (1/100)) ex_object 3 r ex_adapt (proj1 halves_legal) eq_refl eq_refl eq_refl E) as (_ & HL). destruct (C90_history_partial ex_libraries ex_run (ex_settings (1/100)) ex_object 3 r ex_adapt (or_introl (proj1 halves_legal)) E) as (hist & HH & _ & HB & _).
      destruct (default_lengths ex_run (ex_settings (1/100)) _ _ _ _ _ _ eq_refl eq_refl HH) as (LT & _). intros Q. rewrite Q in LT. cbn in LT. lia.
  - exists (norm g + 1)%R, g. split; [exact PG|]. cbn [avqe_threshold ex_settings]. pose proof (norm_nonneg g). rewrite Rabs_right; lra.
Qed.
