(** C75: complete runs of QITE and its expansion pools. *)
From Coq Require Import Reals String List Arith ZArith NArith Bool Lia Lra Sorted Permutation.
From Verif Require Import CBase Result Bits Spec OpSpec GateModel ComputerModel SafeProofs LibProofs CleanProofs SimProofs CircuitModel CircuitProofs PauliProofs OperatorModel OperatorProofs OrderProofs PoolProofs MeasureModel MeasureProofs SQSpec SQModel SQProofs SQPoolModel SQPoolSpec SQPoolOps GsdModel GsdProofs AnsatzModel AnsatzSpec AnsatzProofs PyModel PyApply EigModel GradModel GradSpec QkModel QkProofs PropOperator PropMeasure PropPool PropGsd PropGrad PropRes SparseNorm QpeProofs QpeDist QiteModel QiteNorm QiteLin QiteProofs QitePool PropQite PropQiteRun.
From Verif Require SymmProofs SaModel PropAnsatz AnsatzProofs.
Import ListNotations.
Local Open Scope nat_scope.

(** ---- the expansion pools ---- *)
(** one operator with coefficient 1 for each string *)
Definition SumOf (strs : list (list gate)) : list (C * qop) := map (fun s => (C1, [(C1, s)])) strs.
Theorem C75_complete_pool : forall srt sort o, qi_type o = "complete_qubit"%string -> 1 <= qi_nqb o <= 6 -> exists strs,
  build_expansion_pool srt sort o = Ok (SumOf strs) /\ NoDup strs /\ forall gs, In gs strs <-> Canonical gs /\ Forall (fun g => gtarget g < qi_nqb o) gs.
Proof.
  intros srt sort o Et Hn. destruct (C33_complete_pool [] (qi_nqb o) ltac:(lia)) as (l & E & _ & ND & HI). exists l. split; [|split; assumption].
  unfold build_expansion_pool. rewrite Et. cbn [String.eqb Ascii.eqb Bool.eqb]. destruct (Nat.ltb_spec 6 (qi_nqb o)); [lia|]. exact E.
Qed.
Theorem C75_complete_pool_limit : forall srt sort o, qi_type o = "complete_qubit"%string -> 6 < qi_nqb o -> build_expansion_pool srt sort o = Throw (PyError "ValueError").
Proof. intros srt sort o Et Hn. unfold build_expansion_pool. rewrite Et. cbn [String.eqb Ascii.eqb Bool.eqb]. destruct (Nat.ltb_spec 6 (qi_nqb o)); [reflexivity|lia]. Qed.
Theorem C75_cqoy_pool : forall srt sort o, qi_type o = "cqoy"%string -> 1 <= qi_nqb o -> exists strs,
  build_expansion_pool srt sort o = Ok (SumOf strs) /\ NoDup strs /\ forall gs, In gs strs <-> Canonical gs /\ Forall (fun g => gtarget g < qi_nqb o) gs /\ Nat.Odd (count_Y gs).
Proof.
  intros srt sort o Et Hn. destruct (C33_odd_y_pool [] (qi_nqb o) Hn) as (l & E & ND & HI). exists l. split; [|split; assumption].
  unfold build_expansion_pool. rewrite Et. cbn [String.eqb Ascii.eqb Bool.eqb]. exact E.
Qed.
Theorem C75_unknown_pool : forall srt sort o, ~ In (qi_type o) ["complete_qubit"; "cqoy"; "SD"; "GSD"; "SDT"; "SDTQ"; "SDTQP"; "SDTQPH"]%string -> build_expansion_pool srt sort o = Throw (PyError "ValueError").
Proof.
  intros srt sort o N. unfold build_expansion_pool. assert (K : forall s, In s ["complete_qubit"; "cqoy"; "SD"; "GSD"; "SDT"; "SDTQ"; "SDTQP"; "SDTQPH"]%string -> String.eqb (qi_type o) s = false) by (intros s Hs; apply String.eqb_neq; intros E; apply N; now rewrite E).
  cbn [existsb]. rewrite !K by (cbn; tauto). reflexivity.
Qed.
(** the excitation pools: the strings with oddly many Y of the qubit operator of the pool *)
Definition ExcitationStrings (srt : sorter) (sort : term_sorter) (o : qite_options) : Prop := exists sp P P' Q strs,
  set_orb_spaces (qi_ref o) [] = Ok sp /\ SaModel.fill_pool srt sp (qi_type o) [] = Ok P /\ get_qubit_operator srt sort "commuting_grp_lex" false false P = Ok (P', Q) /\
  build_expansion_pool srt sort o = Ok (SumOf strs) /\ strs = filter (fun gs => Nat.odd (count_Y gs)) (map snd Q) /\ Forall (StringOn (qi_nqb o)) strs.
Lemma finish srt sort o sp P : legal_sort srt -> legal_term_sort sort -> In (qi_type o) ["SD"; "GSD"; "SDT"; "SDTQ"; "SDTQP"; "SDTQPH"]%string -> set_orb_spaces (qi_ref o) [] = Ok sp -> SaModel.fill_pool srt sp (qi_type o) [] = Ok P ->
  Forall (fun e => fst e = C1 /\ exists a P H, (a = 1 \/ a = -1)%R /\ snd e = Antihermitian a P H /\ Excitable P H /\ length P <= 6 /\ Forall (fun p => p < qi_nqb o) P /\ Forall (fun p => p < qi_nqb o) H) P -> ExcitationStrings srt sort o.
Proof.
  intros HS HT Ht E EP HF. destruct (qubit_operator_strings srt sort (qi_nqb o) P HS HT HF) as (P' & Q & EQ & TQ & _). exists sp, P, P', Q, (filter (fun gs => Nat.odd (count_Y gs)) (map snd Q)).
  split; [exact E|]. split; [exact EP|]. split; [exact EQ|]. split; [|split; [reflexivity|]].
  - assert (HP : Terms PauliCircuit Q) by (eapply Forall_impl; [|exact TQ]; intros t Ht'; apply Ht').
    unfold build_expansion_pool. assert (K : String.eqb (qi_type o) "complete_qubit" = false /\ String.eqb (qi_type o) "cqoy" = false /\ existsb (String.eqb (qi_type o)) ["SD"; "GSD"; "SDT"; "SDTQ"; "SDTQP"; "SDTQPH"]%string = true).
    { cbn [In] in Ht. repeat (destruct Ht as [<-|Ht]; [repeat split; reflexivity|]). destruct Ht. }
    destruct K as (-> & -> & ->). rewrite E. cbn [bind].
    assert (EP' : (if String.eqb (qi_type o) "GSD" then fill_pool_gsd srt sp [] else fill_pool_excitations srt sp (qi_type o) []) = Ok P).
    { unfold SaModel.fill_pool in EP. cbn [In] in Ht. repeat (destruct Ht as [Ht|Ht]; [rewrite <- Ht in *; exact EP|]). destruct Ht. }
    rewrite EP'. cbn [bind]. rewrite EQ. cbn [bind snd]. rewrite filter_pool by exact HP. reflexivity.
  - apply Forall_forall. intros gs Hg. apply filter_In in Hg. destruct Hg as (Hg & _). apply in_map_iff in Hg. destruct Hg as (t & <- & It). unfold Terms in TQ. rewrite Forall_forall in TQ. exact (TQ t It).
Qed.
Theorem C75_excitation_pools : forall srt sort, legal_sort srt -> legal_term_sort sort -> forall o m R max, Reference m (qi_ref o) R -> FitsInt (qi_ref o) -> qi_nqb o = 2 * m -> In (qi_type o, max) pool_types -> qi_type o <> "S"%string ->
  ExcitationStrings srt sort o.
Proof.
  intros srt sort HS HT o m R max HR HF Hn Ht Hs. destruct (C32_pool_contents srt HS m (qi_ref o) R [] (qi_type o) max HR HF (or_introl eq_refl) Ht) as (sp & pool & dets & E & EP & _ & HD & F2).
  assert (Tn : qi_type o <> "sa_SD"%string /\ qi_type o <> "GSD"%string /\ max <= 6 /\ In (qi_type o) ["SD"; "GSD"; "SDT"; "SDTQ"; "SDTQP"; "SDTQPH"]%string).
  { destruct Ht as [Ht|Ht]; [injection Ht as Ht _; congruence|]. cbn in Ht. repeat (destruct Ht as [Ht|Ht]; [injection Ht as <- <-; split; [discriminate|]; split; [discriminate|]; split; [lia|cbn; tauto]|]). destruct Ht. }
  destruct Tn as (T1 & T2 & T3 & T4). apply (finish srt sort o sp pool HS HT T4 E); [unfold SaModel.fill_pool; rewrite (proj2 (String.eqb_neq _ _) T1), (proj2 (String.eqb_neq _ _) T2); exact EP|].
  assert (HX : forall D (e : C * list fterm), In D dets -> Permutation (snd e) (excitation R D (2 * m)) -> exists a P H, (a = 1 \/ a = -1)%R /\ snd e = Antihermitian a P H /\ Excitable P H /\ length P <= 6 /\ Forall (fun p => p < qi_nqb o) P /\ Forall (fun p => p < qi_nqb o) H).
  { intros D e ID Pm. apply HD in ID. destruct ID as ((_ & HE & HL & _) & _). set (Hs' := holes R D (2 * m)) in *. set (Ps := particles R D (2 * m)) in *.
    assert (LL : length Ps = length Hs'). { pose proof (hole_count R D (2 * m)) as HC. rewrite !electron_count, !HE in HC by lia. fold Hs' Ps in HC. lia. }
    assert (Ds : forall k, In k Ps -> ~ In k Hs'). { intros k K1 K2. apply orbitals_in in K1, K2. destruct K1 as (_ & K1), K2 as (_ & K2). destruct (occ R k), (occ D k); discriminate. }
    assert (X1 : Excitable Ps Hs'). { split; [intros K; rewrite K in LL; change (length (@nil nat)) with 0 in LL; lia|]. split; [exact LL|]. split; [apply orbitals_sorted|]. split; [apply orbitals_sorted|]. now left. }
    assert (B1 : Forall (fun p => p < qi_nqb o) Ps) by (apply Forall_forall; intros p Hp; apply orbitals_in in Hp; rewrite Hn; apply Hp).
    assert (B2 : Forall (fun p => p < qi_nqb o) Hs') by (apply Forall_forall; intros p Hp; apply orbitals_in in Hp; rewrite Hn; apply Hp).
    unfold excitation in Pm. fold Hs' Ps in Pm. apply Permutation_sym, Permutation_length_2_inv in Pm.
    destruct Pm as [Pm|Pm].
    - exists 1%R, Ps, Hs'. split; [now left|]. split; [rewrite Pm; unfold Antihermitian; repeat f_equal; apply C_ext; cbn; ring|]. split; [exact X1|]. split; [lia|]. split; assumption.
    - exists (-1)%R, Hs', Ps. split; [now right|]. split; [rewrite Pm; unfold Antihermitian; replace (RtoC (- -1)) with C1 by (apply C_ext; cbn; ring); replace (RtoC (-1)) with (- C1)%C by (apply C_ext; cbn; ring); reflexivity|]. split; [now apply AnsatzProofs.excitable_swap|]. split; [lia|]. split; assumption. }
  clear - F2 HX. induction F2 as [|D e' dets pool (E1 & Pm) F2 IH]; constructor; [split; [exact E1|apply (HX D); [now left|exact Pm]]|apply IH; intros D' e0 ID; apply HX; now right].
Qed.
Theorem C75_gsd_pool : forall srt sort, legal_sort srt -> legal_term_sort sort -> forall o m, length (qi_ref o) = 2 * m -> qi_nqb o = 2 * m -> qi_type o = "GSD"%string -> ExcitationStrings srt sort o.
Proof.
  intros srt sort HS HT o m HL Hn Ht. destruct (C59_gsd_pool srt HS m (qi_ref o) [] HL (or_introl eq_refl)) as (sp & pool & E & EP & Ha & _).
  apply (finish srt sort o sp pool HS HT ltac:(rewrite Ht; cbn; tauto) E); [rewrite Ht; exact EP|].
  assert (Hm : n_spinorb sp = 2 * m /\ m <= length (orb_irreps sp)).
  { unfold set_orb_spaces in E. rewrite HL in E. replace (Nat.odd (2 * m)) with false in E by (rewrite Nat.odd_mul; reflexivity). apply (f_equal (fun r => match r with Ok x => x | Throw _ => sp end)) in E. cbn beta iota in E. rewrite <- E. cbn [n_spinorb orb_irreps]. split; [reflexivity|]. rewrite div_even, repeat_length. lia. }
  destruct (gsd_keys srt sp m HS (proj1 Hm) (proj2 Hm) []) as (added & K & E' & F & _ & Ki & Hk). rewrite EP in E'. injection E' as ->.
  apply Forall_forall. intros e Ie. assert (X : exists k, In k K /\ Rep e k) by (clear - F Ie; induction F as [|e' x l l' R F IH]; [destruct Ie|]; destruct Ie as [<-|Ie]; [exists x; split; [now left|exact R]|]; destruct (IH Ie) as (k & Ik & Rk); exists k; split; [now right|exact Rk]).
  destruct X as (k & Ik & (E1 & sg & U & Es)). split; [exact E1|]. pose proof (Ki k Ik) as Ek. pose proof Ik as Ig. rewrite <- Ek in Ig. apply Hk in Ig. destruct k as (P, H). cbn [fst snd] in *. destruct Ig as (LP & LH & Ne & DP & DH & Bd & _).
  exists (Re sg), P, H. split; [destruct U as [-> | ->]; [now left|right; cbn; ring]|]. split; [rewrite Es; unfold Antihermitian; destruct U as [-> | ->]; repeat f_equal; apply C_ext; cbn; ring|]. split.
  - split; [intros ->; cbn in LP; lia|]. split; [now symmetry|]. split; [exact DP|]. split; [exact DH|]. destruct LP as [LP|LP].
    + rewrite LP in LH. destruct P as [|p [|]]; try discriminate. destruct H as [|h [|]]; try discriminate. left. intros x [<-|[]] [E0|[]]. congruence.
    + rewrite LP in LH. destruct P as [|p0 [|p1 [|]]]; try discriminate. destruct H as [|h0 [|h1 [|]]]; try discriminate. inversion DP as [|? ? _ F1]; subst. inversion F1 as [|? ? L1 _]; subst. inversion DH as [|? ? _ F3]; subst. inversion F3 as [|? ? L2 _]; subst.
      destruct (Nat.eq_dec p0 h0) as [->|N1]; [right; exists h0, p1, h1; repeat split; try lia; try tauto; intros ->; now apply Ne|].
      destruct (Nat.eq_dec p0 h1) as [->|N2]; [right; exists h1, p1, h0; repeat split; try lia; tauto|].
      destruct (Nat.eq_dec p1 h0) as [->|N3]; [right; exists h0, p0, h1; repeat split; try lia; tauto|].
      destruct (Nat.eq_dec p1 h1) as [->|N4]; [right; exists h1, p0, h0; repeat split; try lia; tauto|].
      left. intros x [<-|[<-|[]]] [E0|[E0|[]]]; congruence.
  - split; [lia|]. rewrite Hn. split; apply Forall_forall; intros p Hp; apply Bd; tauto.
Qed.
Print Assumptions C75_excitation_pools.
Print Assumptions C75_gsd_pool.

(** ---- complete runs ---- *)
Local Open Scope R_scope.
(** the number of steps: beta / db rounded towards zero *)
Definition StepCount (o : qite_options) (N : nat) : Prop := INR N <= qi_beta o / qi_db o < INR N + 1.
Lemma step_count o : qi_db o <> 0 -> 0 <= qi_beta o / qi_db o -> exists N, n_steps o = Ok N /\ StepCount o N.
Proof.
  intros Hd Hb. unfold n_steps. destruct (Req_EM_T (qi_db o) 0); [contradiction|]. eexists. split; [reflexivity|]. unfold StepCount. destruct (base_Int_part (qi_beta o / qi_db o)) as (B1 & B2).
  assert (HZ : (0 <= Int_part (qi_beta o / qi_db o))%Z) by (apply (Z.lt_le_incl (-1)) || idtac; assert (-1 < Int_part (qi_beta o / qi_db o))%Z by (apply lt_IZR; cbn; lra); lia).
  rewrite INR_IZR_INZ, Z2Nat.id by exact HZ. lra.
Qed.
Lemma run_front srt sort lstsq eig o strs : QiteReady o strs -> build_expansion_pool srt sort o = Ok (SumOf strs) -> forall N, n_steps o = Ok N ->
  qite_run srt sort lstsq eig o = (do st <- evolve_qite lstsq o (pool_of strs) N (mean_energy o (circ_act (qi_Uprep o) (ket 0))); if qi_lanczos o then do l <- do_qlanczos eig st; Ok (st, Some l) else Ok (st, None)).
Proof.
  intros [HU HH HE Hr HS] EP N EN. unfold qite_run. rewrite EN. cbn [bind]. destruct (sim_apply (new_computer (qi_nqb o)) (qi_Uprep o) (new_computer_wf _) HU) as (q0 & E0 & W0 & N0 & A0). rewrite E0. cbn [bind].
  assert (P0 : psi_of q0 = circ_act (qi_Uprep o) (ket 0)). { apply seq_eq. eapply seq_trans; [exact A0|]. apply circ_act_ext. intros I. apply new_computer_ket0. }
  destruct (SymmProofs.evaluate (qi_nqb o) (qi_par o) (qi_ham o) q0 HE W0 N0) as (qc2 & EV & _). rewrite EV. cbn [bind fst]. rewrite EP. cbn [bind]. rewrite P0. reflexivity.
Qed.
Theorem C75_run : forall srt sort lstsq eig o strs, QiteReady o strs -> build_expansion_pool srt sort o = Ok (SumOf strs) -> LeastSquares (length strs) lstsq -> qi_lanczos o = false ->
  qi_db o <> 0 -> 0 <= qi_beta o / qi_db o -> 2 * Rabs (qi_db o) * coefficient_sum (qi_ham o) < 1 ->
  exists N st ps idx x gs ph, StepCount o N /\ qite_run srt sort lstsq eig o = Ok (st, None) /\ Trajectory o strs N st ps idx x gs ph /\ qite_Egs st = mean_energy o (ps N) /\
    forall E, (forall phi, inner (qi_nqb o) phi phi = C1 -> E <= mean_energy o phi) -> Forall (fun e => E <= e) (qs_Ekb st).
Proof.
  intros srt sort lstsq eig o strs HR EP HL El Hd Hb Hs. destruct (step_count o Hd Hb) as (N & EN & SN).
  destruct (steps_run lstsq o strs HR HL Hs ltac:(rewrite El; discriminate) N) as (st & ps & idx & x & gs & ph & E & T & _).
  exists N, st, ps, idx, x, gs, ph. split; [exact SN|]. rewrite (run_front srt sort lstsq eig o strs HR EP N EN), E. cbn [bind]. rewrite El. split; [reflexivity|]. split; [exact T|]. split; [apply T|].
  intros Em HE. rewrite (tr_Ekb _ _ _ _ _ _ _ _ _ T). apply Forall_forall. intros e He. apply in_map_iff in He. destruct He as (k & <- & Hk). apply in_seq in Hk. apply HE. destruct k as [|k].
  - rewrite (tr_start _ _ _ _ _ _ _ _ _ T). destruct HR as [(U1 & _ & U3) _ _ _ _]. rewrite circ_preserves_inner by assumption. apply ket_norm.
  - apply (sp_norm _ _ _ _ _ _ _ _ (tr_steps _ _ _ _ _ _ _ _ _ T k ltac:(lia))).
Qed.
Print Assumptions C75_run.
Theorem C75_zero_step_raises : forall srt sort lstsq eig o, qi_db o = 0 -> qite_run srt sort lstsq eig o = Throw (PyError "ZeroDivisionError").
Proof. intros srt sort lstsq eig o H. unfold qite_run, n_steps. destruct (Req_EM_T (qi_db o) 0); [reflexivity|contradiction]. Qed.
Theorem C75_zero_gap_raises : forall srt sort lstsq eig o strs, QiteReady o strs -> build_expansion_pool srt sort o = Ok (SumOf strs) -> LeastSquares (length strs) lstsq -> qi_lanczos o = true -> qi_gap o = 0%nat ->
  qi_db o <> 0 -> 1 <= qi_beta o / qi_db o -> 2 * Rabs (qi_db o) * coefficient_sum (qi_ham o) < 1 -> qite_run srt sort lstsq eig o = Throw (PyError "ZeroDivisionError").
Proof.
  intros srt sort lstsq eig o strs HR EP HL El Eg Hd Hb Hs. destruct (step_count o Hd ltac:(lra)) as (N & EN & SN). rewrite (run_front srt sort lstsq eig o strs HR EP N EN).
  destruct N as [|N]; [unfold StepCount in SN; cbn [INR] in SN; lra|]. unfold evolve_qite. pose proof HR as [HU HH HE Hr HS].
  destruct (sim_apply (new_computer (qi_nqb o)) (qi_Uprep o) (new_computer_wf _) HU) as (q0 & E0 & W0 & N0 & A0). rewrite E0. cbn [bind]. cbv zeta.
  assert (P0 : psi_of q0 = circ_act (qi_Uprep o) (ket 0)). { apply seq_eq. eapply seq_trans; [exact A0|]. apply circ_act_ext. intros I. apply new_computer_ket0. }
  set (psi0 := circ_act (qi_Uprep o) (ket 0)) in *. set (s0 := mkQiteState q0 _ _ _ _ _ _ _ _).
  assert (H0 : inner (qi_nqb o) psi0 psi0 = C1). { unfold psi0. destruct HU as (U1 & _ & U3). rewrite circ_preserves_inner by assumption. apply ket_norm. }
  assert (HH0 : Holds o s0 psi0) by (split; [exact W0|split; [exact N0|split; [exact P0|split; [exact H0|reflexivity]]]]).
  rewrite El. destruct (add_lanczos_ok o s0 psi0 HH HH0) as (v & Hv & V1 & V2 & EL). rewrite EL. cbn [bind seq foreach]. unfold qite_pass at 1.
  match goal with |- context [do_qite_step _ _ _ ?s] => assert (HS1 : Holds o s psi0) by exact HH0; destruct (C75_step lstsq o strs s psi0 HR HL HS1 (estimate_pos o _ HH Hs H0)) as (st' & psi' & ix & xx & g & p & ES & _) end.
  fold (pool_of strs) in ES. rewrite ES. cbn [bind]. rewrite El, Eg. reflexivity.
Qed.
Theorem C75_realistic_raises : qite_run_realistic = Throw (PyError "NotImplementedError").
Proof. reflexivity. Qed.

(** ---- a case: one qubit, H = X, started in |0>, pool {Y} ---- *)
Definition lsq1 : lstsq_oracle := fun k Sm b => match k with 1%nat => [if Req_EM_T (Sm 0%nat 0%nat) 0 then 0 else nth 0 b 0 / Sm 0%nat 0%nat] | _ => [] end.
Lemma lsq1_ok : LeastSquares 1 lsq1.
Proof.
  intros k Sm b Hk Lb. destruct k as [|[|k]]; [| |lia].
  - split; [reflexivity|]. intros y _. unfold residual_sum. cbn. lra.
  - split; [reflexivity|]. intros y _. unfold residual_sum, lsq1, Rsum. cbn [seq fold_right nth]. destruct (Req_EM_T (Sm 0%nat 0%nat) 0) as [E|E]; [rewrite E; right; ring|].
    replace (Sm 0%nat 0%nat * (nth 0 b 0 / Sm 0%nat 0%nat) + 0 - nth 0 b 0) with 0 by (field; exact E). pose proof (pow2_ge_0 (Sm 0%nat 0%nat * nth 0 y 0 + 0 - nth 0 b 0)). lra.
Qed.
Definition qite_example : qite_options := mkQiteOptions 1 [] [(C1, [gX 0])] [0%Z] 1 None 1 (1/4) "cqoy" true 0 0 false 2.
Lemma example_string l : (l = "X" \/ l = "Y" \/ l = "Z")%string -> forall g, make_gate l 0 0 0 = Ok g -> gtarget g = 0%nat -> StringOn 1 [g].
Proof. intros Hl g E Et. split; [split|]; [constructor; [exists l, 0%nat; split; assumption|constructor]|unfold DistinctQubits; cbn; constructor; [intros []|constructor]|constructor; [rewrite Et; lia|constructor]]. Qed.
Lemma example_ready : QiteReady qite_example [[gY 0]].
Proof.
  assert (HX : StringOn 1 [gX 0]) by (apply (example_string "X" (or_introl eq_refl)); reflexivity). split.
  - cbn [qi_nqb qi_Uprep qite_example]. split; [constructor|]. split; constructor.
  - constructor; [split; [exact HX|reflexivity]|constructor].
  - cbn [Evaluable qi_par qi_ham qi_nqb qite_example]. constructor; [|constructor]. apply string_applicable, HX.
  - cbn. lia.
  - constructor; [apply (example_string "Y" (or_intror (or_introl eq_refl))); reflexivity|constructor].
Qed.
Example C75_nonvacuous : exists N st ps idx x gs ph, N = 4%nat /\ qite_run PropSQ.isort PropAnsatz.tsort lsq1 (fun _ _ => ([], mzero)) qite_example = Ok (st, None) /\ Trajectory qite_example [[gY 0]] N st ps idx x gs ph.
Proof.
  assert (A1 : Cabs C1 = 1) by (unfold Cabs, Cnorm2; cbn; replace (1 * 1 + 0 * 0) with 1 by ring; apply sqrt_1).
  destruct (C75_run PropSQ.isort PropAnsatz.tsort lsq1 (fun _ _ => ([], mzero)) qite_example [[gY 0]]) as (N & st & ps & idx & x & gs & ph & SN & E & T & _).
  - exact example_ready.
  - reflexivity.
  - exact lsq1_ok.
  - reflexivity.
  - cbn. lra.
  - cbn. lra.
  - cbn [qi_db qi_ham qite_example]. unfold coefficient_sum, Rsum. cbn [fold_right fst]. rewrite A1, Rabs_right; lra.
  - exists N, st, ps, idx, x, gs, ph. split; [|split; assumption]. unfold StepCount in SN. cbn [qi_beta qi_db qite_example] in SN. replace (1 / (1 / 4)) with (INR 4) in SN by (cbn; field). destruct SN as (S1 & S2). apply INR_le in S1. rewrite <- S_INR in S2. apply INR_lt in S2. lia.
Qed.
