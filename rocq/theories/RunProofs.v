(** Proofs about the complete runs of UCCN-VQE and UCCN-PQE. *)
From Coq Require Import Reals String List Arith Bool Lia Lra.
From Verif Require Import CBase Result Bits Spec OpSpec GateModel ComputerModel SafeProofs LibProofs CleanProofs SimProofs CircuitModel OperatorModel MeasureModel MeasureProofs SQSpec SQModel SQPoolModel PyModel PyApply CompactModel CompactApply ExpSpec ExpProofs AnsatzSpec AnsatzModel AnsatzProofs DiisModel PropDiis ResModel RunModel GradModel GradSpec GradCalc GradProofs GradAnsatz PropOperator PropMeasure PropAnsatz PropGrad PropRes.
Import ListNotations.
Local Open Scope nat_scope.

(** ---- the ansatz at zero amplitudes ---- *)
Lemma sharp_zero : sharp_angle 0.
Proof. unfold sharp_angle. rewrite cos_0, sin_0. split; [right; unfold thr; rewrite Rabs_R1; lra|now left]. Qed.
Lemma usable_zero s n top t : Usable s n top t -> Usable s n top 0.
Proof.
  intros (a & P & H & E & HS & BP & BH & HC). exists a, P, H. repeat (split; [assumption|]). destruct (compact s); [|now left]. destruct HC as (HC & _). split; [exact HC|]. intros k _. replace (0 * a / 2 ^ k)%R with 0%R by (unfold Rdiv; ring). apply sharp_zero.
Qed.
Lemma exp_zero c A psi phi : c = C0 -> is_exp c A psi phi -> phi == psi.
Proof.
  intros -> H I. assert (P : forall n, exp_partial C0 A psi I n = psi I).
  { induction n as [|n IH]; [unfold exp_partial; cbn; apply C_ext; cbn; field|]. rewrite partial_S, IH. cbn [Cpow]. apply C_ext; cbn; ring. }
  destruct (H I) as (H1 & H2). apply C_ext; [apply (UL_sequence _ _ _ H1)|apply (UL_sequence _ _ _ H2)]; (eapply Un_cv_ext; [intros n; rewrite P; reflexivity|]); apply cv_const.
Qed.
Lemma exp_ext c A psi psi' phi : (forall a b, a == b -> A a == A b) -> psi == psi' -> is_exp c A psi phi -> is_exp c A psi' phi.
Proof.
  intros HA HP H I. assert (P : forall n, exp_partial c A psi' I n = exp_partial c A psi I n).
  { intros n. unfold exp_partial. apply Csum_ext. intros k _. f_equal. clear - HA HP. revert I. induction k as [|k IH]; intros I; [symmetry; apply HP|]. cbn [Nat.iter]. apply HA. exact IH. }
  destruct (H I) as (H1 & H2). split; (eapply Un_cv_ext; [intros n; rewrite P; reflexivity|]); assumption.
Qed.
Lemma product_zero l : Forall (fun x => fst x = C0) l -> forall psi phi, exp_product l psi phi -> phi == psi.
Proof.
  induction 1 as [|(c, A) l H _ IH]; intros psi phi HP; [exact HP|]. destruct HP as (chi & H1 & H2). cbn [fst] in H. apply exp_zero in H1; [|exact H]. eapply seq_trans; [apply (IH _ _ H2)|exact H1].
Qed.
Lemma factors_zero qe pl tops : Forall (fun x => fst x = C0) (factors qe pl tops (repeat 0%R (length tops))).
Proof. unfold factors. induction tops as [|t r IH]; cbn [length repeat combine map]; constructor; [reflexivity|exact IH]. Qed.
Lemma steps_zero m l : Forall (fun x : C * (state -> state) => fst x = C0) l -> Forall (fun x => fst x = C0) (trotter_steps m l).
Proof.
  intros F. unfold trotter_steps. set (g := map _ l). assert (G : Forall (fun x : C * (state -> state) => fst x = C0) g). { apply Forall_map. eapply Forall_impl; [|exact F]. intros (c, A) H. cbn [fst snd] in *. rewrite H. apply C_ext; cbn; ring. }
  clearbody g. induction m as [|m IH]; [constructor|]. cbn [repeat concat]. apply Forall_app. now split.
Qed.

(** ---- the energy that the solvers see ---- *)
Definition product_of (s : ucc) (ts : list R) : list (C * (state -> state)) :=
  let l := factors (qubit_excitations s) (pool s) (tops s) ts in if compact s then l else trotter_steps (trotter_number s) l.
Definition parallel_ok (n : nat) (p : option schedule) (h : qop) : Prop :=
  match p with None => True | Some sched => legal_schedule sched /\ 1 <= n /\ Forall (fun t => Nat.even (count_Y (snd t)) = true) h end.
Lemma energy_value L o s n ts : legal_sort (srt L) -> legal_term_sort (sort L) -> parallel_ok n (par L) (ham s) -> fast o = true ->
  wf_computer (init s) -> nqubit (init s) = n -> Applicable n (Uprep s) -> Hamiltonian n (ham s) -> pool_type s <> "sa_SD"%string -> (compact s = false -> 1 <= trotter_number s) ->
  length ts = length (tops s) -> Forall (fun x => Usable s n (fst x) (snd x)) (combine (tops s) ts) ->
  exists U, build_Uvqc (srt L) (sort L) s (Some (map RtoC ts)) = Ok (Uprep s ++ U)%list /\ applicable n U /\ (forall psi, exp_product (product_of s ts) psi (circ_act U psi)) /\
    energy_of L o s ts = Ok (energy n (op_act (ham s)) (circ_act U (reference s))).
Proof.
  intros HS HT HP HF W N AP HH Nt T1 LL F. destruct (ansatz_built (srt L) (sort L) s n ts HS HT Nt T1 LL F) as (U & EU & AU & HU). exists U.
  assert (EB : build_Uvqc (srt L) (sort L) s (Some (map RtoC ts)) = Ok (Uprep s ++ U)%list) by (unfold build_Uvqc; cbn [amplitudes]; rewrite EU; reflexivity).
  split; [exact EB|]. split; [exact AU|]. split; [exact HU|].
  destruct (sim_apply (init s) (Uprep s ++ U) W) as (psi & Ep & Wp & Np & Pp); [rewrite N; now apply applicable_app|]. fold (psi_of psi) in Pp. fold (psi_of (init s)) in Pp. rewrite circ_act_app in Pp. fold (reference s) in Pp. apply state_eq in Pp.
  unfold energy_of. rewrite HF. unfold energy_feval. rewrite EB. cbn [bind]. rewrite Ep. cbn [bind].
  destruct (par L) as [sched|] eqn:EPar; cbn [parallel_ok] in HP.
  - destruct HP as (HL & Hn & HY). rewrite (C20_direct_op_exp_val_even_Y_partial sched psi (ham s) HL Wp); [cbn [bind fst]; rewrite Np, N, <- Pp; reflexivity|lia|].
    unfold Hamiltonian in HH. unfold Terms. rewrite Forall_forall in HH, HY |- *. intros t It. rewrite Np, N. split; [apply HH, It|apply HY, It].
  - destruct (C19_direct_op_exp_val_partial psi (ham s) Wp) as (q & Eq & _); [rewrite Np, N; now apply ham_applicable|]. rewrite Eq. cbn [bind fst]. rewrite Np, N, <- Pp. reflexivity.
Qed.

(** ---- the quasi-Newton solver ---- *)
Lemma step_inv ls md u st st' d : jacobi_step ls md (fun _ => u) st = Ok st' -> length u = d -> length (DiisModel.tamps st) = d -> Forall (fun v => length v = d) (t_hist st) -> t_hist st <> [] ->
  length (DiisModel.tamps st') = d /\ Forall (fun v => length v = d) (t_hist st') /\ t_hist st' <> [].
Proof.
  unfold jacobi_step. intros E Lu Lt F NE. set (t1 := vzip Rplus (DiisModel.tamps st) u) in *. assert (L1 : length t1 = d) by (unfold t1; rewrite vzip_len; lia).
  assert (F1 : Forall (fun v => length v = d) (t_hist st ++ [t1])) by (apply Forall_app; split; [exact F|constructor; [exact L1|constructor]]).
  destruct (Nat.leb 2 md); [|injection E as <-; cbn [DiisModel.tamps t_hist]; split; [exact L1|split; [exact F1|now destruct (t_hist st)]]].
  unfold diis in E. set (td := (t_hist st ++ [t1])%list) in *. assert (NE2 : trim md td td <> []) by (unfold trim; assert (LT : 2 <= length td) by (unfold td; rewrite app_length; cbn [length]; destruct (t_hist st); [congruence|cbn [length]; lia]); destruct td as [|a [|b l]]; cbn [length] in LT; try lia; destruct (md <? length (a :: b :: l)); cbn [tl]; discriminate).
  assert (F2 : Forall (fun v => length v = d) (trim md td td)) by (unfold trim; destruct (md <? length td); [destruct td; [constructor|exact (Forall_inv_tail F1)]|exact F1]).
  cbv zeta in E. destruct (_ <? _); [discriminate|]. destruct (Nat.eqb _ 0); [discriminate|]. destruct (Rltb _ _); [|discriminate]. cbn [bind fst snd] in E. injection E as <-. cbn [DiisModel.tamps t_hist].
  split; [|split; [exact F2|exact NE2]]. apply C45_combination; [exact F2|]. destruct (trim md td td); [congruence|cbn; lia].
Qed.
Lemma loop_inv ls md direction en thresh d : (forall t u, direction t = Ok u -> length (fst u) = d) -> forall fuel k Ek st r,
  length (DiisModel.tamps st) = d -> Forall (fun v => length v = d) (t_hist st) -> t_hist st <> [] -> (match Ek with None => True | Some E => en (DiisModel.tamps st) = Ok E end) ->
  solver_loop ls md direction en thresh fuel k Ek st = Ok r ->
  length (DiisModel.tamps (snd (fst r))) = d /\ (match fst (fst r) with None => Ek = None /\ fuel = 0 | Some E => en (DiisModel.tamps (snd (fst r))) = Ok E end) /\ k <= snd r <= k + fuel /\
  (0 < fuel -> k < snd r) /\ (snd r < k + fuel -> exists t_old u, length t_old = d /\ direction t_old = Ok u /\ (snd u < thresh)%R).
Proof.
  intros HD. induction fuel as [|f IH]; intros k Ek st r Lt F NE HE E; cbn [solver_loop] in E.
  - injection E as <-. cbn [fst snd]. split; [exact Lt|]. split; [destruct Ek; auto|]. lia.
  - destruct (direction _) as [u|] eqn:EU; [|discriminate]. cbn [bind] in E. destruct (jacobi_step _ _ _ _) as [st'|] eqn:ES; [|discriminate]. cbn [bind] in E. destruct (en (DiisModel.tamps st')) as [E1|] eqn:EE; [|discriminate]. cbn [bind] in E.
    destruct (step_inv _ _ _ _ _ d ES (HD _ _ EU) Lt F NE) as (Lt' & F' & NE'). destruct (Rltb_spec (snd u) thresh) as [HL|HL].
    + injection E as <-. cbn [fst snd]. split; [exact Lt'|]. split; [exact EE|]. split; [lia|]. split; [lia|]. intros _. now exists (DiisModel.tamps st), u.
    + destruct (IH (S k) (Some E1) st' r Lt' F' NE' EE E) as (G1 & G2 & G3 & G4 & G5). split; [exact G1|]. split; [destruct (fst (fst r)); [exact G2|destruct G2; discriminate]|]. split; [lia|]. split; [lia|]. intros Hk. apply G5. lia.
Qed.
Lemma quasi_newton_ok L o direction en t0 d r : (forall t u, direction t = Ok u -> length (fst u) = d) -> length t0 = d -> quasi_newton L o direction en t0 = Ok r ->
  length (snd (fst r)) = d /\ en (snd (fst r)) = Ok (fst (fst r)) /\ 1 <= snd r <= opt_maxiter o /\
  (snd r < opt_maxiter o -> exists t_old u, length t_old = d /\ direction t_old = Ok u /\ (snd u < opt_thresh o)%R).
Proof.
  intros HD L0 E. unfold quasi_newton in E. destruct (en t0) as [E0|]; [|discriminate]. cbn [bind] in E. destruct (solver_loop _ _ _ _ _ _ _ _ _) as [q|] eqn:EL; [|discriminate]. cbn [bind] in E.
  destruct (loop_inv (lstsq L) (diis_max_dim o) direction en (opt_thresh o) d HD (opt_maxiter o) 0 None (jacobi_init t0) q) as (G1 & G2 & G3 & G4 & G5); [exact L0|repeat constructor; exact L0|discriminate|exact Logic.I|exact EL|]. destruct (fst (fst q)) as [Ek|] eqn:EQ; [|discriminate]. injection E as <-. cbn [fst snd].
  split; [exact G1|]. split; [exact G2|]. split; [|exact G5]. destruct (opt_maxiter o) eqn:EM; [|lia]. exfalso. cbn [solver_loop] in EL. injection EL as <-. discriminate EQ.
Qed.
Lemma mpdenom_length rf orb_e pl tops rs out : get_res_over_mpdenom rf orb_e pl tops rs = Ok out -> length out = length tops.
Proof.
  unfold get_res_over_mpdenom. intros E.
  assert (G : forall l acc out, foreach l (fun (mm : nat * nat) (out : list C) =>
    do e <- pool_item pl (snd mm); do ca <- excitation_part rf (snd e); do ea <- energy_sum orb_e (snd ca); do ec <- energy_sum orb_e (fst ca);
    do r <- py_get rs (fst mm); Ok (out ++ [cdiv r (ea - ec)%C])%list) acc = Ok out -> length out = length acc + length l).
  { induction l as [|x l IH]; intros acc out' E'; cbn [foreach] in E'; [injection E' as <-; cbn; lia|]. destruct (pool_item _ _); [|discriminate]. cbn [bind] in E'. destruct (excitation_part _ _); [|discriminate]. cbn [bind] in E'. destruct (energy_sum _ _); [|discriminate]. cbn [bind] in E'. destruct (energy_sum _ _); [|discriminate]. cbn [bind] in E'. destruct (py_get _ _); [|discriminate]. cbn [bind] in E'. apply IH in E'. rewrite app_length in E'. cbn [length] in *. lia. }
  apply G in E. rewrite combine_length, seq_length, Nat.min_id in E. exact E.
Qed.
