(** C65: UCCN-PQE residuals.  C66: orbital energies and Moller-Plesset denominators. *)
From Coq Require Import Reals String List Arith NArith Bool Lia Lra Sorted FunctionalExtensionality.
From Verif Require Import CBase Result Bits Spec OpSpec GateModel ComputerModel SafeProofs LibProofs CleanProofs SimProofs CircuitModel PauliProofs OperatorModel MeasureModel MeasureProofs SQSpec SQModel SQPoolModel SQPoolOps PyModel PyApply CompactModel CompactAct CompactApply CompactProofs ExpSpec ExpProofs ExpCircuit FermiProofs AnsatzSpec AnsatzModel AnsatzProofs GradModel GradSpec GradCalc GradProofs GradAnsatz GradExample ResModel ResProofs PropOperator PropMeasure PropAnsatz PropGrad.
From Verif Require PropPy PropSQ StateProofs.
Import ListNotations.
Local Open Scope nat_scope.

(** D is the basis state with the occupations of the list *)
Definition Occupations (ref : list nat) (D : nat) : Prop := forall q, bit D q = negb (Nat.eqb (nth q ref 0) 0).
(** P empty and H occupied in the reference *)
Definition Excites (ref : list nat) (P H : list nat) : Prop :=
  Forall (fun p => p < length ref /\ nth p ref 0 = 0) P /\ Forall (fun p => p < length ref /\ nth p ref 0 <> 0) H.
(** a pool entry a (T - T^dagger), T an excitation or a de-excitation of the reference *)
Definition ExcitationEntry (ref : list nat) (e : C * list fterm) : Prop := exists a P H,
  e = (C1, Antihermitian a P H) /\ Standard a P H (Antihermitian a P H) /\ (Excites ref P H \/ Excites ref H P).
(** the operator takes the determinant D to phase times the determinant I *)
Definition TakesTo (qe : bool) (o : list fterm) (D I : nat) (phase : C) : Prop := act qe o (ket D) == (fun J => phase * ket I J)%C.

(** the entries after jw_transform has simplified them *)
Definition simplified (e e' : C * list fterm) : Prop := exists a P H, e = (C1, Antihermitian a P H) /\ (e' = e \/ e' = (C1, Antihermitian (- a) H P)).
Lemma simplified_act qe e e' : simplified e e' -> act qe (snd e') = act qe (snd e).
Proof. intros (a & P & H & -> & [-> | ->]); [reflexivity|]. cbn [snd]. symmetry. apply pair_swap. Qed.
Lemma entry_ok srt qe ref D e : legal_sort srt -> length ref <= 64 -> is_det ref D -> ExcitationEntry ref e -> forall refprep, build_refprep ref = Ok refprep ->
  exists o' I ph, excited_entry srt qe ref refprep (snd e) = Ok (o', (I, ph)) /\ simplified e (fst e, o') /\ TakesTo qe (snd e) D I ph /\ I < 2 ^ length ref /\ I <> D /\ exists x : R, ph = RtoC x /\ exists a P H, snd e = Antihermitian a P H /\ Rabs x = Rabs a.
Proof.
  intros HS L HD (a & P & H & -> & (_ & HE & L6 & Ha) & HX) refprep ER. cbn [snd fst]. pose proof HE as (Ne & LL & DP & DH & _). assert (NeH : H <> []) by (destruct H; [destruct P; [contradiction|discriminate]|discriminate]).
  pose proof (SQPoolOps.dsorted_nodup _ DP) as NP. pose proof (SQPoolOps.dsorted_nodup _ DH) as NH.
  assert (NPH : NoDup (P ++ H)). { destruct HX as [HX|HX]; [now apply (nodup_both ref)|]. eapply Permutation.Permutation_NoDup; [apply Permutation.Permutation_app_comm|]. now apply (nodup_both ref). }
  assert (AS : act_set P H D = true) by (destruct HX as [HX|HX]; [|rewrite act_set_swap]; now apply (excites_set ref)).
  assert (BPH : Forall (fun p => p < length ref) (P ++ H)). { apply Forall_app. destruct HX as [(A & B)|(A & B)]; split; (eapply Forall_impl; [|eassumption]); intros p Hp; apply Hp. }
  set (J := flips (P ++ H) D). unfold excited_entry.
  assert (ED : (do ca <- excitation_part ref (Antihermitian a P H); excited_det ref (fst ca) (snd ca)) = Ok J).
  { unfold excitation_part. cbn [Antihermitian py_get nth_error bind]. unfold fann, fcre. cbn [fst snd].
    destruct (rev H) as [|x r] eqn:ERv; [apply (f_equal (@rev nat)) in ERv; rewrite rev_involutive in ERv; contradiction|]. assert (IxH : In x H) by (apply in_rev; rewrite ERv; now left). cbn [bind].
    assert (Lx : x < length ref) by (rewrite Forall_forall in BPH; apply BPH, in_or_app; now right). unfold py_get. rewrite (nth_error_nth' ref 0 Lx). cbn [bind].
    destruct HX as [HX|HX]; destruct (Nat.eqb_spec (nth x ref 0) 0) as [Z|Z]; cbn [fst snd].
    - exfalso. destruct HX as (_ & B). rewrite Forall_forall in B. now apply (proj2 (B x IxH)).
    - now apply excited_det_ok.
    - rewrite (excited_det_ok ref D H P) by assumption. f_equal. unfold J. apply flips_perm, Permutation.Permutation_app_comm.
    - exfalso. destruct HX as (A & _). rewrite Forall_forall in A. now apply Z, (proj2 (A x IxH)). }
  destruct (excitation_part ref (Antihermitian a P H)) as [ca|] eqn:EC; [|discriminate]. cbn [bind] in ED |- *. rewrite ED. cbn [bind].
  rewrite StateProofs.refprep_eq in ER. injection ER as <-.
  destruct (sim_apply (new_computer (length ref)) (StateProofs.xgates 0 ref) (new_computer_wf _) (StateProofs.xgates_applicable _ ref 0 (le_n _))) as (qc & E1 & W1 & N1 & A1). rewrite E1. cbn [bind].
  destruct (AnsatzJW.jw_pair_exists qe P H Ne (excitable_ne _ _ HE) DP DH ltac:(lia)) as (q & JP). assert (L12 : length P + length H <= 12) by lia. pose proof (pow_ranks _ L12) as PR.
  rewrite (AnsatzJW.jp_jw _ _ _ _ JP srt a HS) by lra. cbn [bind fst snd]. change (nqubit (new_computer (length ref))) with (length ref) in N1.
  set (K := op_mult_coeffs q (RtoC a)). assert (CK : OperatorProofs.canonical_op K) by (unfold K; apply AnsatzJW.mult_canonical; apply JP).
  assert (RK : OperatorProofs.in_reg (length ref) K). { apply Forall_app in BPH. unfold K, op_mult_coeffs, OperatorProofs.in_reg. apply Forall_map. cbn [snd]. apply (AnsatzJW.jp_reg _ _ _ _ JP); apply BPH. }
  destruct (C18_apply_operator_partial qc K W1) as (q2 & E2 & W2 & N2 & A2); [rewrite N1; now apply pauli_applicable|]. rewrite E2. cbn [bind].
  assert (PS : psi_of qc = ket D).
  { apply state_eq. eapply seq_trans; [exact A1|]. eapply seq_trans; [apply circ_act_ext; intros I; apply new_computer_ket0|]. intros I. rewrite StateProofs.xgates_act, StateProofs.flips_ket. f_equal. apply bits_ext. intros k. rewrite StateProofs.bit_flips, (HD k), Nat.sub_0_r. unfold bit at 1. rewrite Nat.bits_0. cbn [Nat.leb andb]. apply xorb_false_l. }
  destruct (excite_ket qe a P H D Ne NeH LL DP DH NPH AS) as (k & Hk & EK). fold J in EK.
  assert (V : psi_of q2 J = RtoC (a * k)). { rewrite (A2 J), PS. unfold K. rewrite AnsatzJW.mult_act, (AnsatzJW.jp_act _ _ _ _ JP), <- AnsatzGen.act_pair, EK. unfold ket. rewrite Nat.eqb_refl. apply C_ext; cbn; ring. }
  assert (LJ : J < 2 ^ length ref) by (apply flips_small; [exact BPH|now apply det_small]).
  assert (LC : J < length (coeff q2)) by (destruct W2 as (-> & _); unfold nbasis; rewrite N2, N1; exact LJ).
  unfold py_get. rewrite (nth_error_nth' (coeff q2) C0 LC). cbn [bind]. change (nth J (coeff q2) C0) with (psi_of q2 J). rewrite V.
  eexists _, J, _. split; [reflexivity|]. split; [|split; [exact EK|split; [exact LJ|split]]].
  - exists a, P, H. split; [reflexivity|]. destruct (pair_ltb (P, H) (H, P)); [now left|now right].
  - intros Q. destruct P as [|c0 cr]; [contradiction|]. apply (f_equal (fun I => bit I c0)) in Q. unfold J in Q. rewrite CompactAct.bit_flips, (proj2 (mem_In c0 _)) in Q; [now destruct (bit D c0)|now left|exact NPH].
  - exists (a * k)%R. split; [reflexivity|]. exists a, P, H. split; [reflexivity|]. rewrite Rabs_mult. destruct Hk as [-> | ->]; [rewrite Rabs_R1|rewrite (Rabs_left (-1)) by lra]; ring.
Qed.
(** fill_excited_dets lists, for every operator of the pool, the determinant that the operator
    takes the reference to, with its phase; it leaves the meaning of the operators unchanged *)
Theorem C65_excited_determinants : forall srt, legal_sort srt -> forall qe ref refprep pool, build_refprep ref = Ok refprep -> length ref <= 64 -> Forall (ExcitationEntry ref) pool ->
  exists D pool' dets, Occupations ref D /\ fill_excited_dets srt qe ref refprep pool [] = Ok (pool', dets) /\ SameOps qe pool pool' /\
    Forall2 (fun e d => TakesTo qe (snd e) D (fst d) (snd d) /\ fst d < 2 ^ length ref /\ fst d <> D /\ Im (snd d) = 0%R /\ forall a P H, snd e = Antihermitian a P H -> Cabs (snd d) = Rabs a) pool dets /\
    Forall2 simplified pool pool'.
Proof.
  intros srt HS qe ref refprep pool ER L F. destruct (start_det ref L) as (_ & D & _ & _ & _ & HD). exists D.
  enough (G : forall st, exists pool' dets, foreach pool (fun e st => do r <- excited_entry srt qe ref refprep (snd e); Ok ((fst st ++ [(fst e, fst r)])%list, (snd st ++ [snd r])%list)) st = Ok ((fst st ++ pool')%list, (snd st ++ dets)%list) /\
    Forall2 (fun e d => TakesTo qe (snd e) D (fst d) (snd d) /\ fst d < 2 ^ length ref /\ fst d <> D /\ Im (snd d) = 0%R /\ forall a P H, snd e = Antihermitian a P H -> Cabs (snd d) = Rabs a) pool dets /\ Forall2 simplified pool pool').
  { destruct (G ([], [])) as (pool' & dets & E & G1 & G2). exists pool', dets. split; [exact HD|]. split; [exact E|]. split; [|split; [exact G1|exact G2]].
    clear - G2. induction G2 as [|e e' p p' H _ IH]; [constructor|]. constructor; [|exact IH]. split; [destruct H as (a & P & H & -> & [-> | ->]); reflexivity|]. intros psi I. now rewrite (simplified_act qe e e' H). }
  induction F as [|e pool He _ IH]; intros st; [exists [], []; rewrite !app_nil_r; destruct st; split; [reflexivity|split; constructor]|].
  cbn [foreach]. destruct (entry_ok srt qe ref D e HS L HD He refprep ER) as (o' & I & ph & E & S & T & LI & NI & x & -> & a & P & H & Ee & Ex). rewrite E. cbn [bind fst snd].
  match goal with |- context [foreach pool _ ?st1] => destruct (IH st1) as (pool' & dets & E' & G1 & G2) end. cbn [fst snd] in E'. rewrite E'. exists ((fst e, o') :: pool'), ((I, RtoC x) :: dets). split; [rewrite <- !app_assoc; reflexivity|]. split; [|constructor; assumption].
  constructor; [|exact G1]. cbn [fst snd]. split; [exact T|]. split; [exact LI|]. split; [exact NI|]. split; [reflexivity|]. intros a' P' H' E2. rewrite Ee in E2. unfold Antihermitian in E2. injection E2 as Ea _ _ _ _ _. subst a'. rewrite <- Ex. apply Cabs_RtoC.
Qed.
Print Assumptions C65_excited_determinants.
(** the object after initialize_ansatz and fill_excited_dets *)
Definition pqe_object (s : ucc) (pool' : sqpool) : ucc :=
  mkUcc (init s) (Uprep s) (ham s) (pool_type s) (compact s) (qubit_excitations s) (trotter_number s) pool' (fst (initialize_ansatz (pool s) [] [])) (snd (initialize_ansatz (pool s) [] [])).
(** the exponentials of the ansatz with one amplitude for every operator of the pool *)
Definition pqe_factors (s : ucc) (ts : list R) : list (C * (state -> state)) :=
  let l := factors (qubit_excitations s) (pool s) (seq 0 (length (pool s))) ts in if compact s then l else trotter_steps (trotter_number s) l.
(** r = <U mu|H|U D> for U the product of the exponentials l *)
Definition Projection (n : nat) (H : state -> state) (l : list (C * (state -> state))) (D : nat) (mu : state) (r : C) : Prop :=
  exists phi0 phimu, exp_product l (ket D) phi0 /\ exp_product l mu phimu /\ r = inner n phimu (H phi0).

Lemma sharp_neg x : sharp_angle x -> sharp_angle (- x).
Proof. unfold sharp_angle. rewrite cos_neg, sin_neg, Rabs_Ropp. intros (A & [B|B]); split; try exact A; [left; lra|now right]. Qed.
Lemma forall2_nth {A B} (R : A -> B -> Prop) l l' : Forall2 R l l' -> forall k x, nth_error l k = Some x -> exists y, nth_error l' k = Some y /\ R x y.
Proof. induction 1 as [|a b l l' Hab _ IH]; intros k x E; [destruct k; discriminate|]. destruct k as [|k]; [injection E as <-; now exists b|]. exact (IH k x E). Qed.
Lemma pool_item_nth pl top e : pool_item pl top = Ok e <-> nth_error pl top = Some e.
Proof. unfold pool_item, vget. destruct (nth_error pl top); split; congruence. Qed.
Lemma usable_after ref s pool' n top t : Forall (ExcitationEntry ref) (pool s) -> Forall2 simplified (pool s) pool' -> Usable s n top t -> Usable (pqe_object s pool') n top t.
Proof.
  intros FE FS (a & P & H & EP & HS & BP & BH & HC). apply pool_item_nth in EP. destruct (forall2_nth _ _ _ FS top _ EP) as (e' & E' & a1 & P1 & H1 & E1 & HQ).
  assert (EQ : a1 = a /\ P1 = P /\ H1 = H) by (unfold Antihermitian in E1; injection E1 as -> -> -> _ _ _; repeat split; reflexivity). destruct EQ as (-> & -> & ->). clear E1.
  assert (DJ : Supported H P). { rewrite Forall_forall in FE. destruct (FE _ (nth_error_In _ _ EP)) as (a2 & P2 & H2 & E2 & _ & HX). unfold Antihermitian in E2. injection E2 as _ EP2 EH2 _ _ _. subst P2 H2. intros q p z Q1 Q2. subst.
    destruct HX as [(A & B)|(A & B)]; rewrite Forall_forall in *; specialize (A q); specialize (B q); cbn [In] in A, B; [apply (proj2 (B ltac:(tauto)))|apply (proj2 (B ltac:(tauto)))]; apply A; tauto. }
  destruct HQ as [-> | ->].
  - exists a, P, H. split; [now apply pool_item_nth|]. split; [exact HS|]. split; [exact BP|]. split; [exact BH|exact HC].
  - exists (- a)%R, H, P. split; [now apply pool_item_nth|]. destruct HS as (_ & HE & L6 & Ha). split. { split; [reflexivity|]. split; [now apply excitable_swap|]. split; [destruct HE as (_ & <- & _); exact L6|now rewrite Rabs_Ropp]. }
    split; [exact BH|]. split; [exact BP|]. cbn [compact qubit_excitations pqe_object]. destruct (compact s).
    + destruct HC as (_ & HC). split; [now right|]. destruct HE as (_ & <- & _). intros k Hk. replace (t * - a / 2 ^ k)%R with (- (t * a / 2 ^ k))%R by (unfold Rdiv; ring). apply sharp_neg, HC, Hk.
    + unfold Sizable in *. replace (t * - a)%R with (- (t * a))%R by ring. now rewrite Rabs_Ropp.
Qed.
Lemma forall2_len {A B} (R : A -> B -> Prop) l l' : Forall2 R l l' -> length l = length l'.
Proof. induction 1; cbn [length]; congruence. Qed.
Lemma factors_same qe pl pl' tops ts : Forall2 simplified pl pl' -> Forall (fun top => top < length pl) tops -> factors qe pl' tops ts = factors qe pl tops ts.
Proof.
  intros F. revert ts. induction tops as [|top tops IH]; intros ts FT; [reflexivity|]. destruct ts as [|t ts]; [reflexivity|]. unfold factors in *. cbn [combine map fst snd]. rewrite IH by exact (Forall_inv_tail FT). f_equal. f_equal.
  unfold op_at. destruct (nth_error pl top) as [e|] eqn:E; [|apply nth_error_None in E; pose proof (Forall_inv FT) as Q; cbn beta in Q; lia].
  destruct (forall2_nth _ _ _ F top e E) as (e' & E' & S). rewrite (nth_error_nth pl top (C0, []) E), (nth_error_nth pl' top (C0, []) E'). now apply simplified_act.
Qed.
Lemma factors_real n s top ts : length ts = length top -> Forall (fun x => Usable s n (fst x) (snd x)) (combine top ts) -> Forall real_factor (factors (qubit_excitations s) (pool s) top ts).
Proof.
  revert ts. induction top as [|x top IH]; intros [|t ts] L F; try discriminate; [constructor|]. unfold factors in *. cbn [combine map fst snd] in *. constructor; [|apply IH; [now injection L|exact (Forall_inv_tail F)]].
  destruct (usable_at _ _ _ _ (Forall_inv F)) as (_ & a & P & H & EO & (_ & HE & _) & _). split; [reflexivity|]. cbn [fst snd] in *. rewrite EO. now apply excitable_two_level.
Qed.
Lemma steps_real m l : Forall real_factor l -> Forall real_factor (trotter_steps m l).
Proof.
  intros F. unfold trotter_steps. set (g := map _ l). assert (G : Forall real_factor g). { apply Forall_map. eapply Forall_impl; [|exact F]. intros (c, A) (H1 & H2). split; [|exact H2]. cbn [fst snd] in *. cbn. rewrite H1. ring. }
  clearbody g. induction m as [|m IH]; [constructor|]. cbn [repeat concat]. apply Forall_app. now split.
Qed.
(** get_residual_vector: the residuals <Phi_mu|U^dagger H U|Phi_0>, or a ValueError if one of
    them is not real *)
Theorem C65_residuals_partial : forall srt sort, legal_sort srt -> legal_term_sort sort -> forall s ref refprep, let n := length ref in
  build_refprep ref = Ok refprep -> Uprep s = refprep -> n <= 64 -> pool_type s <> "sa_SD"%string -> (compact s = false -> 1 <= trotter_number s) -> Terms (Applicable n) (ham s) -> Forall (ExcitationEntry ref) (pool s) ->
  exists D pool' dets, Occupations ref D /\ fill_excited_dets srt (qubit_excitations s) ref refprep (pool s) [] = Ok (pool', dets) /\
  forall ts, length ts = length (pool s) -> Forall (fun x => Usable s n (fst x) (snd x)) (combine (seq 0 (length (pool s))) ts) ->
  exists rs, Forall2 (fun e r => Projection n (op_act (ham s)) (pqe_factors s ts) D (act (qubit_excitations s) (snd e) (ket D)) r) (pool s) rs /\
    (Hamiltonian n (ham s) -> Forall (fun t => Nat.even (count_Y (snd t)) = true) (ham s) -> Forall (fun r => Im r = 0%R) rs) /\
    forall noise_factor normal, let call := get_residual_vector srt sort (pqe_object s pool') n dets noise_factor normal (map RtoC ts) in
      (Forall (fun r => Im r = 0%R) rs -> (noise_factor <= 1e-12)%R -> call = Ok (rs, norm2 rs)) /\
      (Forall (fun r => Im r = 0%R) rs -> (1e-12 < noise_factor)%R -> exists rs', call = Ok (rs', norm2 rs') /\ length rs' = length rs /\ forall mu, mu < length rs -> nth mu rs' C0 = RtoC (normal mu (Re (nth mu rs C0)) noise_factor)) /\
      (Exists (fun r => Im r <> 0%R) rs -> call = Throw (PyError "ValueError")).
Proof.
  intros srt sort HS HT s ref refprep n ER EU Ln Nt T1 HH FE. destruct (C65_excited_determinants srt HS (qubit_excitations s) ref refprep (pool s) ER Ln FE) as (D & pool' & dets & HD & EF & _ & FD & FS). exists D, pool', dets. split; [exact HD|]. split; [exact EF|].
  intros ts L F. set (s' := pqe_object s pool'). set (N := length (pool s)) in *. assert (LP : length pool' = N) by (symmetry; apply (forall2_len _ _ _ FS)).
  assert (ET : tops s' = seq 0 N) by reflexivity.
  assert (FU : Forall (fun x => Usable s' n (fst x) (snd x)) (combine (tops s') ts)). { rewrite ET. eapply Forall_impl; [|exact F]. intros x Hx. now apply (usable_after ref). }
  assert (Lt : length ts = length (tops s')) by (rewrite ET, seq_length; exact L).
  destruct (ansatz_built srt sort s' n ts HS HT Nt T1 Lt FU) as (U & EC & AU & HU).
  assert (EL : (let l := factors (qubit_excitations s') (pool s') (tops s') ts in if compact s' then l else trotter_steps (trotter_number s') l) = pqe_factors s ts).
  { unfold pqe_factors. cbv zeta. change (qubit_excitations s') with (qubit_excitations s). change (compact s') with (compact s). change (trotter_number s') with (trotter_number s). change (pool s') with pool'. change (tops s') with (seq 0 N). rewrite (factors_same _ (pool s) pool'); [reflexivity|exact FS|]. apply Forall_forall. intros x Ix. apply in_seq in Ix. fold N. lia. }
  rewrite EL in HU.
  assert (RF : Forall real_factor (pqe_factors s ts)). { unfold pqe_factors. cbv zeta. fold N. assert (G : Forall real_factor (factors (qubit_excitations s) (pool s) (seq 0 N) ts)) by (apply (factors_real n); [rewrite seq_length; exact L|exact F]). destruct (compact s); [exact G|now apply steps_real]. }
  set (chi := op_act (ham s) (circ_act U (ket D))). set (w := circ_act (circuit_adjoint U) chi).
  set (rs := map (fun d => (w (fst d) * snd d)%C) dets).
  assert (PR : Forall2 (fun e r => Projection n (op_act (ham s)) (pqe_factors s ts) D (act (qubit_excitations s) (snd e) (ket D)) r) (pool s) rs).
  { unfold rs. clear - FD AU HU. induction FD as [|e d pl dets (T & LI & _ & R0 & _) _ IH]; cbn [map]; constructor; [|exact IH]. exists (circ_act U (ket D)), (circ_act U (act (qubit_excitations s) (snd e) (ket D))). split; [apply HU|]. split; [apply HU|]. fold chi.
    rewrite (inner_ext n (circ_act U (act (qubit_excitations s) (snd e) (ket D))) (fun J => snd d * circ_act U (ket (fst d)) J)%C chi chi); [| |apply seq_refl].
    - assert (E : inner n (fun J => snd d * circ_act U (ket (fst d)) J)%C chi = (Cconj (snd d) * inner n (circ_act U (ket (fst d))) chi)%C) by (unfold inner; rewrite <- Csum_mul_l; apply Csum_ext; intros I _; rewrite Cconj_mul; ring).
      rewrite E. replace (Cconj (snd d)) with (snd d) by (apply C_ext; cbn; [reflexivity|lra]). destruct AU as (A1 & _ & A3).
      rewrite (inner_conj n (circ_act U _)), (circ_inner_adjoint n U chi _ A1 A3), <- inner_conj. fold w. rewrite (inner_ket n (fst d) w LI). ring.
    - intros I. rewrite (circ_act_ext U _ (sscale (snd d) (ket (fst d))) T I). apply circ_act_scale. }
  exists rs. split; [exact PR|]. split.
  - intros HM HY. assert (HO : Forall (fun t => Im (fst t) = 0%R /\ Forall pauli_gate (snd t) /\ Nat.even (count_Y (snd t)) = true) (ham s)).
    { unfold Hamiltonian in HM. rewrite Forall_forall in *. intros t It. destruct (HM t It) as (H1 & H2). split; [exact H2|]. split; [apply (string_on n _ H1)|now apply HY]. }
    clearbody rs. clear - PR HO RF FD. revert dets FD. induction PR as [|e r pl rs (phi0 & phimu & E1 & E2 & ->) _ IH]; intros dets FD; [constructor|]. destruct dets as [|d dets]; [inversion FD|].
    assert (FD1 : (TakesTo (qubit_excitations s) (snd e) D (fst d) (snd d) /\ Im (snd d) = 0%R) /\ Forall2 (fun e d => TakesTo (qubit_excitations s) (snd e) D (fst d) (snd d) /\ fst d < 2 ^ length ref /\ fst d <> D /\ Im (snd d) = 0%R /\ forall a P H, snd e = Antihermitian a P H -> Cabs (snd d) = Rabs a) pl dets) by (inversion FD as [|? ? ? ? (H1 & _ & _ & H2 & _) H3]; subst; split; [split; assumption|exact H3]).
    destruct FD1 as ((T & R0) & FD2). constructor; [|exact (IH dets FD2)].
    apply real_inner; [|apply real_op; [exact HO|]; apply (real_product _ RF _ _ E1), real_ket]. apply (real_product _ RF _ _ E2). intros I. rewrite (T I). cbn. rewrite R0, (real_ket (fst d) I). ring.
  - intros noise normal. cbv zeta.
    assert (PS : exists q, apply_circuit (new_computer n) (Uprep s) = Ok q /\ wf_computer q /\ nqubit q = n /\ psi_of q = ket D).
    { rewrite EU. rewrite StateProofs.refprep_eq in ER. injection ER as <-. destruct (sim_apply (new_computer n) (StateProofs.xgates 0 ref) (new_computer_wf _) (StateProofs.xgates_applicable _ ref 0 (le_n _))) as (qc & E1 & W1 & N1 & A1). exists qc. split; [exact E1|]. split; [exact W1|]. split; [exact N1|].
      apply state_eq. eapply seq_trans; [exact A1|]. eapply seq_trans; [apply circ_act_ext; intros I; apply new_computer_ket0|]. intros I. rewrite StateProofs.xgates_act, StateProofs.flips_ket. f_equal. apply bits_ext. intros k. rewrite StateProofs.bit_flips, (HD k), Nat.sub_0_r. unfold bit at 1. rewrite Nat.bits_0. cbn [Nat.leb andb]. apply xorb_false_l. }
    destruct PS as (q0 & E0 & W0 & N0 & P0).
    destruct (sim_apply q0 U W0) as (q1 & E1 & W1 & N1 & A1); [now rewrite N0|]. fold (psi_of q1) in A1. fold (psi_of q0) in A1. rewrite P0 in A1. apply state_eq in A1.
    destruct (C18_apply_operator_partial q1 (ham s) W1) as (q2 & E2 & W2 & N2 & A2); [rewrite N1, N0; exact HH|]. rewrite A1 in A2. fold chi in A2. apply state_eq in A2.
    destruct (sim_apply q2 (circuit_adjoint U) W2) as (q3 & E3 & W3 & N3 & A3); [rewrite N2, N1, N0; now apply applicable_adjoint|]. fold (psi_of q3) in A3. fold (psi_of q2) in A3. rewrite A2 in A3. fold w in A3. apply state_eq in A3.
    unfold get_residual_vector. change (pool_type s') with (pool_type s) in *. rewrite (proj2 (String.eqb_neq _ _) Nt). unfold s' in EC |- *. rewrite EC. cbn [bind]. change (Uprep (pqe_object s pool')) with (Uprep s). change (ham (pqe_object s pool')) with (ham s). rewrite E0. cbn [bind]. rewrite E1. cbn [bind]. rewrite E2. cbn [bind]. rewrite E3. cbn [bind].
    set (vs := map (fun d => w (fst d)) dets).
    assert (FV : Forall2 (fun (d : nat * C) v => nth_error (coeff q3) (fst d) = Some v) dets vs).
    { assert (FL : Forall (fun d => fst d < 2 ^ n) dets) by (clear - FD; induction FD as [|e d pl dets (_ & H & _) _ IH]; constructor; assumption). unfold vs. clear - FL A3 W3 N3 N2 N1 N0. induction FL as [|d dets Hd _ IH]; cbn [map]; constructor; [|exact IH]. rewrite (nth_error_nth' (coeff q3) C0); [|destruct W3 as (-> & _); unfold nbasis; rewrite N3, N2, N1, N0; exact Hd]. f_equal. change (psi_of q3 (fst d) = w (fst d)). now rewrite A3. }
    assert (ERS : map (fun dv : nat * C * C => (snd dv * snd (fst dv))%C) (combine dets vs) = rs) by (unfold rs, vs; clear; induction dets as [|d dets IH]; [reflexivity|]; cbn [map combine fst snd]; now rewrite IH).
    assert (FR : Forall (fun r => Im r = 0%R) rs -> Forall2 (fun (d : nat * C) v => Im (v * snd d)%C = 0%R) dets vs). { unfold rs, vs. clear. intros F. induction dets as [|d dets IH]; cbn [map] in *; constructor; [exact (Forall_inv F)|apply IH; exact (Forall_inv_tail F)]. }
    split; [|split].
    + intros HR Hn. rewrite (elements_real noise normal _ dets vs FV (FR HR)), ERS. cbn [bind]. unfold draws. rewrite Rltb_false by lra. reflexivity.
    + intros HR Hn. rewrite (elements_real noise normal _ dets vs FV (FR HR)), ERS. cbn [bind]. unfold draws. rewrite Rltb_true by lra. eexists. split; [reflexivity|]. split; [now rewrite map_length, seq_length|]. intros mu Hmu. rewrite (nth_indep _ C0 (RtoC (normal 0 (Re (nth 0 rs C0)) noise))) by (now rewrite map_length, seq_length). rewrite (map_nth (fun k => RtoC (normal k (Re (nth k rs C0)) noise))), seq_nth by exact Hmu. reflexivity.
    + intros HX. rewrite (elements_complex noise normal _ dets vs FV); [reflexivity|]. apply Exists_exists in HX. destruct HX as (r & Ir & Hr). rewrite <- ERS in Ir. apply in_map_iff in Ir. destruct Ir as (dv & <- & Id). apply Exists_exists. exists dv. split; assumption.
Qed.
Print Assumptions C65_residuals_partial.
Theorem C65_spin_adapted_raises : forall srt sort s n dets noise_factor normal ts, pool_type s = "sa_SD"%string -> get_residual_vector srt sort s n dets noise_factor normal ts = Throw (PyError "ValueError").
Proof. intros. unfold get_residual_vector. rewrite H. reflexivity. Qed.
Print Assumptions C65_spin_adapted_raises.
(** an operator that neither excites nor de-excites the reference is rejected *)
Lemma set_orbitals_destroyed val l : forall x, NoDup l -> (x < 2 ^ 64)%N -> Forall (fun p => p < 64) l -> (exists p, In p l /\ bit (N.to_nat x) p = val) -> exists x', set_orbitals val l x = Ok (x', true) /\ (x' < 2 ^ 64)%N.
Proof.
  induction l as [|p l IH]; intros x N Hx F (p0 & Ip & B0); [destruct Ip|]. cbn [set_orbitals].
  apply NoDup_cons_iff in N. destruct N as (Np & N). pose proof (Forall_inv F) as Hp. pose proof (Forall_inv_tail F) as F'.
  destruct (PropPool.C36_basis_bits x p Hx Hp) as (HG & HS & _). rewrite HG. cbn [bind]. destruct (Bool.eqb (bit (N.to_nat x) p) val) eqn:E; [exists x; split; [reflexivity|exact Hx]|].
  destruct (HS val) as (x1 & E1 & B1 & U1). rewrite E1. cbn [bind]. apply IH; try assumption. destruct Ip as [-> |Ip]; [rewrite B0, Bool.eqb_reflx in E; discriminate|]. exists p0. split; [exact Ip|]. rewrite U1, bit_upd. destruct (Nat.eqb_spec p0 p) as [-> |_]; [contradiction|exact B0].
Qed.
Lemma set_orbitals_total val l : forall x, (x < 2 ^ 64)%N -> Forall (fun p => p < 64) l -> exists x' b, set_orbitals val l x = Ok (x', b) /\ (x' < 2 ^ 64)%N.
Proof.
  induction l as [|p l IH]; intros x Hx F; [exists x, false; split; [reflexivity|exact Hx]|]. cbn [set_orbitals]. destruct (PropPool.C36_basis_bits x p Hx (Forall_inv F)) as (HG & HS & _). rewrite HG. cbn [bind].
  destruct (Bool.eqb (bit (N.to_nat x) p) val); [exists x, true; split; [reflexivity|exact Hx]|]. destruct (HS val) as (x1 & E1 & B1 & _). rewrite E1. cbn [bind]. apply IH; [exact B1|exact (Forall_inv_tail F)].
Qed.
Lemma excited_det_destroyed ref P H : length ref <= 64 -> NoDup P -> NoDup H -> (forall k, In k P -> ~ In k H) -> Forall (fun p => p < length ref) P -> Forall (fun p => p < length ref) H -> ~ Excites ref P H -> excited_det ref P H = Throw (PyError "ValueError").
Proof.
  intros L NP NH DJ BP BH NX. unfold excited_det. destruct (start_det ref L) as (x & D & E & B & ED & HD). rewrite E. cbn [bind].
  assert (L64 : forall l, Forall (fun p => p < length ref) l -> Forall (fun p => p < 64) (rev l)). { intros l Hl. rewrite Forall_forall in *. intros p Ip. apply in_rev in Ip. specialize (Hl p Ip). lia. }
  destruct (existsb (fun p => negb (bit D p)) H) eqn:EH.
  - apply existsb_exists in EH. destruct EH as (p & Ip & Bp). destruct (set_orbitals_destroyed false (rev H) x) as (x1 & E1 & B1); [now apply NoDup_rev|exact B|now apply L64| |].
    { exists p. split; [now apply -> in_rev|]. rewrite ED. now destruct (bit D p). }
    rewrite E1. cbn [bind fst snd]. destruct (set_orbitals_total true (rev P) x1 B1) as (x2 & b & E2 & _); [now apply L64|]. rewrite E2. reflexivity.
  - assert (HO : forall p, In p H -> bit D p = true). { intros p Ip. destruct (bit D p) eqn:Q; [reflexivity|]. exfalso. apply Bool.not_true_iff_false in EH. apply EH, existsb_exists. exists p. split; [exact Ip|now rewrite Q]. }
    destruct (set_orbitals_ok false (rev H) x) as (x1 & E1 & B1 & V1); [now apply NoDup_rev|exact B|now apply L64|intros p Ip; rewrite ED; apply HO; now apply in_rev|]. rewrite E1. cbn [bind fst snd].
    assert (EP : exists p, In p P /\ bit D p = true).
    { destruct (existsb (fun p => bit D p) P) eqn:Q; [apply existsb_exists in Q; exact Q|]. exfalso. apply NX. split; rewrite Forall_forall in *; intros p Ip.
      - split; [now apply BP|]. apply Bool.not_true_iff_false in Q. assert (bit D p <> true) as Z by (intros Z; apply Q, existsb_exists; exists p; now split). rewrite (HD p) in Z. destruct (Nat.eqb_spec (nth p ref 0) 0); [assumption|now elim Z].
      - split; [now apply BH|]. specialize (HO p Ip). rewrite (HD p) in HO. intros Z. rewrite Z in HO. discriminate. }
    destruct EP as (p & Ip & Bp). destruct (set_orbitals_destroyed true (rev P) x1) as (x2 & E2 & _); [now apply NoDup_rev|exact B1|now apply L64| |rewrite E2; reflexivity].
    exists p. split; [now apply -> in_rev|]. rewrite V1, ED, CompactAct.bit_flips by now apply NoDup_rev. rewrite (proj2 (mem_not p (rev H))); [exact Bp|]. intros K. apply in_rev in K. exact (DJ p Ip K).
Qed.
Theorem C65_destroying_raises : forall srt, legal_sort srt -> forall qe ref refprep pool1 c a P H pool2, build_refprep ref = Ok refprep -> length ref <= 64 -> Forall (ExcitationEntry ref) pool1 ->
  H <> [] -> NoDup P -> NoDup H -> (forall k, In k P -> ~ In k H) -> Forall (fun p => p < length ref) (P ++ H) -> ~ Excites ref P H -> ~ Excites ref H P ->
  fill_excited_dets srt qe ref refprep (pool1 ++ (c, Antihermitian a P H) :: pool2) [] = Throw (PyError "ValueError").
Proof.
  intros srt HS qe ref refprep pool1 c a P H pool2 ER L F1 NeH NP NH DJ B N1 N2. destruct (C65_excited_determinants srt HS qe ref refprep pool1 ER L F1) as (D & pool' & dets & _ & E & _). unfold fill_excited_dets in *. rewrite foreach_app, E. cbn [bind foreach snd].
  apply Forall_app in B. destruct B as (BP & BH). unfold excited_entry, excitation_part. cbn [Antihermitian py_get nth_error bind]. unfold fann, fcre. cbn [fst snd].
  destruct (rev H) as [|x r] eqn:ERv; [apply (f_equal (@rev nat)) in ERv; rewrite rev_involutive in ERv; contradiction|]. assert (IxH : In x H) by (apply in_rev; rewrite ERv; now left). cbn [bind].
  assert (Lx : x < length ref) by (rewrite Forall_forall in BH; now apply BH). unfold py_get. rewrite (nth_error_nth' ref 0 Lx). cbn [bind].
  destruct (Nat.eqb_spec (nth x ref 0) 0) as [Z|Z]; cbn [fst snd]; rewrite excited_det_destroyed; try assumption; try reflexivity. intros k K1 K2. exact (DJ k K2 K1).
Qed.
Print Assumptions C65_destroying_raises.

(** ---- C66 ---- *)
(** sum of orbital energies *)
Definition orbital_sum (orb_e : list C) (l : list nat) : C := Csum (fun p => nth p orb_e C0) l.
Lemma energy_sum_ok orb_e l : Forall (fun p => p < length orb_e) l -> energy_sum orb_e l = Ok (orbital_sum orb_e l).
Proof.
  intros F. unfold energy_sum, orbital_sum. enough (G : forall acc, foreach l (fun x acc => do e <- py_get orb_e x; Ok (acc + e)%C) acc = Ok (acc + Csum (fun p => nth p orb_e C0) l)%C) by (rewrite G; f_equal; ring).
  induction F as [|p l Hp _ IH]; intros acc; cbn [foreach]; [rewrite Csum_nil; f_equal; ring|]. unfold py_get at 1. rewrite (nth_error_nth' orb_e C0 Hp). cbn [bind]. rewrite IH, Csum_cons. f_equal. ring.
Qed.
Lemma cdiv_spec a b : b <> C0 -> (cdiv a b * b = a)%C.
Proof.
  intros H. unfold cdiv. cbv zeta. assert (Z : (Re b * Re b + Im b * Im b <> 0)%R) by (intros Z; apply H; apply C_ext; cbn; nra). apply C_ext; cbn; field; exact Z.
Qed.
(** every residual is divided by the energies of the orbitals that the excitation empties minus
    the energies of those it fills, whichever way round the two terms of the operator stand *)
Theorem C66_update : forall ref orb_e pool tops residuals, length orb_e = length ref -> length tops <= length residuals -> Forall (fun top => exists e, nth_error pool top = Some e /\ ExcitationEntry ref e) tops ->
  exists ts, get_res_over_mpdenom ref orb_e pool tops residuals = Ok ts /\ length ts = length tops /\
    forall mu, mu < length tops -> exists a P H, op_at pool (nth mu tops 0) = Antihermitian a P H /\
      forall holes particles, (holes = H /\ particles = P \/ holes = P /\ particles = H) -> Excites ref particles holes ->
      let denominator := (orbital_sum orb_e holes - orbital_sum orb_e particles)%C in
      denominator <> C0 -> (nth mu ts C0 * denominator = nth mu residuals C0)%C.
Proof.
  intros ref orb_e pl tops residuals LE LR F. unfold get_res_over_mpdenom. set (body := fun (mm : nat * nat) (out : list C) => _).
  assert (B : forall mu top out, mu < length residuals -> (exists e, nth_error pl top = Some e /\ ExcitationEntry ref e) -> exists v, body (mu, top) out = Ok (out ++ [v])%list /\ exists a P H, op_at pl top = Antihermitian a P H /\
      forall holes particles, (holes = H /\ particles = P \/ holes = P /\ particles = H) -> Excites ref particles holes -> let denominator := (orbital_sum orb_e holes - orbital_sum orb_e particles)%C in denominator <> C0 -> (v * denominator = nth mu residuals C0)%C).
  { intros mu top out Lm (e & Ee & a & P & H & -> & (_ & HE & _) & HX). unfold body. cbn [fst snd]. rewrite (proj2 (pool_item_nth pl top _) Ee). cbn [bind snd].
    pose proof HE as (Ne & LL & _). assert (NeH : H <> []) by (destruct H; [destruct P; [contradiction|discriminate]|discriminate]).
    unfold excitation_part. cbn [Antihermitian py_get nth_error bind]. unfold fann, fcre. cbn [fst snd].
    destruct (rev H) as [|x r] eqn:ERv; [apply (f_equal (@rev nat)) in ERv; rewrite rev_involutive in ERv; contradiction|]. assert (IxH : In x H) by (apply in_rev; rewrite ERv; now left). cbn [bind].
    assert (BPH : Forall (fun p => p < length ref) P /\ Forall (fun p => p < length ref) H). { destruct HX as [(A & B)|(A & B)]; split; (eapply Forall_impl; [|eassumption]); intros p Hp; apply Hp. }
    destruct BPH as (BP & BH). assert (Lx : x < length ref) by (rewrite Forall_forall in BH; now apply BH). unfold py_get at 1. rewrite (nth_error_nth' ref 0 Lx). cbn [bind].
    assert (EO : op_at pl top = Antihermitian a P H) by (unfold op_at; now rewrite (nth_error_nth pl top (C0, []) Ee)).
    assert (NB : forall Q R, Q <> [] -> Excites ref Q R -> Excites ref R Q -> False). { intros [|q Q] R Nq (A & _) (_ & B); [contradiction|]. apply (proj2 (Forall_inv B)). apply (Forall_inv A). }
    assert (OR : (Nat.eqb (nth x ref 0) 0 = false /\ Excites ref P H) \/ (Nat.eqb (nth x ref 0) 0 = true /\ Excites ref H P)).
    { destruct HX as [HX|HX]; [left|right]; (split; [|exact HX]); destruct HX as (A & B); rewrite Forall_forall in *; [apply Nat.eqb_neq; now apply B|apply Nat.eqb_eq; now apply A]. }
    unfold py_get. rewrite (nth_error_nth' residuals C0 Lm).
    destruct OR as [(-> & HX')|(-> & HX')]; cbn [fst snd]; rewrite !energy_sum_ok by (rewrite LE; assumption); cbn [bind]; eexists; (split; [reflexivity|]); exists a, P, H; (split; [exact EO|]); intros holes particles [(-> & ->)|(-> & ->)] HX2 Hd.
    - now apply cdiv_spec.
    - exfalso. exact (NB P H Ne HX' HX2).
    - exfalso. exact (NB H P NeH HX' HX2).
    - now apply cdiv_spec. }
  clearbody body. enough (G : forall j out, j + length tops <= length residuals -> exists ts, foreach (combine (seq j (length tops)) tops) body out = Ok (out ++ ts)%list /\ length ts = length tops /\ forall mu, mu < length tops -> exists a P H, op_at pl (nth mu tops 0) = Antihermitian a P H /\
      forall holes particles, (holes = H /\ particles = P \/ holes = P /\ particles = H) -> Excites ref particles holes -> let denominator := (orbital_sum orb_e holes - orbital_sum orb_e particles)%C in denominator <> C0 -> (nth mu ts C0 * denominator = nth (j + mu) residuals C0)%C).
  { destruct (G 0 [] ltac:(lia)) as (ts & E & L & V). exists ts. split; [exact E|]. split; [exact L|]. exact V. }
  clear LR. induction F as [|top tops Ht _ IH]; intros j out Lj; [exists []; split; [cbn; now rewrite app_nil_r|split; [reflexivity|cbn; lia]]|]. cbn [length] in Lj. cbn [length seq combine foreach].
  destruct (B j top out ltac:(lia) Ht) as (v & Ev & Hv). rewrite Ev. cbn [bind]. destruct (IH (S j) (out ++ [v])%list ltac:(lia)) as (ts & E & L & V). exists (v :: ts). split; [rewrite E, <- app_assoc; reflexivity|]. split; [cbn [length]; congruence|].
  intros [|mu] Hm; cbn [nth]; [rewrite Nat.add_0_r; exact Hv|]. replace (j + S mu) with (S j + mu) by lia. apply V. lia.
Qed.
Print Assumptions C66_update.
(** orbital energies supplied by the system: one per spatial orbital, used for both spins *)
Theorem C66_supplied_energies : forall hf, length (orb_energies_hf hf) = 2 * length hf /\ forall p, nth p (orb_energies_hf hf) C0 = nth (p / 2) hf C0.
Proof.
  intros hf. unfold orb_energies_hf. split; [induction hf as [|x hf IH]; [reflexivity|]; cbn [flat_map app length]; rewrite IH; lia|].
  induction hf as [|x hf IH]; intros p; [cbn [flat_map]; destruct p; [reflexivity|]; now destruct (S p / 2)|]. cbn [flat_map app]. destruct p as [|[|p]]; [reflexivity|reflexivity|]. change (S (S p)) with (2 + p) at 2. replace (2 + p) with (p + 1 * 2) by lia. rewrite Nat.div_add by lia. rewrite Nat.add_1_r. cbn [nth]. apply IH.
Qed.
Print Assumptions C66_supplied_energies.

(** energies of determinants *)
Definition det_energy (n : nat) (h : qop) (D : nat) : C := inner n (ket D) (op_act h (ket D)).
(** serial evaluation, or parallel evaluation of a Hamiltonian whose strings have evenly many Y *)
Definition Evaluable (n : nat) (par : option schedule) (h : qop) : Prop :=
  match par with None => Terms (Applicable n) h | Some sched => legal_schedule sched /\ 1 <= n /\ Terms (fun gs => StringOn n gs /\ Nat.even (count_Y gs) = true) h end.
Lemma evaluable n par h q : Evaluable n par h -> wf_computer q -> nqubit q = n -> exists q', direct_op_exp_val par q h = Ok (inner n (psi_of q) (op_act h (psi_of q)), q').
Proof.
  intros H W N. destruct par as [sched|]; cbn [Evaluable] in H.
  - destruct H as (HL & Hn & HT). exists q. rewrite <- N. apply C20_direct_op_exp_val_even_Y_partial; [exact HL|exact W|lia|now rewrite N].
  - destruct (C19_direct_op_exp_val_partial q h W) as (q' & E & _); [now rewrite N|]. exists q'. rewrite <- N. exact E.
Qed.
Lemma flip_ket t D : act1 m_X t (ket D) = ket (flip D t).
Proof. apply state_eq. intros I. rewrite GateEval.ev_X. unfold ket. destruct (Nat.eqb_spec (flip I t) D) as [H1|H1], (Nat.eqb_spec I (flip D t)) as [H2|H2]; try reflexivity; [elim H2; now rewrite <- H1, flip_flip|elim H1; now rewrite H2, flip_flip]. Qed.
Lemma computed_energies par ref refprep h D : build_refprep ref = Ok refprep -> Occupations ref D -> let n := length ref in Evaluable n par h ->
  orb_energies_computed par ref refprep h = Ok (map (fun i => if i <? list_sum ref then (det_energy n h D - det_energy n h (flip D i))%C else (det_energy n h (flip D i) - det_energy n h D)%C) (seq 0 n)).
Proof.
  intros ER HD n HE. unfold orb_energies_computed. fold n. rewrite StateProofs.refprep_eq in ER. injection ER as <-.
  destruct (sim_apply (new_computer n) (StateProofs.xgates 0 ref) (new_computer_wf _) (StateProofs.xgates_applicable _ ref 0 (le_n _))) as (qc & E1 & W1 & N1 & A1). fold (psi_of qc) in A1. change (nqubit (new_computer n)) with n in N1.
  assert (PS : psi_of qc = ket D).
  { apply state_eq. eapply seq_trans; [exact A1|]. eapply seq_trans; [apply circ_act_ext; intros I; apply new_computer_ket0|]. intros I. rewrite StateProofs.xgates_act, StateProofs.flips_ket. f_equal. apply bits_ext. intros k. rewrite StateProofs.bit_flips, (HD k), Nat.sub_0_r. unfold bit at 1. rewrite Nat.bits_0. cbn [Nat.leb andb]. apply xorb_false_l. }
  rewrite E1. cbn [bind]. destruct (evaluable n par h qc HE W1 N1) as (q' & E0). rewrite E0, PS. cbn [bind]. fold (det_energy n h D).
  set (f := fun i => if i <? list_sum ref then _ else _). set (body := fun (i : nat) (orb_e : list C) => _).
  assert (B : forall i out, i < n -> body i out = Ok (out ++ [f i])%list).
  { intros i out Hi. unfold body. rewrite make_X. cbn [bind]. destruct (apply_gate_correct qc (gX1 i) W1) as (q2 & E2 & A2); [rewrite N1; split; cbn; lia|apply library_clean; [apply X1_lib|apply X1_sharp]|]. rewrite E2. cbn [bind].
    destruct A2 as (N2 & L2 & P2 & _ & _ & Z2). destruct (evaluable n par h q2 HE) as (q3 & E3); [unfold wf_computer, nbasis; rewrite N2; split; assumption|congruence|]. rewrite E3. cbn [bind fst].
    assert (P : psi_of q2 = ket (flip D i)) by (apply state_eq; eapply seq_trans; [exact P2|]; fold (psi_of qc); rewrite PS; unfold gX1; rewrite ThreeQubit.act_1, flip_ket; apply seq_refl). rewrite P. fold (det_energy n h (flip D i)). reflexivity. }
  clearbody body f. enough (G : forall k j out, j + k <= n -> foreach (seq j k) body out = Ok (out ++ map f (seq j k))%list) by (rewrite (G n 0 [] (le_n _)); reflexivity).
  induction k as [|k IH]; intros j out Hj; cbn [seq foreach map]; [now rewrite app_nil_r|]. rewrite B by lia. cbn [bind]. rewrite IH by lia. rewrite <- app_assoc. reflexivity.
Qed.
(** the occupied orbitals are the lowest ones *)
Definition LowestOccupied (ref : list nat) : Prop := exists k, k <= length ref /\ ref = (repeat 1 k ++ repeat 0 (length ref - k))%list.
(** orbital energies computed from the Hamiltonian: ionization energies (Koopmans) of the
    occupied orbitals and attachment energies of the empty ones *)
Theorem C66_computed_energies_partial : forall par ref refprep h D, build_refprep ref = Ok refprep -> Occupations ref D -> LowestOccupied ref -> let n := length ref in Evaluable n par h ->
  exists orb_e, orb_energies_computed par ref refprep h = Ok orb_e /\ length orb_e = n /\
    forall i, i < n -> (bit D i = true -> nth i orb_e C0 = (det_energy n h D - det_energy n h (upd D i false))%C) /\ (bit D i = false -> nth i orb_e C0 = (det_energy n h (upd D i true) - det_energy n h D)%C).
Proof.
  intros par ref refprep h D ER HD (k & Lk & EK) n HE. eexists. split; [exact (computed_energies par ref refprep h D ER HD HE)|]. split; [now rewrite map_length, seq_length|].
  intros i Hi. set (f := fun i => if i <? list_sum ref then _ else _). rewrite (nth_indep _ C0 (f 0)) by (now rewrite map_length, seq_length). rewrite (map_nth f), seq_nth by exact Hi. cbn [plus].
  assert (S : list_sum ref = k). { rewrite EK. unfold list_sum. rewrite fold_right_app. assert (Z : forall m, fold_right plus 0 (repeat 0 m) = 0) by (induction m as [|m IH]; [reflexivity|exact IH]). rewrite Z. clear. induction k as [|k IH]; [reflexivity|]. cbn [repeat fold_right]. rewrite IH. reflexivity. }
  assert (V : bit D i = (i <? k)). { rewrite (HD i), EK. destruct (Nat.ltb_spec i k) as [Q|Q]; [rewrite app_nth1 by (now rewrite repeat_length); rewrite (nth_indep _ 0 1) by (now rewrite repeat_length); now rewrite nth_repeat|rewrite app_nth2 by (now rewrite repeat_length); now rewrite nth_repeat]. }
  unfold f. rewrite S. fold n. split; intros B; rewrite flip_upd, B in *; cbn [negb]; rewrite <- V; reflexivity.
Qed.
Print Assumptions C66_computed_energies_partial.

(** if the occupied orbitals are not the lowest ones, the sign of an energy can be wrong *)
Definition Z0 : qop := [(C1, [mkGate "Z" 0 0 m_Z None])].
Lemma Z0_string n : 1 <= n -> Terms (fun gs => StringOn n gs /\ Nat.even (count_Y gs) = true) Z0.
Proof.
  intros Hn. constructor; [|constructor]. split; [|reflexivity]. cbn [snd]. split; [split|].
  - constructor; [exists "Z"%string, 0; split; [tauto|reflexivity]|constructor].
  - constructor; [intros []|constructor].
  - repeat constructor. cbn. lia.
Qed.
Lemma Z0_evaluable n : 1 <= n -> Evaluable n None Z0.
Proof. intros Hn. cbn [Evaluable]. eapply Forall_impl; [|exact (Z0_string n Hn)]. intros t (H & _). now apply string_applicable. Qed.
Lemma Z0_energy n D : D < 2 ^ n -> det_energy n Z0 D = RtoC (if bit D 0 then -1 else 1).
Proof.
  intros H. unfold det_energy. rewrite inner_ket by exact H. unfold op_act, Z0. rewrite Csum_cons, Csum_nil. cbn [fst snd]. unfold circ_act. cbn [fold_left]. rewrite ThreeQubit.act_1, GateEval.ev_Z. unfold ket. rewrite Nat.eqb_refl. unfold GateEval.sgn. destruct (bit D 0); apply C_ext; cbn; ring.
Qed.
Theorem C66_computed_energies_refuted : exists ref refprep h D orb_e, build_refprep ref = Ok refprep /\ Occupations ref D /\ Evaluable (length ref) None h /\ orb_energies_computed None ref refprep h = Ok orb_e /\
  bit D 0 = false /\ nth 0 orb_e C0 <> (det_energy (length ref) h (upd D 0 true) - det_energy (length ref) h D)%C.
Proof.
  exists [0; 1], (StateProofs.xgates 0 [0; 1]), Z0, 2. assert (HD : Occupations [0; 1] 2). { intros [|[|q]]; [reflexivity|reflexivity|]. cbn [nth]. replace (match q with 0 | _ => 0 end) with 0 by (now destruct q). apply (proj1 (lt_pow2_bits 2 2)); cbn; lia. }
  pose proof (computed_energies None [0; 1] _ Z0 2 (StateProofs.refprep_eq _) HD (Z0_evaluable 2 ltac:(lia))) as E. eexists. split; [apply StateProofs.refprep_eq|]. split; [exact HD|]. split; [apply Z0_evaluable; cbn; lia|]. split; [exact E|]. split; [reflexivity|].
  cbn [length seq map nth list_sum fold_right plus Nat.ltb Nat.leb]. change (flip 2 0) with 3. change (upd 2 0 true) with 3. rewrite !Z0_energy by (cbn; lia). change (bit 2 0) with false. change (bit 3 0) with true. cbn [Cadd Csub Cneg RtoC Re Im]. intros Q. apply (f_equal Re) in Q. cbn in Q. lra.
Qed.
Print Assumptions C66_computed_energies_refuted.

(** ---- concrete cases ---- *)
Definition pqe_example (compact : bool) (m : nat) : ucc :=
  mkUcc (new_computer 4) (StateProofs.xgates 0 [1; 1; 0; 0]) XX "SD" compact false m [(C1, Antihermitian 1 [2] [0]); (C1, Antihermitian (-1) [1; 0] [3; 2])] [] [].
Lemma example_entries compact m : Forall (ExcitationEntry [1; 1; 0; 0]) (pool (pqe_example compact m)).
Proof.
  constructor; [|constructor; [|constructor]].
  - exists 1%R, [2], [0]. split; [reflexivity|]. split.
    + split; [reflexivity|]. split; [|split; [cbn; lia|rewrite Rabs_R1; lra]]. split; [discriminate|]. split; [reflexivity|]. split; [repeat constructor|]. split; [repeat constructor|]. left. intros k [<-|[]] [E|[]]. lia.
    + left. split; (constructor; [cbn; lia|constructor]).
  - exists (-1)%R, [1; 0], [3; 2]. split; [reflexivity|]. split.
    + split; [reflexivity|]. split; [|split; [cbn; lia|rewrite (Rabs_left (-1)) by lra; lra]]. split; [discriminate|]. split; [reflexivity|]. split; [repeat constructor; lia|]. split; [repeat constructor; lia|]. left. intros k [<-|[<-|[]]] [E|[E|[]]]; lia.
    + right. split; (constructor; [cbn; lia|constructor; [cbn; lia|constructor]]).
Qed.
Example C65_nonvacuous : Forall (ExcitationEntry [1; 1; 0; 0]) (pool (pqe_example false 2)) /\ Forall (fun x => Usable (pqe_example false 2) 4 (fst x) (snd x)) (combine (seq 0 2) [1/2; -1/3]%R) /\
  Terms (Applicable 4) XX /\ Hamiltonian 4 XX /\ Forall (fun t => Nat.even (count_Y (snd t)) = true) XX /\
  (~ Excites [1; 1; 0; 0] [1] [0] /\ ~ Excites [1; 1; 0; 0] [0] [1]).
Proof.
  assert (HM : Hamiltonian 4 XX). { constructor; [|constructor]. split; [|reflexivity]. cbn [snd]. split; [split|].
    - constructor; [exists "X"%string, 0; split; [tauto|reflexivity]|]. constructor; [exists "X"%string, 1; split; [tauto|reflexivity]|constructor].
    - cbn. constructor; [intros [E|[]]; discriminate|]. constructor; [intros []|constructor].
    - repeat constructor; cbn; lia. }
  split; [apply example_entries|]. split; [|split; [now apply ham_applicable|split; [exact HM|split; [repeat constructor|split; intros (A & B)]]]].
  - pose proof (example_entries false 2) as FE. constructor; [|constructor; [|constructor]]; cbn [fst snd seq].
    + destruct (Forall_inv FE) as (a & P & H & E & S & _). unfold Antihermitian in E. injection E as <- <- <- _ _ _. exists 1%R, [2], [0]. split; [reflexivity|]. split; [exact S|]. split; [repeat constructor; lia|]. split; [repeat constructor; lia|]. right. rewrite Rmult_1_r, Rabs_right; lra.
    + destruct (Forall_inv (Forall_inv_tail FE)) as (a & P & H & E & S & _). unfold Antihermitian in E. injection E as <- <- <- _ _ _. exists (-1)%R, [1; 0], [3; 2]. split; [reflexivity|]. split; [exact S|]. split; [repeat constructor; lia|]. split; [repeat constructor; lia|]. right. rewrite Rabs_right; lra.
  - apply Forall_inv in A. cbn in A. lia.
  - apply Forall_inv in A. cbn in A. lia.
Qed.
Example C66_nonvacuous : LowestOccupied [1; 1; 0; 0] /\ Evaluable 4 None Z0 /\ Forall (fun top => exists e, nth_error (pool (pqe_example true 1)) top = Some e /\ ExcitationEntry [1; 1; 0; 0] e) [1; 0] /\
  (orbital_sum [RtoC 1; RtoC 2; RtoC 5; RtoC 7]%R [1; 0] - orbital_sum [RtoC 1; RtoC 2; RtoC 5; RtoC 7]%R [3; 2] <> C0)%C.
Proof.
  split; [exists 2; split; [cbn; lia|reflexivity]|]. split; [apply Z0_evaluable; lia|]. pose proof (example_entries true 1) as FE. split.
  - constructor; [|constructor; [|constructor]]; eexists; (split; [reflexivity|]); [exact (Forall_inv (Forall_inv_tail FE))|exact (Forall_inv FE)].
  - unfold orbital_sum. rewrite !Csum_cons, !Csum_nil. cbn [nth]. intros Q. apply (f_equal Re) in Q. cbn in Q. lra.
Qed.
