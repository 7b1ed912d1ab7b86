(** Property theorems C92: gradients measured as expectation values of commutators. *)
From Coq Require Import Reals String List Arith Bool Lia Lra Sorted FunctionalExtensionality.
From Verif Require Import CBase Result Bits Spec OpSpec GateModel ComputerModel SafeProofs LibProofs CleanProofs SimProofs CircuitModel PauliProofs OperatorModel OperatorProofs ExpSpec ExpProofs TrotterProofs PauliIndep SparseNorm RealOps PropOperator MeasureModel MeasureProofs PropMeasure PropSim SQSpec SQModel SQProofs SQPoolModel SQPoolOps FermiProofs FermiIndep FermiHerm AnsatzSpec AnsatzModel AnsatzGen AnsatzProofs PropAnsatz GradSpec GradModel GradCalc GradProofs GradAnsatz PyApply PropGrad QiteNorm PenProofs CommModel CommProofs.
From Verif Require Import OrderProofs.
From Verif Require AnsatzJW QkProofs QftProofs PropRes PropSQ.
Import ListNotations.
Local Open Scope nat_scope.

(** ---- the operators T - T^dagger ---- *)
Lemma dsorted_descending l : dsorted l -> descending l.
Proof.
  unfold dsorted. induction 1 as [|x l HS IH HF]; [intros i j d [H1 H2]; cbn in H2; lia|]. intros [|i] [|j] d [H1 H2]; cbn [length] in H2; try lia; cbn [nth].
  - rewrite Forall_forall in HF. assert (Lj : j < length l) by lia. pose proof (HF (nth j l d) (nth_In l d Lj)) as X. cbn beta in X. lia.
  - apply IH. lia.
Qed.
Lemma pair_plain a P H : Excitable P H -> Forall plain (Antihermitian a P H) /\ Forall conserving (Antihermitian a P H).
Proof.
  intros (_ & L & DP & DH & _). assert (D1 : descending P) by now apply dsorted_descending. assert (D2 : descending H) by now apply dsorted_descending. assert (N1 : NoDup P) by now apply CompactFermi.desc_NoDup. assert (N2 : NoDup H) by now apply CompactFermi.desc_NoDup.
  split; repeat constructor; unfold fcre, fann; cbn [fst snd]; assumption || (now symmetry) || idtac.
Qed.
Lemma pair_skew n a P H : Excitable P H -> Forall (fun p => p < n) P -> Forall (fun p => p < n) H -> skew_map n (act false (Antihermitian a P H)).
Proof.
  intros HE BP BH N x y L. destruct (pair_plain a P H HE) as [HP HC]. unfold act.
  rewrite (adj_inner N _ x y HP HC).
  - assert (E : fermi_act (adj_terms (Antihermitian a P H)) x == sscale (- C1) (fermi_act (Antihermitian a P H) x)).
    { intros I. unfold sscale, fermi_act, adj_terms, Antihermitian. cbn [map]. rewrite !Csum_cons, !Csum_nil. unfold fcoef, fcre, fann. cbn [fst snd]. generalize (ladder_act P H x I) (ladder_act H P x I). intros u v. apply C_ext; cbn; ring. }
    rewrite (inner_ext N _ _ y y E (seq_refl y)). rewrite QkProofs.inner_scale_l. apply C_ext; cbn; ring.
  - constructor; [|constructor; [|constructor]]; split; unfold fcre, fann; cbn [fst snd]; (eapply Forall_impl; [|eassumption]); cbn beta; intros; lia.
Qed.
Lemma pair_real a P H : real_map (act false (Antihermitian a P H)).
Proof.
  unfold act. apply conj_real. intros psi I. unfold conj_terms, Antihermitian. cbn [map]. unfold fcoef, fcre, fann. cbn [fst snd].
  replace (Cconj (RtoC a)) with (RtoC a) by (apply C_ext; cbn; ring). replace (Cconj (RtoC (- a))) with (RtoC (- a)) by (apply C_ext; cbn; ring). reflexivity.
Qed.

(** the pool of commutators: Hermitian operators *)
Definition IsCommutator (n : nat) (H : qop) (A : state -> state) (k : qop) : Prop :=
  Hamiltonian n k /\ (EvenY H -> EvenY k) /\
  forall psi, (norm n (ssub (ssub (op_act H (A psi)) (A (op_act H psi))) (op_act k psi)) <= 3e-12 * INR (4 ^ n) * norm n psi)%R.
Lemma qubit_pool srt n : legal_sort srt -> forall pl st, Forall (Plain n) pl -> exists pl' qs,
  foreach pl (fun term s =>
    do r <- jw_transform srt false (snd term);
    Ok ((fst s ++ [(fst term, fst r)])%list, pool_add_term (snd s) (fst term) (snd r))) st = Ok ((fst st ++ pl')%list, (snd st ++ qs)%list) /\
  SameOps false pl pl' /\ Forall2 (fun e q => fst q = C1 /\ canonical_op (snd q) /\ in_reg n (snd q) /\ skew_map n (op_act (snd q)) /\ real_map (op_act (snd q)) /\ forall psi, op_act (snd q) psi == act false (snd e) psi) pl qs.
Proof.
  intros HS. induction pl as [|e pl IH]; intros st F.
  - exists [], []. rewrite !app_nil_r. destruct st. split; [reflexivity|]. split; constructor.
  - pose proof (Forall_inv F) as (a & P & H & -> & (_ & HE & L6 & Ha) & BP & BH). pose proof (Forall_inv_tail F) as F'. cbn [foreach fst snd].
    pose proof HE as (Ne & LL & DP & DH & _). assert (L12 : length P + length H <= 12) by lia. pose proof (pow_ranks _ L12) as PR.
    destruct (AnsatzJW.jw_pair_exists false P H Ne (excitable_ne _ _ HE) DP DH ltac:(lia)) as (q & J).
    rewrite (AnsatzJW.jp_jw _ _ _ _ J srt a HS) by lra. cbn [bind fst snd].
    match goal with |- context [foreach pl _ ?st1] => destruct (IH st1 F') as (pl' & qs & E & S & G) end. cbn [fst snd] in E.
    set (K := op_mult_coeffs q (RtoC a)) in *.
    assert (AK : forall psi, op_act K psi == act false (Antihermitian a P H) psi). { intros p I. unfold K. rewrite !AnsatzJW.mult_act, (AnsatzJW.jp_act _ _ _ _ J), AnsatzGen.act_pair. ring. }
    eexists (_ :: pl'), (_ :: qs). split; [rewrite E; unfold pool_add_term; rewrite <- !app_assoc; cbn [app]; reflexivity|]. split; constructor; try assumption; cbn [fst snd].
    + split; [reflexivity|]. intros p. destruct (pair_ltb (P, H) (H, P)); [apply seq_refl|]. rewrite <- pair_swap. apply seq_refl.
    + split; [reflexivity|]. split; [apply AnsatzJW.mult_canonical; apply J|]. split; [unfold K, op_mult_coeffs, in_reg; apply Forall_map; cbn [snd]; apply (AnsatzJW.jp_reg _ _ _ _ J _ BP BH)|]. split; [|split; [|exact AK]].
      * intros N x y L. rewrite (inner_ext N x x _ _ (seq_refl x) (AK y)), (inner_ext N _ _ y y (AK x) (seq_refl y)). exact (pair_skew n a P H HE BP BH N x y L).
      * intros x I. rewrite (AK (sconj x) I), (pair_real a P H x I). unfold sconj. now rewrite (AK x I).
Qed.
Lemma commutator_pool srt n s : legal_sort srt -> Hamiltonian n (ham s) -> Forall (Plain n) (pool s) -> exists pool' comms,
  fill_commutator_pool srt s = Ok (pool', comms) /\ SameOps false (pool s) pool' /\ Forall2 (fun e c => fst c = C1 /\ IsCommutator n (ham s) (act false (snd e)) (snd c)) (pool s) comms.
Proof.
  intros HS HH HP. unfold fill_commutator_pool, get_qubit_op_pool. destruct (qubit_pool srt n HS (pool s) ([], []) HP) as (pl' & qs & E & S & G). rewrite E. cbn [bind fst snd app].
  assert (X : exists comms, join_as_commutator qs (ham s) = Ok comms /\ Forall2 (fun e c => fst c = C1 /\ IsCommutator n (ham s) (act false (snd e)) (snd c)) (pool s) comms).
  { unfold join_as_commutator, op_add_op. cbn [app]. clear E S HP. induction G as [|e q pl qs (Q1 & Q2 & Q3 & Q4 & Q5 & Q6) _ IH]; [exists []; split; [reflexivity|constructor]|].
    destruct (commutator_one n (ham s) (snd q) HH Q2 Q3 Q4) as (o & o' & k & E1 & E2 & E3 & K1 & K2 & K3). destruct IH as (cs & E4 & F4). cbn [mapM]. rewrite E1. cbn [bind]. rewrite E2. cbn [bind]. rewrite E3. cbn [bind]. rewrite E4. cbn [bind].
    eexists (_ :: cs). split; [reflexivity|]. constructor; [|exact F4]. cbn [fst snd]. split; [exact Q1|]. split; [exact K1|]. split; [intros Y; now apply K2|]. intros psi. eapply Rle_trans; [|apply K3]. right. apply norm_ext. intros I _. unfold ssub. rewrite <- (Q6 (op_act (ham s) psi) I). rewrite (op_act_ext (ham s) _ _ (Q6 psi) I). reflexivity. }
  destruct X as (comms & EX & FX). exists pl', comms. rewrite EX. cbn [bind]. split; [reflexivity|]. split; [exact S|exact FX].
Qed.

(** ---- C92 ---- *)
(** the serial path, or threads with any schedule and a real Hamiltonian (every Pauli string
    with an even number of Y; otherwise the threaded path has the wrong sign, C20) *)
Definition Threads (n : nat) (par : option schedule) (H : qop) : Prop :=
  match par with None => True | Some sched => legal_schedule sched /\ 1 <= n /\ Forall (fun t => Nat.even (count_Y (snd t)) = true) H end.
(** the number x is the slope of the energy at t = 0 along exp(t K) |psi>, up to the rounding
    of negligible coefficients *)
Definition IsGradient (s : ucc) (n : nat) (psi : state) (qe : bool) (mu : nat) (x : R) : Prop :=
  exists g, slope n (op_act (ham s)) (fun t => [(RtoC t, act qe (op_at (pool s) mu))]) psi 0%R g /\ (Rabs (x - g) <= 3e-12 * INR (4 ^ n) * normsq n psi)%R.

Lemma value_one par q n H k : wf_computer q -> nqubit q = n -> Threads n par H -> Hamiltonian n k -> (EvenY H -> EvenY k) ->
  exists q', direct_op_exp_val par q k = Ok (inner n (psi_of q) (op_act k (psi_of q)), q') /\ same_state q q'.
Proof.
  intros W N T HK Y. destruct par as [sched|].
  - destruct T as (HL & Hn & HY). specialize (Y HY). exists q. split; [|apply same_refl, W]. rewrite (C20_direct_op_exp_val_even_Y_partial sched q k HL W); [now rewrite N|lia|].
    unfold Hamiltonian, EvenY in *. unfold Terms. rewrite Forall_forall in *. intros t It. rewrite N. split; [apply HK, It|apply Y, It].
  - destruct (C19_direct_op_exp_val_partial q k W) as (q1 & E1 & S1); [rewrite N; now apply ham_applicable|]. exists q1. rewrite E1, N. split; [reflexivity|exact S1].
Qed.
Lemma gradient_value s n psi A k : Hamiltonian n (ham s) -> two_level A -> skew_map n A -> IsCommutator n (ham s) A k ->
  slope n (op_act (ham s)) (fun t => [(RtoC t, A)]) psi 0%R (2 * Re (inner n (op_act (ham s) psi) (A psi))) /\
  Im (inner n psi (op_act k psi)) = 0%R /\
  (Rabs (Re (inner n psi (op_act k psi)) - 2 * Re (inner n (op_act (ham s) psi) (A psi))) <= 3e-12 * INR (4 ^ n) * normsq n psi)%R.
Proof.
  intros HH TL SK (HK & _ & HE). pose proof (ham_hermitian n _ HH) as SH. split; [|split].
  - pose proof (energy_slope n (ham s) [] A [] psi 0%R psi psi (A psi) (Forall_nil _) TL (Forall_nil _) (C63_hamiltonian_self_adjoint n _ HH)) as SL. cbn [app] in SL.
    apply SL; [|intros I; reflexivity|intros I; reflexivity]. cbn [exp_product]. exists psi. split; [apply is_exp_zero|intros I; reflexivity].
  - pose proof (ham_hermitian n k HK n psi psi (le_n n)) as X. rewrite (FermiProofs.inner_conj n (op_act k psi) psi) in X. apply (f_equal Im) in X. cbn in X. lra.
  - set (c := ssub (op_act (ham s) (A psi)) (A (op_act (ham s) psi))).
    assert (V : (2 * Re (inner n (op_act (ham s) psi) (A psi)))%R = Re (inner n psi c)).
    { assert (E : c == sadd (op_act (ham s) (A psi)) (sscale (- C1)%C (A (op_act (ham s) psi)))) by (intros I; unfold c, ssub, sadd, sscale; ring).
      rewrite (inner_ext n psi psi _ _ (seq_refl psi) E), FermiProofs.inner_add_r, inner_minus, (SH n _ _ (le_n n)), (SK n psi _ (le_n n)), (FermiProofs.inner_conj n (A psi)). cbn. ring. }
    rewrite V. assert (D : (Re (inner n psi (op_act k psi)) - Re (inner n psi c))%R = (- Re (inner n psi (ssub c (op_act k psi))))%R).
    { assert (E : ssub c (op_act k psi) == sadd c (sscale (- C1)%C (op_act k psi))) by (intros I; unfold ssub, sadd, sscale; ring).
      rewrite (inner_ext n psi psi _ _ (seq_refl psi) E), FermiProofs.inner_add_r, inner_minus. cbn. ring. }
    rewrite D, Rabs_Ropp. eapply Rle_trans; [apply inner_abs|]. specialize (HE psi). fold c in HE. pose proof (norm_sq n psi) as NS. pose proof (norm_nonneg n psi) as NP. rewrite <- NS.
    apply Rle_trans with (norm n psi * (3e-12 * INR (4 ^ n) * norm n psi))%R; [now apply Rmult_le_compat_l|right; ring].
Qed.
Lemma plain_at n pl mu : Forall (Plain n) pl -> mu < length pl -> two_level (act false (op_at pl mu)) /\ skew_map n (act false (op_at pl mu)).
Proof.
  intros HP Hm. rewrite Forall_forall in HP. destruct (HP _ (nth_In _ (C0, []) Hm)) as (a & P & H & Ee & (_ & HE & _) & BP & BH). unfold op_at. rewrite Ee. cbn [snd]. split; [now apply excitable_two_level|now apply pair_skew].
Qed.

(** fermionic pools: fill_commutator_pool followed by measure_operators returns the gradients
    with which ADAPT-VQE selects its operators, for the whole pool or for a selection *)
Theorem C92_commutator_gradients_partial : forall srt, legal_sort srt -> forall s n Utot par, wf_computer (init s) -> nqubit (init s) = n -> Hamiltonian n (ham s) -> Forall (Plain n) (pool s) ->
  Applicable n Utot -> Threads n par (ham s) ->
  exists pool' comms, fill_commutator_pool srt s = Ok (pool', comms) /\ SameOps false (pool s) pool' /\ length comms = length (pool s) /\
    let psi := circ_act Utot (psi_of (init s)) in
    (exists grads, measure_operators par true s comms Utot [] = Ok grads /\ length grads = length (pool s) /\
      forall mu, mu < length (pool s) -> IsGradient s n psi false mu (nth mu grads 0%R)) /\
    (forall idxs, idxs <> [] -> Forall (fun i => i < length (pool s)) idxs ->
      exists grads, measure_operators par true s comms Utot idxs = Ok grads /\ length grads = length idxs /\
        forall j, j < length idxs -> IsGradient s n psi false (nth j idxs 0) (nth j grads 0%R)).
Proof.
  intros srt HS s n Ut par W N HH HP AU TH. destruct (commutator_pool srt n s HS HH HP) as (pool' & comms & E & S & G). exists pool', comms. split; [exact E|]. split; [exact S|].
  assert (LC : length comms = length (pool s)) by (clear - G; induction G; cbn [length]; congruence). split; [exact LC|]. intros psi0.
  destruct (sim_apply (init s) Ut W) as (q & Eq & Wq & Nq & Pq); [now rewrite N|]. rewrite N in Nq. fold (psi_of q) in Pq. fold (psi_of (init s)) in Pq. apply state_eq in Pq. fold psi0 in Pq.
  set (ok := fun o : qop => Hamiltonian n o /\ (EvenY (ham s) -> EvenY o)). set (ev := fun o : qop => inner n psi0 (op_act o psi0)).
  assert (HV : forall q0 o, wf_computer q0 -> nqubit q0 = n -> coeff q0 = coeff q -> ok o -> exists q', direct_op_exp_val par q0 o = Ok (ev o, q') /\ same_state q0 q').
  { intros q0 o W0 N0 C0' (O1 & O2). destruct (value_one par q0 n (ham s) o W0 N0 TH O1 O2) as (q1 & E1 & S1). exists q1. split; [|exact S1]. rewrite E1. assert (EP : psi_of q0 = psi0) by (rewrite <- Pq; unfold psi_of; congruence). unfold ev. rewrite EP. reflexivity. }
  assert (HO : Forall (fun t : C * qop => ok (snd t)) comms). { clear - G. induction G as [|e c pl cs (_ & K1 & K2 & _) _ IH]; constructor; [split; assumption|exact IH]. }
  assert (AT : forall mu, mu < length (pool s) -> fst (nth mu comms (C0, [])) = C1 /\ Im (ev (snd (nth mu comms (C0, [])))) = 0%R /\ IsGradient s n psi0 false mu (Re (ev (snd (nth mu comms (C0, [])))))).
  { intros mu Hm. assert (X : fst (nth mu comms (C0, [])) = C1 /\ IsCommutator n (ham s) (act false (op_at (pool s) mu)) (snd (nth mu comms (C0, [])))).
    { clear - G Hm. unfold op_at. revert mu Hm. induction G as [|e c pl cs HG _ IH]; intros mu Hm; [cbn [length] in Hm; lia|]. destruct mu as [|mu]; [exact HG|]. cbn [nth]. apply IH. cbn [length] in Hm. lia. }
    destruct X as [X1 X2]. destruct (plain_at n (pool s) mu HP Hm) as [TL SK]. destruct (gradient_value s n psi0 _ _ HH TL SK X2) as (V1 & V2 & V3). split; [exact X1|]. split; [exact V2|]. eexists. split; [exact V1|exact V3]. }
  unfold measure_operators. cbn [negb]. rewrite Eq. cbn [bind].
  assert (FB : forall l : list C, Forall (fun g => Im g = 0%R) l -> forallb (fun g => negb (Rltb 1e-7 (Rabs (Im g)))) l = true).
  { intros l F. apply forallb_forall. intros g Hg. rewrite Forall_forall in F. rewrite (F g Hg), Rabs_R0. destruct (Rltb_spec 1e-7 0); [lra|reflexivity]. }
  split.
  - unfold direct_oppl_exp_val. destruct (oppl_ok par n (coeff q) ok ev HV comms HO q [] Wq Nq eq_refl) as (q' & E1 & _). rewrite E1. cbn [bind fst app].
    set (l := map (fun t => (ev (snd t) * fst t)%C) comms). assert (LL : length l = length (pool s)) by (unfold l; now rewrite map_length).
    assert (NL : forall mu, mu < length (pool s) -> Im (nth mu l C0) = 0%R /\ IsGradient s n psi0 false mu (Re (nth mu l C0))).
    { intros mu Hm. destruct (AT mu Hm) as (A1 & A2 & A3). assert (EN : nth mu l C0 = ev (snd (nth mu comms (C0, [])))).
      { unfold l. rewrite (nth_indep _ C0 ((fun t => (ev (snd t) * fst t)%C) (C0, []))) by (rewrite map_length; lia). rewrite (map_nth (fun t => (ev (snd t) * fst t)%C)). rewrite A1. ring. }
      rewrite EN. split; assumption. }
    rewrite FB; [|apply Forall_forall; intros g Hg; destruct (In_nth l g C0 Hg) as (mu & Hm & <-); apply NL; lia].
    eexists. split; [reflexivity|]. split; [rewrite map_length; exact LL|]. intros mu Hm. change 0%R with (Re C0) at 1. rewrite map_nth. apply NL, Hm.
  - intros idxs Ne HI. assert (HI' : Forall (fun i => i < length comms) idxs) by (rewrite LC; exact HI).
    unfold direct_idxd_oppl_exp_val. destruct (idxd_ok par n (coeff q) ok ev HV comms idxs HO HI' q [] Wq Nq eq_refl) as (q' & E1 & _).
    destruct idxs as [|i0 idxs0] eqn:EI; [contradiction|]. rewrite <- EI in *. rewrite E1. cbn [bind fst app].
    set (l := map _ idxs). assert (LL : length l = length idxs) by (unfold l; now rewrite map_length).
    assert (NL : forall j, j < length idxs -> Im (nth j l C0) = 0%R /\ IsGradient s n psi0 false (nth j idxs 0) (Re (nth j l C0))).
    { intros j Hj. assert (Hm : nth j idxs 0 < length (pool s)) by (rewrite Forall_forall in HI; apply HI, nth_In, Hj). destruct (AT _ Hm) as (A1 & A2 & A3).
      assert (EN : nth j l C0 = ev (snd (nth (nth j idxs 0) comms (C0, [])))).
      { unfold l. rewrite (nth_indep _ C0 ((fun i => (ev (snd (nth i comms (C0, []))) * fst (nth i comms (C0, [])))%C) 0)) by (rewrite map_length; lia). rewrite (map_nth (fun i => (ev (snd (nth i comms (C0, []))) * fst (nth i comms (C0, [])))%C)). rewrite A1. ring. }
      rewrite EN. split; assumption. }
    rewrite FB; [|apply Forall_forall; intros g Hg; destruct (In_nth l g C0 Hg) as (mu & Hm & <-); apply NL; lia].
    eexists. split; [reflexivity|]. split; [rewrite map_length; exact LL|]. intros j Hj. change 0%R with (Re C0) at 1. rewrite map_nth. apply NL, Hj.
Qed.
Print Assumptions C92_commutator_gradients_partial.
(** measurement by sampling is not available *)
Theorem C92_slow_mode_refused : forall par s operators Ucirc idxs, measure_operators par false s operators Ucirc idxs = Throw (PyError "NotImplementedError").
Proof. reflexivity. Qed.
(** nothing but the operators of the pool is looked at: the commutators are those of the
    fermionic operators, whatever the option qubit_excitations *)
Definition with_excitations (qe : bool) (s : ucc) : ucc := mkUcc (init s) (Uprep s) (ham s) (pool_type s) (compact s) qe (trotter_number s) (pool s) (tops s) (tamps s).
Theorem C92_option_ignored : forall srt s qe, fill_commutator_pool srt (with_excitations qe s) = fill_commutator_pool srt s.
Proof. reflexivity. Qed.
(** ... so for qubit excitations the values can be wrong in sign: X0 X2 on three qubits with
    the orbitals 0 and 1 occupied, and the excitation 0 -> 2 *)
Definition flip_example (qe : bool) : ucc := mkUcc (new_computer 3) [] [(C1, [gX 0; gX 2])] "SD" false qe 1 [(C1, Antihermitian 1 [2] [0])] [] [].
Definition flip_state : list gate := [gX 0; gX 1].
Lemma flip_psi : circ_act flip_state (psi_of (init (flip_example true))) = ket 3.
Proof.
  change (init (flip_example true)) with (new_computer 3). assert (E : psi_of (new_computer 3) = ket 0).
  { apply state_eq. intros I. unfold psi_of, ket, amp. do 8 (destruct I as [|I]; [reflexivity|]). destruct I; reflexivity. }
  rewrite E. change (circ_act flip_state (ket 0)) with (act1 m_X 1 (act1 m_X 0 (ket 0))). rewrite !PropRes.flip_ket. reflexivity.
Qed.
Lemma flip_ham : op_act [(C1, [gX 0; gX 2])] (ket 3) = ket 6.
Proof.
  apply state_eq. intros I. unfold op_act. rewrite Csum_cons, Csum_nil. cbn [fst snd]. change (circ_act [gX 0; gX 2] (ket 3)) with (act1 m_X 2 (act1 m_X 0 (ket 3))). rewrite !PropRes.flip_ket. change (flip (flip 3 0) 2) with 6. ring.
Qed.
Lemma flip_fermi : act false (Antihermitian 1 [2] [0]) (ket 3) 6 = (- C1)%C.
Proof.
  cbn [act]. unfold fermi_act, Antihermitian. rewrite !Csum_cons, Csum_nil. unfold fcoef, fcre, fann, ladder_act. cbn [fst snd fold_right]. unfold create, annihilate.
  change (bit 6 2) with true. change (bit 6 0) with false. change (upd 6 2 false) with 2. change (odd_below 6 2) with true. change (bit 2 0) with false. change (odd_below 2 0) with false. change (upd 2 0 true) with 3. cbv iota.
  change (ket 3 3) with C1. apply C_ext; cbn; ring.
Qed.
Lemma flip_qubit : act true (Antihermitian 1 [2] [0]) (ket 3) 6 = C1.
Proof.
  cbn [act]. unfold qexc_act, Antihermitian. rewrite !Csum_cons, Csum_nil. unfold fcoef, fcre, fann, qladder_act. cbn [fst snd fold_right]. unfold raise, lower.
  change (bit 6 2) with true. change (bit 6 0) with false. change (upd 6 2 false) with 2. change (bit 2 0) with false. change (upd 2 0 true) with 3. cbv iota.
  change (ket 3 3) with C1. apply C_ext; cbn; ring.
Qed.
Lemma flip_hypotheses : forall qe, wf_computer (init (flip_example qe)) /\ nqubit (init (flip_example qe)) = 3 /\ Hamiltonian 3 (ham (flip_example qe)) /\ Forall (Plain 3) (pool (flip_example qe)) /\
  Applicable 3 flip_state /\ Threads 3 None (ham (flip_example qe)).
Proof.
  intros qe. split; [apply new_computer_wf|]. split; [reflexivity|]. split; [|split; [|split; [|exact I]]].
  - constructor; [|constructor]. split; [|reflexivity]. cbn [snd]. split; [|repeat constructor; cbn; lia]. split; [apply circuit_iff|]. { constructor; [|constructor; [|constructor]]; repeat split; auto. } { idtac. repeat constructor; cbn; intuition discriminate. }
  - constructor; [|constructor]. exists 1%R, [2], [0]. split; [reflexivity|]. split; [|split; repeat constructor]. split; [reflexivity|]. split; [|split; [cbn; lia|rewrite Rabs_R1; lra]].
    split; [discriminate|]. split; [reflexivity|]. split; [repeat constructor|]. split; [repeat constructor|]. left. intros k [<-|[]] [E|[]]. discriminate.
  - apply applicable_made; [|repeat constructor; cbn; lia]. constructor; [exists "X"%string, 0, 0, 0%R; split; reflexivity|]. constructor; [exists "X"%string, 1, 1, 0%R; split; reflexivity|constructor].
Qed.
Theorem C92_qubit_excitations_refuted : exists s n Utot, qubit_excitations s = true /\ wf_computer (init s) /\ nqubit (init s) = n /\ Hamiltonian n (ham s) /\ Forall (Plain n) (pool s) /\ Applicable n Utot /\
  normsq n (circ_act Utot (psi_of (init s))) = 1%R /\
  slope n (op_act (ham s)) (fun t => [(RtoC t, act (qubit_excitations s) (op_at (pool s) 0))]) (circ_act Utot (psi_of (init s))) 0%R 2%R /\
  forall srt, legal_sort srt -> exists pool' comms x, fill_commutator_pool srt s = Ok (pool', comms) /\ measure_operators None true s comms Utot [] = Ok [x] /\ (Rabs (x - (-2)) <= 1e-9)%R.
Proof.
  destruct (flip_hypotheses true) as (W & N & HH & HP & AU & TH). exists (flip_example true), 3, flip_state. split; [reflexivity|]. split; [exact W|]. split; [exact N|]. split; [exact HH|]. split; [exact HP|]. split; [exact AU|]. rewrite flip_psi.
  assert (NO : normsq 3 (ket 3) = 1%R) by (unfold normsq; rewrite QftProofs.inner_ket by (cbn; lia); reflexivity). split; [exact NO|].
  assert (SL : forall qe, slope 3 (op_act (ham (flip_example true))) (fun t => [(RtoC t, act qe (op_at (pool (flip_example true)) 0))]) (ket 3) 0%R (2 * Re (act qe (Antihermitian 1 [2] [0]) (ket 3) 6))).
  { intros qe. pose proof (Forall_inv HP) as HP1. destruct HP1 as (a & P & H & Ee & (_ & HE & _) & BP & BH). injection Ee as E0 E1 E2. subst P H.
    assert (TL : two_level (act qe (Antihermitian 1 [2] [0]))) by (now apply excitable_two_level).
    pose proof (energy_slope 3 (ham (flip_example true)) [] (act qe (Antihermitian 1 [2] [0])) [] (ket 3) 0%R (ket 3) (ket 3) (act qe (Antihermitian 1 [2] [0]) (ket 3)) (Forall_nil _) TL (Forall_nil _) (C63_hamiltonian_self_adjoint 3 _ HH)) as SL. cbn [app] in SL.
    assert (EH : op_act (ham (flip_example true)) (ket 3) = ket 6) by exact flip_ham. rewrite EH, QftProofs.inner_ket in SL by (cbn; lia). apply SL; [|intros J; reflexivity|intros J; reflexivity]. cbn [exp_product]. exists (ket 3). split; [apply is_exp_zero|intros J; reflexivity]. }
  split; [specialize (SL true); rewrite flip_qubit in SL; replace 2%R with (2 * Re C1)%R by (cbn; ring); exact SL|].
  intros srt HS. destruct (C92_commutator_gradients_partial srt HS (flip_example true) 3 flip_state None W N HH HP AU TH) as (pool' & comms & E & _ & _ & (grads & EG & LG & HG) & _).
  destruct grads as [|x [|y grads]]; try discriminate LG. exists pool', comms, x. split; [exact E|]. split; [exact EG|].
  destruct (HG 0 ltac:(cbn; lia)) as (g & Sg & Bg). cbn [nth] in Bg. rewrite flip_psi in Sg, Bg. rewrite NO in Bg. specialize (SL false). rewrite flip_fermi in SL.
  assert (Eg : g = (2 * Re (- C1)%C)%R). { destruct SL as [(E0 & HE0) SL2]. destruct Sg as [_ Sg2]. exact (uniqueness_limite _ _ _ _ (Sg2 E0 HE0) (SL2 E0 HE0)). }
  replace (-2)%R with g by (rewrite Eg; cbn; ring). eapply Rle_trans; [exact Bg|]. change (4 ^ 3) with 64. rewrite (INR_IZR_INZ 64). change (IZR (Z.of_nat 64)) with 64%R. lra.
Qed.
Print Assumptions C92_qubit_excitations_refuted.
(** the same example satisfies the hypotheses of C92_commutator_gradients_partial, where the
    gradient is -2 *)
Example C92_nonvacuous : legal_sort PropSQ.isort /\ (let s := flip_example false in wf_computer (init s) /\ nqubit (init s) = 3 /\ Hamiltonian 3 (ham s) /\ Forall (Plain 3) (pool s) /\ Applicable 3 flip_state /\ Threads 3 None (ham s)).
Proof. split; [apply PropSQ.isort_legal|apply flip_hypotheses]. Qed.
