(** C63: measure_gradient is the gradient of the energy that energy_feval evaluates. *)
From Coq Require Import Reals String List Arith Bool Lia Lra Sorted FunctionalExtensionality.
From Verif Require Import CBase Result Bits Spec OpSpec GateModel ComputerModel SafeProofs LibProofs CleanProofs SimProofs CircuitModel PauliProofs OperatorModel MeasureModel MeasureProofs SQSpec SQModel SQPoolModel SQPoolOps PyModel PyApply CompactModel CompactApply ExpSpec ExpProofs ExpCircuit FermiProofs AnsatzSpec AnsatzModel AnsatzProofs GradModel GradSpec GradCalc GradProofs GradAnsatz GradExample PropOperator PropMeasure PropAnsatz.
From Verif Require PropSQ.
Import ListNotations.
Local Open Scope nat_scope.

(** a real combination of Pauli strings on the register *)
Definition Hamiltonian (n : nat) (o : qop) : Prop := Forall (fun t => StringOn n (snd t) /\ Im (fst t) = 0%R) o.
(** the algorithm object: a register of n qubits, a state preparation circuit that the simulator
    applies exactly, a Hamiltonian on the register, and an ansatz that is not divided into steps *)
Definition Ready (s : ucc) (n : nat) : Prop :=
  wf_computer (init s) /\ nqubit (init s) = n /\ Applicable n (Uprep s) /\ Hamiltonian n (ham s) /\ pool_type s <> "sa_SD"%string /\ (compact s = false -> trotter_number s = 1).
(** the state that the ansatz acts on *)
Definition reference (s : ucc) : state := circ_act (Uprep s) (psi_of (init s)).
(** the pool entry [top] is a (T - T^dagger) on the register with coefficient one, and the ansatz
    is the exact product of exponentials: compact circuits with angles that the simulator does
    not round to zero, or amplitudes that are zero or above 1e-8 *)
Definition Usable (s : ucc) (n top : nat) (t : R) : Prop := exists a P H,
  pool_item (pool s) top = Ok (C1, Antihermitian a P H) /\ Standard a P H (Antihermitian a P H) /\ Forall (fun p => p < n) P /\ Forall (fun p => p < n) H /\
  (if compact s then (qubit_excitations s = true \/ Supported P H) /\ sharp_amplitude (length P) (t * a) else Sizable t a).

Lemma usable_fit s n top t : (compact s = false -> trotter_number s = 1) -> Usable s n top t -> entry_fit s n top t.
Proof. intros T (a & P & H & H1 & H2 & H3 & H4 & H5). exists a, P, H. split; [exact H1|]. split; [exact H2|]. split; [split; assumption|]. destruct (compact s); [exact H5|]. rewrite T; [lia|reflexivity]. Qed.
Lemma usable_at s n top t : Usable s n top t -> top < length (pool s) /\ exists a P H, op_at (pool s) top = Antihermitian a P H /\ Standard a P H (Antihermitian a P H) /\ below n P H /\
  (if compact s then (qubit_excitations s = true \/ Supported P H) /\ sharp_amplitude (length P) (t * a) else Sizable t a).
Proof.
  intros (a & P & H & EP & HS & H3 & H4 & H5). unfold pool_item in EP. destruct (Nat.lt_ge_cases top (length (pool s))) as [L|L]; [|unfold vget in EP; rewrite (proj2 (nth_error_None _ _) L) in EP; discriminate].
  split; [exact L|]. exists a, P, H. unfold op_at. rewrite (vget_ok _ _ (C0, []) L) in EP. injection EP as ->. repeat split; try assumption; apply HS.
Qed.
(** Hamiltonians *)
Lemma string_word n gs : StringOn n gs -> exp_word gs.
Proof.
  intros H. destruct (string_on n gs H) as (HP & HN & _). assert (FI : sup gs = gs). { clear - HP. unfold sup. induction HP as [|g l Hg _ IH]; [reflexivity|]. cbn [filter]. rewrite IH. unfold not_I. destruct (pauli_label_cases _ (proj1 Hg)) as [-> |[-> | ->]]; reflexivity. }
  split; [eapply Forall_impl; [|exact HP]; intros g Hg; now left|]. now rewrite FI.
Qed.
Lemma string_applicable n gs : StringOn n gs -> applicable n gs.
Proof.
  intros H. destruct (string_on n gs H) as (HP & _ & HR). apply (applicable_made n).
  - eapply Forall_impl; [|exact HP]. intros g (Hl & E). exists (glabel g), (gtarget g), (gtarget g), 0%R. split; [|exact E]. destruct (pauli_label_cases _ Hl) as [-> |[-> | ->]]; reflexivity.
  - rewrite Forall_forall in *. intros g Ig. pose proof (pauli_gate_1q g (HP g Ig)). specialize (HR g Ig). unfold in_range. lia.
Qed.
Lemma ham_applicable n o : Hamiltonian n o -> Forall (fun u => applicable n (snd u)) o.
Proof. apply Forall_impl. intros t (H & _). now apply string_applicable. Qed.
Lemma inner_op_r n a o b : inner n a (op_act o b) = Csum (fun t => fst t * inner n a (circ_act (snd t) b))%C o.
Proof.
  unfold inner, op_act. transitivity (Csum (fun I => Csum (fun t => Cconj (a I) * (fst t * circ_act (snd t) b I))%C o) (seq 0 (2 ^ n))); [apply Csum_ext; intros I _; now rewrite Csum_mul_l|].
  rewrite Csum_swap. apply Csum_ext. intros t _. rewrite <- Csum_mul_l. apply Csum_ext. intros I _. ring.
Qed.
Lemma inner_op_l n a o b : inner n (op_act o a) b = Csum (fun t => Cconj (fst t) * inner n (circ_act (snd t) a) b)%C o.
Proof.
  rewrite inner_conj, inner_op_r, Csum_conj. apply Csum_ext. intros t _. rewrite Cconj_mul, <- inner_conj. reflexivity.
Qed.
Theorem C63_hamiltonian_self_adjoint : forall n o, Hamiltonian n o -> self_adjoint n (op_act o).
Proof.
  intros n o HO a b. rewrite inner_op_r, inner_op_l. apply Csum_ext. intros t It. unfold Hamiltonian in HO. rewrite Forall_forall in HO. destruct (HO t It) as (HS & HR).
  assert (EC : Cconj (fst t) = fst t) by (apply C_ext; cbn; [reflexivity|rewrite HR; ring]). rewrite EC. f_equal.
  destruct (string_applicable n _ HS) as (A1 & _ & A3). rewrite <- (circ_preserves_inner n (snd t) (circ_act (snd t) a) b A1 A3). apply inner_ext; [|apply seq_refl]. apply seq_sym, word_invol. exact (string_word n _ HS).
Qed.
Print Assumptions C63_hamiltonian_self_adjoint.

(** ---- the circuit of the ansatz ---- *)
Lemma ansatz_built srt sort s n ts : legal_sort srt -> legal_term_sort sort -> pool_type s <> "sa_SD"%string -> (compact s = false -> 1 <= trotter_number s) -> length ts = length (tops s) -> Forall (fun x => Usable s n (fst x) (snd x)) (combine (tops s) ts) ->
  exists U, ansatz_circuit srt sort (pool_type s) (compact s) (qubit_excitations s) (trotter_number s) (pool s) (tops s) (map RtoC ts) = Ok U /\ applicable n U /\
    forall psi, exp_product (let l := factors (qubit_excitations s) (pool s) (tops s) ts in if compact s then l else trotter_steps (trotter_number s) l) psi (circ_act U psi).
Proof.
  intros HS HT Nt T1 L F. symmetry in L.
  assert (FT : Forall (fun top => top < length (pool s)) (tops s)).
  { revert F. generalize (tops s) as tops, L. clear L. induction ts as [|t ts IH]; intros [|top tops] L F; try discriminate; constructor; inversion F as [|? ? F1 F2]; subst; [exact (proj1 (usable_at _ _ _ _ F1))|]. apply IH; [now injection L|exact F2]. }
  set (Q := fun x : item => Standard (co_ x) (up_ x) (dn_ x) (Antihermitian (co_ x) (up_ x) (dn_ x)) /\ below n (up_ x) (dn_ x) /\ (if compact s then (qubit_excitations s = true \/ Supported (up_ x) (dn_ x)) /\ sharp_amplitude (length (up_ x)) (amp_ x * co_ x) else Sizable (amp_ x) (co_ x))).
  destruct (pool_items Q (pool s) (tops s) ts L) as (items & E1 & E2 & E3).
  { eapply Forall_impl; [|exact F]. intros (top, t) HU. destruct (usable_at _ _ _ _ HU) as (_ & a & P & H & EO & HSt & HB & HC). exists a, P, H. split; [exact EO|]. split; [exact HSt|]. split; [exact HB|exact HC]. }
  unfold ansatz_circuit, ansatz_pool. rewrite (pool_foreach (pool_type s) (pool s) Nt (tops s) ts [] L FT). cbn [bind app]. rewrite E1, E2. cbv zeta.
  unfold Q in E3. destruct (compact s) eqn:EC.
  - destruct (compact_items srt sort (qubit_excitations s) (trotter_number s) items) as (U & E & HU).
    { eapply Forall_impl; [|exact E3]. intros x ((_ & HE & _) & _ & HC & _). split; assumption. }
    exists U. split; [exact E|]. split; [|exact HU]. eapply compact_items_applicable; [|exact E]. eapply Forall_impl; [|exact E3]. intros x (_ & HB & _ & Hs). split; assumption.
  - assert (TK : Forall trotter_ok items). { eapply Forall_impl; [|exact E3]. intros [t a P H] (HSt & _ & HZ). exact (standard_trotter t a P H _ HSt HZ). }
    specialize (T1 eq_refl). destruct (trotter_items srt sort (qubit_excitations s) (trotter_number s) items HS HT) as (U & E & _ & HU); [lia|exact TK|]. exists U. split; [exact E|]. split.
    + eapply trotter_items_applicable; [exact HS|exact HT| |exact TK| |exact E]; [lia|]. eapply Forall_impl; [|exact E3]. intros y Hy. apply Hy.
    + intros psi. specialize (HU psi). rewrite steps_factors in HU. exact HU.
Qed.

Lemma ansatz_ready srt sort s n ts : legal_sort srt -> legal_term_sort sort -> pool_type s <> "sa_SD"%string -> (compact s = false -> trotter_number s = 1) -> length ts = length (tops s) -> Forall (fun x => Usable s n (fst x) (snd x)) (combine (tops s) ts) ->
  exists U, ansatz_circuit srt sort (pool_type s) (compact s) (qubit_excitations s) (trotter_number s) (pool s) (tops s) (map RtoC ts) = Ok U /\ applicable n U /\
    forall psi, exp_product (factors (qubit_excitations s) (pool s) (tops s) ts) psi (circ_act U psi).
Proof.
  intros HS HT Nt T1 L F. destruct (ansatz_built srt sort s n ts HS HT Nt) as (U & E & A & HU); [intros E; rewrite T1 by exact E; lia|exact L|exact F|]. exists U. split; [exact E|]. split; [exact A|]. intros psi. specialize (HU psi). cbv zeta in HU. destruct (compact s); [exact HU|]. rewrite T1 in HU by reflexivity. now rewrite one_step in HU.
Qed.
(** ---- C63 ---- *)
Lemma factors_seq qe pl tops : forall ts, length ts = length tops -> factors qe pl tops ts = map (fun k => (RtoC (nth k ts 0%R), act qe (op_at pl (nth k tops 0)))) (seq 0 (length tops)).
Proof.
  unfold factors. induction tops as [|top tops IH]; intros [|t ts] L; try discriminate; [reflexivity|]. cbn [combine map length seq nth fst snd]. f_equal. injection L as L. rewrite (IH ts L), <- seq_shift, map_map. reflexivity.
Qed.
Lemma replace_length {A} (l : list A) k x : length (replace l k x) = length l.
Proof. revert k. induction l as [|y l IH]; intros [|k]; cbn [replace length]; auto. Qed.
Lemma nth_combine {A B} (l : list A) (l' : list B) k a b : length l' = length l -> k < length l -> In (nth k l a, nth k l' b) (combine l l').
Proof. intros L Hk. rewrite <- (combine_nth l l' k a b) by (symmetry; exact L). apply nth_In. rewrite combine_length, L, Nat.min_id. exact Hk. Qed.

(** energy_feval returns the energy of the state prepared by the ansatz *)
Theorem C63_energy_partial : forall srt sort, legal_sort srt -> legal_term_sort sort -> forall s n ts, Ready s n ->
  length ts = length (tops s) -> Forall (fun x => Usable s n (fst x) (snd x)) (combine (tops s) ts) ->
  exists e, energy_feval None srt sort s (map RtoC ts) = Ok e /\ energy_after n (op_act (ham s)) (factors (qubit_excitations s) (pool s) (tops s) ts) (reference s) e /\
    (forall sched, legal_schedule sched -> 1 <= n -> Forall (fun t => Nat.even (count_Y (snd t)) = true) (ham s) -> energy_feval (Some sched) srt sort s (map RtoC ts) = Ok e).
Proof.
  intros srt sort HS HT s n ts (W & N & AP & HH & Nt & T1) L F. destruct (ansatz_ready srt sort s n ts HS HT Nt T1 L F) as (U & EU & AU & HU).
  destruct (sim_apply (init s) (Uprep s ++ U) W) as (psi & Ep & Wp & Np & Pp); [rewrite N; now apply applicable_app|]. fold (psi_of psi) in Pp. fold (psi_of (init s)) in Pp. rewrite circ_act_app in Pp. fold (reference s) in Pp. apply state_eq in Pp.
  destruct (C19_direct_op_exp_val_partial psi (ham s) Wp) as (q & Eq & _); [rewrite Np, N; now apply ham_applicable|].
  exists (energy n (op_act (ham s)) (psi_of psi)). unfold energy_feval, build_Uvqc. cbn [amplitudes]. rewrite EU. cbn [bind]. rewrite Ep. cbn [bind]. split; [|split].
  - rewrite Eq. cbn [bind fst]. rewrite Np, N. reflexivity.
  - exists (psi_of psi). split; [|reflexivity]. rewrite Pp. apply HU.
  - intros sched HL Hn HY. rewrite (C20_direct_op_exp_val_even_Y_partial sched psi (ham s) HL Wp); [cbn [bind fst]; rewrite Np, N; reflexivity|lia|].
    unfold Hamiltonian in HH. unfold Terms. rewrite Forall_forall in *. intros t It. rewrite Np, N. split; [apply HH, It|apply HY, It].
Qed.
Print Assumptions C63_energy_partial.
(** every element of the array returned by measure_gradient is the derivative of that energy *)
Theorem C63_gradient_partial : forall srt sort, legal_sort srt -> legal_term_sort sort -> forall s n params ts, Ready s n ->
  amplitudes s params = map RtoC ts -> tops s <> [] -> length ts = length (tops s) -> length (tamps s) = length (tops s) -> Forall (fun x => Usable s n (fst x) (snd x)) (combine (tops s) ts) ->
  exists grads, measure_gradient srt sort s params = Ok grads /\ length grads = length (tops s) /\
    forall k, k < length (tops s) -> slope n (op_act (ham s)) (fun x => factors (qubit_excitations s) (pool s) (tops s) (replace ts k x)) (reference s) (nth k ts 0%R) (nth k grads 0%R).
Proof.
  intros srt sort HS HT s n params ts (W & N & AP & HH & Nt & T1) EA Ne L LT F. destruct (ansatz_ready srt sort s n ts HS HT Nt T1 L F) as (U & EU & AU & HU).
  destruct (gradient_ok srt sort s n params ts (fun k => act (qubit_excitations s) (op_at (pool s) (nth k (tops s) 0))) U EA L LT) as (grads & EG & LG & SG); try assumption.
  - destruct (tops s); [contradiction|cbn [length]; lia].
  - intros k Hk. rewrite Forall_forall in F. apply entry; [exact HS|exact Nt|]. apply usable_fit; [exact T1|]. exact (F _ (nth_combine (tops s) ts k 0 0%R L Hk)).
  - now apply ham_applicable.
  - now apply C63_hamiltonian_self_adjoint.
  - unfold build_Uvqc. rewrite EA, EU. reflexivity.
  - intros psi. unfold psi. rewrite <- factors_seq by exact L. apply HU.
  - exists grads. split; [exact EG|]. split; [exact LG|]. intros k Hk. specialize (SG k Hk).
    rewrite (functional_extensionality (fun x => factors (qubit_excitations s) (pool s) (tops s) (replace ts k x)) (fun x => map (fun j => (RtoC (nth j (replace ts k x) 0%R), act (qubit_excitations s) (op_at (pool s) (nth j (tops s) 0)))) (seq 0 (length (tops s))))) by (intros x; apply factors_seq; rewrite replace_length; exact L). exact SG.
Qed.
Print Assumptions C63_gradient_partial.
(** without amplitudes measure_gradient raises *)
Theorem C63_no_amplitudes_raises : forall srt sort s n, legal_sort srt -> legal_term_sort sort -> Ready s n -> tops s = [] -> tamps s = [] -> measure_gradient srt sort s None = Throw (PyError "IndexError").
Proof.
  intros srt sort s n HS HT (W & N & AP & HH & Nt & T1) E1 E2. destruct (ansatz_ready srt sort s n [] HS HT Nt T1) as (U & EU & AU & HU); [now rewrite E1|rewrite E1; constructor|].
  destruct (sim_apply (init s) (Uprep s ++ U) W) as (psi & Ep & Wp & Np & Pp); [rewrite N; now apply applicable_app|].
  destruct (C18_apply_operator_partial psi (ham s) Wp) as (sig & Es & Ws & Ns & Ps); [rewrite Np, N; now apply ham_applicable|].
  unfold measure_gradient, build_Uvqc. cbn [amplitudes]. rewrite E2. change (@nil C) with (map RtoC []). rewrite EU. cbn [bind]. rewrite Ep. cbn [bind]. rewrite Es. cbn [bind]. reflexivity.
Qed.
Print Assumptions C63_no_amplitudes_raises.

(** ---- C64: the gradients with which ADAPT-VQE selects operators ---- *)
(** the operator e of the pool is (T - T^dagger) on the register, with coefficient one *)
Definition Plain (n : nat) (e : C * list fterm) : Prop := exists a P H, e = (C1, Antihermitian a P H) /\ Standard a P H (snd e) /\ Forall (fun p => p < n) P /\ Forall (fun p => p < n) H.
(** the operators before and after the call act in the same way *)
Definition SameOps (qe : bool) (p p' : sqpool) : Prop := Forall2 (fun e e' => fst e' = fst e /\ forall psi, act qe (snd e') psi == act qe (snd e) psi) p p'.
Lemma gradient3_loop srt n qe sig psi : legal_sort srt -> wf_computer sig -> wf_computer psi -> nqubit sig = n -> nqubit psi = n -> forall pl st, Forall (Plain n) pl ->
  exists pl' gs, foreach pl (fun e st =>
    do r <- jw_transform srt qe (snd e);
    do g <- grad_element sig psi (op_mult_coeffs (snd r) (fst e));
    Ok ((fst st ++ [(fst e, fst r)])%list, (snd st ++ [g])%list)) st = Ok ((fst st ++ pl')%list, (snd st ++ gs)%list) /\
  SameOps qe pl pl' /\ Forall2 (fun e g => g = (2 * Re (inner n (psi_of sig) (act qe (snd e) (psi_of psi))))%R) pl gs.
Proof.
  intros HS W1 W2 N1 N2. induction pl as [|e pl IH]; intros st F.
  - exists [], []. rewrite !app_nil_r. destruct st. split; [reflexivity|]. split; constructor.
  - pose proof (Forall_inv F) as (a & P & H & -> & (_ & HE & L6 & Ha) & BP & BH). pose proof (Forall_inv_tail F) as F'. cbn [foreach fst snd].
    pose proof HE as (Ne & LL & DP & DH & _). assert (L12 : length P + length H <= 12) by lia. pose proof (pow_ranks _ L12) as PR.
    destruct (AnsatzJW.jw_pair_exists qe P H Ne (excitable_ne _ _ HE) DP DH ltac:(lia)) as (q & J).
    rewrite (AnsatzJW.jp_jw _ _ _ _ J srt a HS) by lra. cbn [bind fst snd].
    set (K := op_mult_coeffs (op_mult_coeffs q (RtoC a)) C1).
    assert (CK : OperatorProofs.canonical_op K) by (unfold K; do 2 apply AnsatzJW.mult_canonical; apply J).
    assert (RK : OperatorProofs.in_reg n K). { unfold K, op_mult_coeffs, OperatorProofs.in_reg. rewrite map_map. apply Forall_map. cbn [snd]. apply (AnsatzJW.jp_reg _ _ _ _ J _ BP BH). }
    assert (AK : forall psi, op_act K psi == act qe (Antihermitian a P H) psi). { intros p I. unfold K. rewrite !AnsatzJW.mult_act, (AnsatzJW.jp_act _ _ _ _ J), AnsatzGen.act_pair. ring. }
    rewrite (grad_element_ok n sig psi K (act qe (Antihermitian a P H))) by (try assumption; try reflexivity; now apply pauli_applicable). cbn [bind].
    match goal with |- context [foreach pl _ ?st1] => destruct (IH st1 F') as (pl' & gs & E & S & G) end. cbn [fst snd] in E.
    eexists (_ :: pl'), (_ :: gs). split; [rewrite E, <- !app_assoc; cbn [app]; reflexivity|]. split; [|constructor; [reflexivity|exact G]]. constructor; [|exact S]. cbn [fst snd]. split; [reflexivity|].
    intros p. destruct (pair_ltb (P, H) (H, P)); [apply seq_refl|]. rewrite <- pair_swap. apply seq_refl.
Qed.
Theorem C64_adapt_gradients_partial : forall srt sort, legal_sort srt -> forall s n Utot, wf_computer (init s) -> nqubit (init s) = n -> Hamiltonian n (ham s) -> Forall (Plain n) (pool s) ->
  build_Uvqc srt sort s None = Ok Utot -> Applicable n Utot ->
  exists pool' grads, measure_gradient3 srt sort s = Ok (pool', grads) /\ SameOps (qubit_excitations s) (pool s) pool' /\ length grads = length (pool s) /\
    forall mu, mu < length (pool s) -> slope n (op_act (ham s)) (fun x => [(RtoC x, act (qubit_excitations s) (op_at (pool s) mu))]) (circ_act Utot (psi_of (init s))) 0%R (nth mu grads 0%R).
Proof.
  intros srt sort HS s n Ut W N HH HP EB AU. unfold measure_gradient3. rewrite EB. cbn [bind].
  destruct (sim_apply (init s) Ut W) as (psi & Ep & Wp & Np & Pp); [now rewrite N|]. rewrite Ep. cbn [bind]. fold (psi_of psi) in Pp. fold (psi_of (init s)) in Pp. apply state_eq in Pp.
  destruct (C18_apply_operator_partial psi (ham s) Wp) as (sig & Es & Ws & Ns & Ps); [rewrite Np, N; now apply ham_applicable|]. rewrite Es. cbn [bind]. apply state_eq in Ps.
  destruct (gradient3_loop srt n (qubit_excitations s) sig psi HS Ws Wp ltac:(congruence) ltac:(congruence) (pool s) ([], []) HP) as (pl' & gs & E & S & G). rewrite E. cbn [fst snd app]. exists pl', gs. split; [reflexivity|]. split; [exact S|].
  assert (LG : length gs = length (pool s)) by (clear - G; induction G; cbn [length]; congruence). split; [exact LG|].
  intros mu Hmu. assert (V : nth mu gs 0%R = (2 * Re (inner n (psi_of sig) (act (qubit_excitations s) (op_at (pool s) mu) (psi_of psi))))%R).
  { unfold op_at. clear - G Hmu. revert mu Hmu. induction G as [|e g l gs HG _ IH]; intros mu Hmu; [cbn [length] in Hmu; lia|]. destruct mu as [|mu]; [exact HG|]. apply IH. cbn [length] in Hmu. lia. }
  rewrite V, Ps. assert (TL : two_level (act (qubit_excitations s) (op_at (pool s) mu))).
  { rewrite Forall_forall in HP. destruct (HP _ (nth_In _ (C0, []) Hmu)) as (a & P & H & Ee & (_ & HE & _) & _). unfold op_at. rewrite Ee. now apply excitable_two_level. }
  rewrite <- Pp. pose proof (energy_slope n (ham s) [] (act (qubit_excitations s) (op_at (pool s) mu)) [] (psi_of psi) 0%R (psi_of psi) (psi_of psi) (act (qubit_excitations s) (op_at (pool s) mu) (psi_of psi)) (Forall_nil _) TL (Forall_nil _) (C63_hamiltonian_self_adjoint n _ HH)) as SL. cbn [app] in SL.
  apply SL; [|intros I; reflexivity|intros I; reflexivity]. cbn [exp_product]. exists (psi_of psi). split; [apply is_exp_zero|intros I; reflexivity].
Qed.
Print Assumptions C64_adapt_gradients_partial.
(** for every pool, in particular the spin-adapted one: the numbers are 2 Re <H psi|K_mu psi> with the qubit operators K_mu *)
Theorem C64_values : forall srt sort s n Utot Ks, wf_computer (init s) -> nqubit (init s) = n -> Terms (Applicable n) (ham s) -> build_Uvqc srt sort s None = Ok Utot -> Applicable n Utot ->
  Forall2 (fun e K => exists o', jw_transform srt (qubit_excitations s) (snd e) = Ok (o', K) /\ Terms (Applicable n) K) (pool s) Ks ->
  let psi := circ_act Utot (psi_of (init s)) in
  exists pool', measure_gradient3 srt sort s = Ok (pool', map (fun eK => (2 * Re (inner n (op_act (ham s) psi) (op_act (op_mult_coeffs (snd eK) (fst (fst eK))) psi)))%R) (combine (pool s) Ks)).
Proof.
  intros srt sort s n Ut Ks W N HH EB AU F psi0. unfold measure_gradient3. rewrite EB. cbn [bind].
  destruct (sim_apply (init s) Ut W) as (psi & Ep & Wp & Np & Pp); [now rewrite N|]. rewrite Ep. cbn [bind]. fold (psi_of psi) in Pp. fold (psi_of (init s)) in Pp. apply state_eq in Pp. fold psi0 in Pp.
  destruct (C18_apply_operator_partial psi (ham s) Wp) as (sig & Es & Ws & Ns & Ps); [rewrite Np, N; exact HH|]. rewrite Es. cbn [bind]. apply state_eq in Ps. rewrite <- Pp, <- Ps.
  enough (G : forall pl Ks st, Forall2 (fun e K => exists o', jw_transform srt (qubit_excitations s) (snd e) = Ok (o', K) /\ Terms (Applicable n) K) pl Ks -> exists pl', foreach pl (fun e st =>
    do r <- jw_transform srt (qubit_excitations s) (snd e);
    do g <- grad_element sig psi (op_mult_coeffs (snd r) (fst e));
    Ok ((fst st ++ [(fst e, fst r)])%list, (snd st ++ [g])%list)) st = Ok ((fst st ++ pl')%list, (snd st ++ map (fun eK => (2 * Re (inner n (psi_of sig) (op_act (op_mult_coeffs (snd eK) (fst (fst eK))) (psi_of psi))))%R) (combine pl Ks))%list)).
  { destruct (G (pool s) Ks ([], []) F) as (pl' & E). exists pl'. exact E. }
  clear F Ks. induction pl as [|e pl IH]; intros Ks st F; inversion F as [|e1 K pl1 Ks' (o' & EJ & AK) F' Q1 Q2]; subst Ks; try subst e1 pl1.
  - exists []. cbn [foreach combine map]. rewrite !app_nil_r. now destruct st.
  - cbn [foreach combine map fst snd]. rewrite EJ. cbn [bind fst snd].
    rewrite (grad_element_ok n sig psi _ (op_act (op_mult_coeffs K (fst e)))); [|assumption|assumption|congruence|congruence|unfold op_mult_coeffs; apply Forall_map; cbn [snd]; exact AK|intros; apply seq_refl]. cbn [bind].
    match goal with |- context [foreach pl _ ?st1] => destruct (IH Ks' st1 F') as (pl' & E) end. cbn [fst snd] in E. eexists (_ :: pl'). rewrite E, <- !app_assoc. cbn [app]. reflexivity.
Qed.
Print Assumptions C64_values.

(** ---- more than one Trotter step ---- *)
Lemma example_standard b : Standard 1 [S b] [b] (Antihermitian 1 [S b] [b]).
Proof.
  split; [reflexivity|]. split; [|split; [cbn; lia|rewrite Rabs_right; lra]]. split; [discriminate|]. split; [reflexivity|]. split; [repeat constructor|]. split; [repeat constructor|]. left. intros k [<-|[]] [E|[]]. lia.
Qed.
Lemma example_ham : Hamiltonian 3 XX.
Proof.
  constructor; [|constructor]. split; [|reflexivity]. cbn [snd]. split; [split|].
  - constructor; [exists "X"%string, 0; split; [tauto|reflexivity]|]. constructor; [exists "X"%string, 1; split; [tauto|reflexivity]|constructor].
  - cbn. constructor; [intros [E|[]]; discriminate|]. constructor; [intros []|constructor].
  - repeat constructor; cbn; lia.
Qed.
Lemma example_usable (compact : bool) m t1 t2 : (if compact then sharp_amplitude 1 t1 /\ sharp_amplitude 1 t2 else Sizable t1 1 /\ Sizable t2 1) -> forall ts, Forall (fun x => Usable (example compact m ts) 3 (fst x) (snd x)) (combine [0; 1] [t1; t2]).
Proof.
  intros HT ts. constructor; [|constructor; [|constructor]]; cbn [fst snd].
  - exists 1%R, [1], [0]. split; [reflexivity|]. split; [apply (example_standard 0)|]. split; [repeat constructor|]. split; [repeat constructor|]. cbn [GradModel.compact GradModel.qubit_excitations example]. destruct compact; [split; [now left|rewrite Rmult_1_r; apply HT]|apply HT].
  - exists 1%R, [2], [1]. split; [reflexivity|]. split; [apply (example_standard 1)|]. split; [repeat constructor|]. split; [repeat constructor|]. cbn [GradModel.compact GradModel.qubit_excitations example]. destruct compact; [split; [now left|rewrite Rmult_1_r; apply HT]|apply HT].
Qed.
Lemma example_ready compact m ts : (compact = false -> m = 1) -> Ready (example compact m ts) 3.
Proof.
  intros H. split; [apply new_computer_wf|]. split; [reflexivity|]. split; [|split; [exact example_ham|split; [discriminate|exact H]]]. apply applicable_made; [constructor; [exists "X"%string, 0, 0, 0%R; split; reflexivity|constructor]|repeat constructor; cbn; lia].
Qed.
(** the ansatz is divided into two steps, and the array is not the gradient of its energy *)
Theorem C63_trotter_steps_refuted : forall srt sort, legal_sort srt -> legal_term_sort sort -> exists s ts grads,
  s = example false 2 ts /\ trotter_number s = 2 /\
  Prepares (ansatz_circuit srt sort (pool_type s) (compact s) (qubit_excitations s) (trotter_number s) (pool s) (tops s) (map RtoC ts)) (trotter_steps 2 (factors (qubit_excitations s) (pool s) (tops s) ts)) /\
  measure_gradient srt sort s None = Ok grads /\
  ~ slope 3 (op_act (ham s)) (fun x => trotter_steps 2 (factors (qubit_excitations s) (pool s) (tops s) (replace ts 0 x))) (reference s) (nth 0 ts 0%R) (nth 0 grads 0%R).
Proof.
  intros srt sort HS HT. pose (ts := [0%R; PI]). pose (s := example false 2 ts).
  assert (Z : Sizable 0 1 /\ Sizable PI 1) by (split; [now left|right]; rewrite Rmult_1_r, Rabs_right; pose proof PI_RGT_0; pose proof PI2_1; lra).
  pose proof (example_usable false 2 0 PI Z ts) as F.
  destruct (ansatz_built srt sort s 3 ts HS HT) as (U & EU & AU & HU); [discriminate|intros _; cbn; lia|reflexivity|exact F|]. cbv zeta in HU. cbn [compact example s trotter_number] in HU.
  assert (R0 : circ_act (Uprep s) (psi_of (init s)) = st 1 0 0) by apply example_reference.
  assert (ST : forall x y, trotter_steps 2 (factors true (pool s) [0; 1] [x; y]) = [(RtoC (x / 2), act true K1); (RtoC (y / 2), act true K2); (RtoC (x / 2), act true K1); (RtoC (y / 2), act true K2)]).
  { intros x y. unfold trotter_steps. cbn [repeat concat map app factors combine fst snd]. change (INR 2) with 2%R. assert (E : forall z, (RtoC z * RtoC (/ 2))%C = RtoC (z / 2)) by (intros z; apply C_ext; cbn; unfold Rdiv; ring). rewrite !E. reflexivity. }
  assert (CU : circ_act U (st 1 0 0) = st 1 0 0).
  { apply state_eq. eapply exp_product_unique; [apply HU|]. change (qubit_excitations s) with true. change (tops s) with [0; 1]. unfold ts. rewrite ST. cbn [exp_product].
    assert (H0 : (0 / 2 = 0)%R) by field. rewrite H0. exists (st 1 0 0). split; [apply is_exp_zero|]. exists (st 1 0 0). split; [|exists (st 1 0 0); split; [apply is_exp_zero|exists (st 1 0 0); split; [|intros I; reflexivity]]]; (eapply CompactProofs.is_exp_res; [|apply exp2]; intros I; apply (f_equal (fun f : state => f I)), st_eq; ring). }
  destruct (gradient_ok srt sort s 3 None ts (fun k => act true (op_at (pool s) (nth k [0; 1] 0))) U) as (grads & EG & LG & SG); try assumption.
  - reflexivity.
  - reflexivity.
  - reflexivity.
  - cbn. lia.
  - intros k Hk. change (tops s) with [0; 1] in *. apply (entry srt s 3); [exact HS|discriminate|]. rewrite Forall_forall in F. specialize (F _ (nth_combine [0; 1] ts k 0 0%R eq_refl Hk)). destruct F as (a & P & H & H1 & H2 & H3 & H4 & H5). exists a, P, H. split; [exact H1|]. split; [exact H2|]. split; [split; assumption|]. cbn. lia.
  - apply new_computer_wf.
  - reflexivity.
  - apply ham_applicable, example_ham.
  - apply C63_hamiltonian_self_adjoint, example_ham.
  - unfold build_Uvqc. change (amplitudes s None) with (map RtoC ts). rewrite EU. reflexivity.
  - apply (example_ready true 1 ts). discriminate.
  - rewrite R0. cbv zeta. rewrite CU. change (length (tops s)) with 2. cbn [seq map exp_product nth]. exists (st 1 0 0). split; [apply is_exp_zero|]. exists (st 1 0 0). split; [|intros I; reflexivity]. eapply CompactProofs.is_exp_res; [|apply exp2]; intros I; apply (f_equal (fun f : state => f I)), st_eq; ring.
  - exists s, ts, grads. split; [reflexivity|]. split; [reflexivity|]. split; [exists U; split; [exact EU|exact HU]|]. split; [exact EG|]. intros (_ & SL).
    destruct (SG 0 ltac:(cbn; lia)) as (_ & S1). clear SG. rewrite R0 in S1. unfold reference in SL. rewrite R0 in SL. change (nth 0 ts 0%R) with 0%R in *. set (g := nth 0 grads 0%R) in *.
    assert (D1 : derivable_pt_lim (fun x => 2 * cos x * (sin x * cos PI))%R 0 g).
    { apply S1. intros x. exists (st (cos x) (sin x * cos PI) (sin x * sin PI)). split; [|symmetry; apply energy_st]. change (length (tops s)) with 2. cbn [replace ts seq map exp_product nth].
      exists (st (cos x) (sin x) 0). split; [eapply CompactProofs.is_exp_res; [|apply exp1]; intros I; apply (f_equal (fun f : state => f I)), st_eq; ring|]. exists (st (cos x) (sin x * cos PI) (sin x * sin PI)). split; [|intros I; reflexivity]. eapply CompactProofs.is_exp_res; [|apply exp2]; intros I; apply (f_equal (fun f : state => f I)), st_eq; ring. }
    assert (D2 : derivable_pt_lim (fun x => 2 * (cos (x / 2) * cos (x / 2)) * (- sin (x / 2)))%R 0 g).
    { apply SL. intros x. set (c := cos (x / 2)). set (d := sin (x / 2)). exists (st (c * c) (- d) (c * d)). split; [|symmetry; apply energy_st]. cbn [replace ts]. change (qubit_excitations s) with true. change (tops s) with [0; 1]. rewrite ST. cbn [exp_product].
      exists (st c d 0). split; [eapply CompactProofs.is_exp_res; [|apply exp1]; intros I; apply (f_equal (fun f : state => f I)), st_eq; unfold c, d; ring|].
      exists (st c 0 d). split; [eapply CompactProofs.is_exp_res; [|apply exp2]; intros I; apply (f_equal (fun f : state => f I)), st_eq; rewrite ?cos_PI2, ?sin_PI2; ring|].
      exists (st (c * c) (c * d) d). split; [eapply CompactProofs.is_exp_res; [|apply exp1]; intros I; apply (f_equal (fun f : state => f I)), st_eq; fold c; fold d; ring|].
      exists (st (c * c) (- d) (c * d)). split; [|intros I; reflexivity]. eapply CompactProofs.is_exp_res; [|apply exp2]; intros I; apply (f_equal (fun f : state => f I)), st_eq; rewrite ?cos_PI2, ?sin_PI2; ring. }
    assert (G1 : g = (-2)%R).
    { eapply uniqueness_limite; [exact D1|]. rewrite cos_PI. pose proof (derivable_pt_lim_mult _ _ 0 _ _ (derivable_pt_lim_cos 0) (derivable_pt_lim_sin 0)) as D. pose proof (derivable_pt_lim_scal _ (-2) 0 _ D) as D'. rewrite sin_0, cos_0 in D'. replace (-2 * (- 0 * 0 + 1 * 1))%R with (-2)%R in D' by ring.
      eapply d_ext; [|exact D']. intros y. unfold mult_real_fct, mult_fct. ring. }
    assert (G2 : g = (-1)%R).
    { eapply uniqueness_limite; [exact D2|]. pose proof (d_cos_lin (/ 2) 0) as C'. pose proof (d_sin_lin (/ 2) 0) as S'. rewrite !Rmult_0_l, ?sin_0, ?cos_0 in C', S'.
      pose proof (derivable_pt_lim_scal _ (-2) 0 _ (derivable_pt_lim_mult _ _ 0 _ _ (derivable_pt_lim_mult _ _ 0 _ _ C' C') S')) as D. unfold mult_fct in D. rewrite !Rmult_0_l, ?sin_0, ?cos_0 in D.
      match type of D with derivable_pt_lim _ _ ?v => replace v with (-1)%R in D by field end. eapply d_ext; [|exact D]. intros y. unfold mult_real_fct, Rdiv. ring. }
    lra.
Qed.
Print Assumptions C63_trotter_steps_refuted.

(** ---- concrete cases ---- *)
Example C63_nonvacuous : Ready (example false 1 [1/2; -1/3]%R) 3 /\ Forall (fun x => Usable (example false 1 [1/2; -1/3]%R) 3 (fst x) (snd x)) (combine [0; 1] [1/2; -1/3]%R) /\
  Ready (example true 7 [2 * (PI / 3); 2 * (PI / 3)]%R) 3 /\ Forall (fun x => Usable (example true 7 [2 * (PI / 3); 2 * (PI / 3)]%R) 3 (fst x) (snd x)) (combine [0; 1] [2 * (PI / 3); 2 * (PI / 3)]%R).
Proof.
  split; [now apply example_ready|]. split; [|split; [now apply example_ready|]].
  - apply (example_usable false 1). split; right; [rewrite Rmult_1_r, Rabs_right; lra|rewrite Rmult_1_r, Rabs_left; lra].
  - apply (example_usable true 7). assert (G : sharp_amplitude 1 (2 * (PI / 3))); [|split; exact G].
    intros k Hk. assert (E : k = 1 \/ k = 2) by lia. unfold sharp_angle, thr. assert (S3 : (1 < sqrt 3)%R) by (rewrite <- sqrt_1; apply sqrt_lt_1; lra). destruct E as [-> | ->].
    + replace (2 * (PI / 3) / 2 ^ 1)%R with (PI / 3)%R by field. rewrite cos_PI3, sin_PI3. split; right; rewrite Rabs_right; lra.
    + replace (2 * (PI / 3) / 2 ^ 2)%R with (PI / 6)%R by field. rewrite cos_PI6, sin_PI6. split; right; rewrite Rabs_right; lra.
Qed.
Example C64_nonvacuous : Forall (Plain 3) (pool (example false 1 [1/2; -1/3]%R)).
Proof.
  constructor; [|constructor; [|constructor]].
  - exists 1%R, [1], [0]. split; [reflexivity|]. split; [apply (example_standard 0)|]. split; repeat constructor.
  - exists 1%R, [2], [1]. split; [reflexivity|]. split; [apply (example_standard 1)|]. split; repeat constructor.
Qed.
