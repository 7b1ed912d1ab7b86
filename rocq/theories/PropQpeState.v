(** C73: what the QPE circuit computes. *)
From Coq Require Import Reals String List Arith ZArith Bool Lia Lra FunctionalExtensionality.
From Verif Require Import CBase Result Bits Spec OpSpec GateModel MeasSpec ComputerModel SafeProofs GateProofs LibProofs CleanProofs SimProofs CircuitModel PauliProofs OperatorModel MeasureModel MeasureProofs MeasReadout QftSpec GateEval PyModel PyApply ExpSpec ExpProofs ExpCircuit PropOperator PropMeasure PropGrad GradModel QkModel QkProofs QpeModel HadProofs PropQk QpeProofs FejerProofs QpeDist PropQpe.
From Verif Require TrotterProofs PropPy QftProofs PropAnsatz.
Import ListNotations.
Local Open Scope nat_scope.

(** a usable object: the preparation and the (real) Hamiltonian act on the state qubits *)
Definition Ready (o : qpe_options) : Prop := Applicable (qp_nqb o) (qp_Uprep o) /\ Hamiltonian (qp_nqb o) (qp_ham o) /\ 1 <= qp_trotter o.
(** psi' is obtained from psi by the Trotter product formula for exp(-i t H) *)
Definition Step (o : qpe_options) (t : R) (psi psi' : state) : Prop :=
  exp_product (PropPy.trotter_factors (mkC 0 (- t)) (qp_trotter o) (qp_ham o)) psi psi'.
(** the bits of the ancilla qubits n, ..., n+N-1 of the basis state I, in the order in which they
    are read out, and the basis state with these bits set to zero *)
Definition readout (n N I : nat) : list nat := map (fun l => if Nat.testbit I l then 1 else 0) (seq n N).
Definition without (n N I : nat) : nat := I mod 2 ^ n + I / 2 ^ (n + N) * 2 ^ (n + N).

Lemma without_put n N I : without n N I = put n N I 0.
Proof.
  unfold without. apply bits_ext. intros q. rewrite QftProofs.bit_put. unfold bit at 1. rewrite Nat.add_nocarry_lxor.
  - rewrite Nat.lxor_spec, <- Nat.shiftl_mul_pow2, <- Nat.shiftr_div_pow2. unfold bit. rewrite Nat.bits_0. destruct (Nat.leb_spec n q) as [L1|L1], (Nat.ltb_spec q (n + N)) as [L2|L2]; cbn [andb].
    + rewrite Nat.mod_pow2_bits_high, Nat.shiftl_spec_low by assumption. reflexivity.
    + rewrite Nat.mod_pow2_bits_high, Nat.shiftl_spec_high', Nat.shiftr_spec' by assumption. rewrite Nat.sub_add by assumption. apply xorb_false_l.
    + rewrite Nat.mod_pow2_bits_low, Nat.shiftl_spec_low by assumption. apply xorb_false_r.
    + lia.
  - apply bits_ext. intros k. unfold bit. rewrite Nat.land_spec, <- Nat.shiftl_mul_pow2, Nat.bits_0. destruct (Nat.ltb_spec k n) as [L|L].
    + rewrite (Nat.shiftl_spec_low _ (n + N) k) by lia. apply andb_false_r.
    + rewrite Nat.mod_pow2_bits_high by assumption. reflexivity.
Qed.
Lemma readout_b2n n N I : readout n N I = map (fun l => b2n (bit I l)) (seq n N).
Proof. apply map_ext. intros l. unfold bit. destruct (Nat.testbit I l); reflexivity. Qed.
Lemma phase_val n N I : phase_of (readout n N I) = (INR (val n N I) / 2 ^ N)%R.
Proof.
  revert n. induction N as [|N IH]; intros n; [unfold phase_of, val; cbn; lra|]. unfold readout. cbn [seq map]. rewrite phase_cons. fold (readout (S n) N I). rewrite IH, QftProofs.val_S, plus_INR, mult_INR, pow_INR. change (INR 2) with 2%R. cbn [pow]. assert (H : (2 ^ N <> 0)%R) by (apply pow_nonzero; lra).
  replace (INR (if Nat.testbit I n then 1 else 0)) with (INR (b2n (bit I n))) by (unfold bit; destruct (Nat.testbit I n); reflexivity). field. exact H.
Qed.
Lemma readout_bits n N I : bits_ok N (readout n N I).
Proof. split; [unfold readout; rewrite map_length, seq_length; reflexivity|]. apply Forall_forall. intros z Hz. apply in_map_iff in Hz. destruct Hz as (l & <- & _). destruct (Nat.testbit I l); lia. Qed.

(** the state: P x is the reference state after x steps of the evolution *)
Theorem C73_state : forall o t N P, Ready o -> 1 <= N -> P 0 == prepared (qp_Uprep o) -> (forall x, Step o t (P x) (P (S x))) ->
  exists U q, qpe_circuit o t N = Ok U /\ apply_circuit (new_computer (qp_nqb o + N)) U = Ok q /\ wf_computer q /\ nqubit q = qp_nqb o + N /\
  forall I, psi_of q I = (RtoC (/ 2 ^ N) * Csum (fun x => Ccis (- (2 * PI * INR x * phase_of (readout (qp_nqb o) N I))) * P x (without (qp_nqb o) N I)) (seq 0 (2 ^ N)))%C.
Proof.
  intros o t N P (HU & HH & Hm) HN HP0 HPS. destruct (circuit_ok o t N HN Hm HH HU) as (U & q & E & _ & EQ & W & NQ & A). exists U, q. split; [exact E|]. split; [exact EQ|]. split; [exact W|]. split; [exact NQ|]. intros I. rewrite A. f_equal. apply Csum_ext. intros x _.
  assert (EP : forall x, wave N o t x = P x).
  { clear x. induction x as [|x IH]; [apply seq_eq, seq_sym, HP0|]. unfold wave in *. change (Nat.iter (S x) ?f ?y) with (f (Nat.iter x f y)). rewrite IH. apply seq_eq. exact (PropAnsatz.exp_product_unique _ _ _ _ (evolve_product _ _ t _ (P x) HH) (HPS x)). }
  rewrite EP, without_put, phase_val. f_equal. f_equal. field. apply pow_nonzero. lra.
Qed.
Print Assumptions C73_state.
(** such a sequence of states exists *)
Theorem C73_evolution_defined : forall o t, Ready o -> exists P, P 0 == prepared (qp_Uprep o) /\ forall x, Step o t (P x) (P (S x)).
Proof. intros o t (_ & HH & _). exists (wave 0 o t). split; [apply seq_refl|]. intros x. exact (evolve_product _ _ t _ _ HH). Qed.
Print Assumptions C73_evolution_defined.

(** the readouts are the ancilla bits of the sampled basis states in both modes, and the samples
    come from the same probabilities *)
Lemma z_gate j : py_gate2 "Z" j j = Ok (mkGate "Z" j j m_Z None).
Proof. unfold py_gate2, make_gate. cbn [existsb String.eqb Ascii.eqb Bool.eqb orb]. rewrite Nat.eqb_refl. reflexivity. Qed.
Definition zgates (n N : nat) : list gate := map (fun j => mkGate "Z" j j m_Z None) (seq n N).
Lemma z_circuit n N : 1 <= N -> get_z_circuit n (n + N - 1) = Ok (zgates n N).
Proof.
  intros H. unfold get_z_circuit. replace (n + N - 1 + 1 - n) with N by lia. change (zgates n N) with ([] ++ zgates n N)%list. apply QftProofs.foreach_snoc. intros x _. apply z_gate.
Qed.
Lemma z_rot gs psi : (forall g, In g gs -> exists t, g = mkGate "Z" t t m_Z None) -> circ_act (flat_map rotg gs) psi == psi.
Proof.
  intros H. revert psi. induction gs as [|g gs IH]; intros psi; [apply seq_refl|]. destruct (H g (or_introl eq_refl)) as (t & ->). cbn [flat_map]. rewrite circ_act_app. eapply seq_trans; [apply IH; intros h Hh; apply H; now right|].
  intros I. unfold rotg. cbn [glabel gtarget String.eqb Ascii.eqb Bool.eqb]. unfold circ_act. cbn [fold_left]. unfold gate_act. cbn [gtarget gcontrol gmat]. rewrite Nat.eqb_refl. unfold act1, m_I, mk44. destruct (bit I t) eqn:E; cbn [b2n nth]; rewrite (upd_id' I t _ E); ring.
Qed.
Theorem C73_readouts : forall o N q draws, 1 <= N -> wf_computer q -> nqubit q = qp_nqb o + N ->
  qpe_readouts o N q draws = Ok (map (readout (qp_nqb o) N) draws) /\
  (exists Z, get_z_circuit (qp_nqb o) (qp_nqb o + N - 1) = Ok Z /\ rotated_probabilities q Z = Ok (probabilities q)).
Proof.
  intros o N q draws HN W NQ. set (n := qp_nqb o) in *. assert (HR : Forall (fun g => gtarget g < nqubit q) (zgates n N)) by (apply Forall_map, Forall_forall; intros j Hj; apply in_seq in Hj; cbn; lia). split.
  - unfold qpe_readouts. fold n. cbv zeta. destruct (qp_fast o).
    + unfold measure_z_readouts_fast. f_equal. apply map_ext. intros k. rewrite readout_b2n. f_equal. f_equal. lia.
    + rewrite (z_circuit n N HN). cbn [bind]. unfold measure_readouts. cbv zeta. rewrite rotator_ok. cbn [bind]. destruct (rot_applied q (zgates n N) W HR) as (q' & E & _). rewrite E. cbn [bind fst]. f_equal. apply map_ext. intros k. rewrite readout_b2n. unfold zgates. rewrite map_map. reflexivity.
  - exists (zgates n N). split; [apply z_circuit, HN|]. unfold rotated_probabilities. rewrite rotator_ok. cbn [bind]. destruct (rot_applied q (zgates n N) W HR) as (q' & E & A & L & _). rewrite E. cbn [bind]. f_equal.
    apply (nth_ext _ _ 0%R 0%R); [unfold probabilities; rewrite !map_length, L; destruct W as (W1 & _); rewrite W1; unfold nbasis; reflexivity|]. intros i _. rewrite !probs_nth. f_equal. rewrite (A i). apply (z_rot (zgates n N)). intros g Hg. apply in_map_iff in Hg. destruct Hg as (t & <- & _). now exists t.
Qed.
Print Assumptions C73_readouts.

(** ---- the distribution of one readout ---- *)
(** the reference state as a sum of orthogonal eigenstates v i of the evolution step, with
    eigenvalues exp(2 pi i phi i) *)
Definition Spectrum (o : qpe_options) (t : R) (d : nat) (phi : nat -> R) (v : nat -> state) : Prop :=
  prepared (qp_Uprep o) == (fun I => Csum (fun i => v i I) (seq 0 d)) /\
  (forall i, i < d -> Step o t (v i) (sscale (Ccis (2 * PI * phi i)) (v i))) /\
  (forall i j, i < d -> j < d -> i <> j -> inner (qp_nqb o) (v i) (v j) = C0).
(** probability that the phase reported by a run satisfies a test *)
Definition probability (o : qpe_options) (N : nat) (q : computer) (test : R -> bool) : R :=
  total (probabilities q) (fun I => test (phase_of (readout (qp_nqb o) N I))).
Lemma probability_split o t N q d phi v test : Ready o -> 1 <= N -> Spectrum o t d phi v -> qpe_computer o t N = Ok q ->
  probability o N q test = Rsum (fun i => (born (qp_nqb o) (v i) * response N (phi i) (fun k => test (INR k / 2 ^ N)%R))%R) (seq 0 d).
Proof.
  intros (HU & HH & Hm) HN (S1 & S2 & S3) EQ. destruct (circuit_ok o t N HN Hm HH HU) as (U & q' & E & _ & E' & W & NQ & A). unfold qpe_computer in EQ. rewrite E in EQ. cbn [bind] in EQ. rewrite E' in EQ. injection EQ as ->.
  unfold probability. rewrite <- (distribution o N q d phi v (fun k => test (INR k / 2 ^ N)%R) W NQ S3 (final_sum o t N q d phi v HH S1 S2 A)). f_equal. apply functional_extensionality. intros I. now rewrite phase_val.
Qed.
Theorem C73_distribution : forall o t N q d phi v test, Ready o -> 1 <= N -> Spectrum o t d phi v -> qpe_computer o t N = Ok q ->
  probability o N q test = Rsum (fun i => (born (qp_nqb o) (v i) *
    Rsum (fun k => if test (INR k / 2 ^ N)%R then Cnorm2 (RtoC (/ 2 ^ N) * Csum (fun x => Ccis (2 * PI * (INR x * (phi i - INR k / 2 ^ N)))) (seq 0 (2 ^ N)))%C else 0) (seq 0 (2 ^ N)))%R) (seq 0 d).
Proof.
  intros o t N q d phi v test HR HN HS EQ. rewrite (probability_split o t N q d phi v test HR HN HS EQ). apply Rsum_ext. intros i _. f_equal. apply Rsum_ext. intros k _. unfold fejer. rewrite pow2_INR. reflexivity.
Qed.
Print Assumptions C73_distribution.
Lemma born_nonneg n psi : (0 <= born n psi)%R.
Proof. unfold born, inner. rewrite Re_Csum. apply Rsum_nonneg. intros I _. rewrite Cmul_conj. cbn. apply Cnorm2_nonneg. Qed.
Lemma Rsum_one (f : nat -> R) d i : i < d -> (forall j, (0 <= f j)%R) -> (f i <= Rsum f (seq 0 d))%R.
Proof.
  intros Hi H. induction d as [|d IH]; [lia|]. rewrite seq_S, Rsum_app, Rsum_cons. cbn [Nat.add]. assert (E0 : Rsum f (@nil nat) = 0%R) by reflexivity. rewrite E0. destruct (Nat.eq_dec i d) as [->|N].
  - pose proof (Rsum_nonneg f (seq 0 d) (fun x _ => H x)). lra.
  - specialize (IH ltac:(lia)). pose proof (H d). lra.
Qed.
Lemma split_lower o t N q d phi v test i c : Ready o -> 1 <= N -> Spectrum o t d phi v -> qpe_computer o t N = Ok q -> i < d ->
  (c <= response N (phi i) (fun k => test (INR k / 2 ^ N)%R))%R -> (c * born (qp_nqb o) (v i) <= probability o N q test)%R.
Proof.
  intros HR HN HS EQ Hi HC. rewrite (probability_split o t N q d phi v test HR HN HS EQ). eapply Rle_trans; [|apply (Rsum_one (fun i => (born (qp_nqb o) (v i) * response N (phi i) (fun k => test (INR k / 2 ^ N)%R))%R) d i Hi)].
  - rewrite Rmult_comm. apply Rmult_le_compat_l; [apply born_nonneg|exact HC].
  - intros j. apply Rmult_le_pos; [apply born_nonneg|apply response_nonneg].
Qed.
(** the promise of success_prob and num_precise_bits: with the number of ancilla qubits chosen by
    run, a run reports the phase of the i-th eigenstate up to 2^-num_precise_bits with at least
    success_prob times the weight of that eigenstate *)
Theorem C73_success_probability : forall o t p prec, Ready o -> (p < 1)%R ->
  exists N q, n_ancilla p prec = Ok N /\ 1 <= N /\ qpe_computer o t N = Ok q /\
  forall d phi v, Spectrum o t d phi v -> forall i test, i < d ->
    (forall x (z : Z), (Rabs (phi i - x + IZR z) <= / 2 ^ prec)%R -> test x = true) -> (p * born (qp_nqb o) (v i) <= probability o N q test)%R.
Proof.
  intros o t p prec HR Hp. destruct (ancillas p prec Hp) as (e & EN & He & HE & _). assert (HN : 1 <= prec + e) by lia. assert (HR2 := HR). destruct HR as (HU & HH & Hm).
  destruct (circuit_ok o t (prec + e) HN Hm HH HU) as (U & q & E & _ & E' & _). exists (prec + e), q. split; [exact EN|]. split; [exact HN|]. assert (EQ : qpe_computer o t (prec + e) = Ok q) by (unfold qpe_computer; rewrite E; exact E'). split; [exact EQ|].
  intros d phi v HS i test Hi HT. apply (split_lower o t (prec + e) q d phi v test i p HR2 HN HS EQ Hi). eapply Rle_trans; [|apply (response_success prec e (phi i) _ He)].
  - assert (0 < 1 / (1 - p))%R by (unfold Rdiv; rewrite Rmult_1_l; apply Rinv_0_lt_compat; lra). assert (1 / (2 * 2 ^ e - 1) <= 1 - p)%R; [|lra].
    replace (1 - p)%R with (1 / (1 / (1 - p)))%R by (field; lra). apply inv_pos_le; lra.
  - intros k _ (z & Hz). apply (HT _ z Hz).
Qed.
Print Assumptions C73_success_probability.
(** the phase nearest to the i-th one is reported with probability at least 4/pi^2 times its weight *)
Theorem C73_nearest_phase : forall o t N q d phi v i test, Ready o -> 1 <= N -> Spectrum o t d phi v -> qpe_computer o t N = Ok q -> i < d ->
  (forall x (z : Z), (Rabs (phi i - x + IZR z) <= / (2 * 2 ^ N))%R -> test x = true) -> (4 / (PI * PI) * born (qp_nqb o) (v i) <= probability o N q test)%R.
Proof.
  intros o t N q d phi v i test HR HN HS EQ Hi HT. apply (split_lower o t N q d phi v test i _ HR HN HS EQ Hi). set (M := 2 ^ N). assert (HM : 1 <= M) by (apply Nat.neq_0_lt_0, Nat.pow_nonzero; lia).
  assert (HMI : (0 < INR M)%R) by (apply lt_0_INR; lia). assert (EM : INR M = (2 ^ N)%R) by apply pow2_INR.
  set (m := py_round (INR M * phi i)). pose proof (round_close (INR M * phi i)) as HC. fold m in HC. set (k := Z.to_nat (m mod Z.of_nat M)). pose proof (Z.mod_pos_bound m (Z.of_nat M) ltac:(lia)) as HK. assert (Hk : k < M) by lia.
  assert (EK : INR k = (IZR m - INR M * IZR (m / Z.of_nat M))%R). { unfold k. rewrite INR_IZR_INZ, Z2Nat.id by lia. rewrite (INR_IZR_INZ M), <- mult_IZR, <- minus_IZR. f_equal. rewrite Z.mod_eq by lia. reflexivity. }
  assert (HD : (Rabs (phi i - INR k / INR M + IZR (- (m / Z.of_nat M))) <= 1 / (2 * INR M))%R).
  { replace (phi i - INR k / INR M + IZR (- (m / Z.of_nat M)))%R with (- (IZR m - INR M * phi i) * / INR M)%R by (rewrite EK, opp_IZR; field; lra). rewrite Rabs_mult, Rabs_Ropp, (Rabs_right (/ INR M)) by (left; apply Rinv_0_lt_compat, HMI). replace (1 / (2 * INR M))%R with (1 / 2 * / INR M)%R by (field; lra). apply Rmult_le_compat_r; [left; apply Rinv_0_lt_compat, HMI|exact HC]. }
  eapply Rle_trans; [apply (fejer_lower M _ HM HD)|]. rewrite fejer_period. unfold response. fold M.
  eapply Rle_trans; [|apply (Rsum_one (fun k => if test (INR k / 2 ^ N)%R then Cnorm2 (fejer M (phi i - INR k / INR M)) else 0%R) M k Hk)].
  - cbv beta. rewrite (HT (INR k / 2 ^ N)%R (- (m / Z.of_nat M))%Z); [lra|]. rewrite <- EM. replace (/ (2 * INR M))%R with (1 / (2 * INR M))%R by (field; lra). exact HD.
  - intros j. destruct (test (INR j / 2 ^ N)%R); [apply Cnorm2_nonneg|lra].
Qed.
Print Assumptions C73_nearest_phase.
