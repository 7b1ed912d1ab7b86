(** C72: non-Trotterized single-reference quantum Krylov (NTSRQK). *)
From Coq Require Import Reals String List Arith Bool Lia Lra.
From Verif Require Import CBase Result Bits Spec OpSpec GateModel ComputerModel LoopProofs ApplyProofs SafeProofs GateProofs LibProofs SimProofs CircuitModel PauliProofs OperatorModel MeasureModel SparseModel SparseProofs PyModel PyApply ExpSpec ExpProofs ExpCircuit ExpExists EigModel EigProofs GradModel QkModel QkProofs QkEig NtModel NtProofs FermiProofs PropOperator PropMeasure PropEig PropGrad PropQk.
From Verif Require PropPy.
Import ListNotations.
Local Open Scope nat_scope.

(** what scipy's expm_multiply computes: the exponential series applied to the vector *)
Definition ExpmCorrect (expm : expm_oracle) : Prop := forall d A v t, length v = d ->
  length (expm d A v t) = d /\ forall I, I < d -> Cconverges (exp_term (RtoC t) (mat_dot d A) (amp v) I) (amp (expm d A v t) I).
(** there is such a function *)
Definition true_expm : expm_oracle := fun d A v t => map (matrix_exp (RtoC t) d A (amp v)) (seq 0 d).
Theorem C72_exponential_exists : ExpmCorrect true_expm.
Proof.
  intros d A v t L. split; [unfold true_expm; now rewrite map_length, seq_length|]. intros I HI. unfold amp at 2, true_expm. rewrite (nth_indep _ C0 (matrix_exp (RtoC t) d A (amp v) 0)) by now rewrite map_length, seq_length.
  rewrite map_nth, seq_nth by exact HI. now apply matrix_exp_spec.
Qed.
(** no partial sum of the Hamiltonian has a matrix element that is tiny but not zero (the sparse
    matrix drops entries of modulus at most 1e-16) *)
Definition NoTinySums (n : nat) (o : qop) : Prop := forall k I J, I < 2 ^ n -> J < 2 ^ n -> op_act (firstn k o) (ket I) J = C0 \/ (1e-16 < Cabs (op_act (firstn k o) (ket I) J))%R.
Definition NtSetup (o : qk_options) : Prop :=
  Applicable (qk_nqb o) (qk_Uprep o) /\ Hamiltonian (qk_nqb o) (qk_ham o) /\ qk_ham o <> [] /\ op_num_qubits (qk_ham o) = qk_nqb o /\ NoTinySums (qk_nqb o) (qk_ham o).
(** psi = exp(-i t H) applied to the reference *)
Definition Evolved (o : qk_options) (t : R) (psi : state) : Prop := is_exp (mkC 0 (- t)) (op_act (qk_ham o)) (prepared (qk_Uprep o)) psi.
Lemma ham_range n o : Hamiltonian n o -> Forall (fun t => Forall (in_range n) (snd t)) o.
Proof. apply Forall_impl. intros t (H & _). destruct (string_applicable n _ H) as (_ & _ & D). exact D. Qed.
Lemma csc_ok o : NtSetup o -> exists A, get_scipy_csc_from_op (qk_ham o) (mkC 0 (-1)) = Ok (2 ^ qk_nqb o, A) /\
  forall I J, I < 2 ^ qk_nqb o -> J < 2 ^ qk_nqb o -> A J I = (mkC 0 (-1) * op_act (qk_ham o) (ket I) J)%C.
Proof.
  intros (_ & HH & NE & HW & HX). unfold get_scipy_csc_from_op. cbv zeta. rewrite HW. destruct (sparse_exact_loop (qk_nqb o) (qk_ham o)) as (m & E & _ & _ & X).
  - eapply Forall_impl; [|exact HH]. intros t (H & _). exact H.
  - exact HX.
  - assert (EO : op_sparse (qk_nqb o) (qk_ham o) = Ok m) by (unfold op_sparse; destruct (qk_ham o); [contradiction|exact E]). rewrite EO. cbn [bind]. eexists. split; [reflexivity|]. intros I J HI HJ. cbv beta. now rewrite X.
Qed.
Definition nt_time (o : qk_options) (m : nat) : R := (INR m * (qk_dt o / INR (qk_s o)))%R.
Lemma nt_preps expm o : NtSetup o -> ExpmCorrect expm -> 1 <= qk_s o -> exists vs, (forall eig, ntsrqk_run eig expm true o = common_run eig o (nt_prep o vs)) /\
  exists QC, forall m, m <= qk_s o -> nt_prep o vs m = Ok (QC m) /\ wf_computer (QC m) /\ nqubit (QC m) = qk_nqb o /\ Evolved o (nt_time o m) (psi_of (QC m)).
Proof.
  intros HS HE H1. destruct (csc_ok o HS) as (A & EA & HA). destruct HS as (HU & HH & NE & HW & HX). set (n := qk_nqb o) in *.
  destruct (run_prepared n (qk_Uprep o) HU) as (q & Eq & (Wl & Wr) & N & Aq).
  set (v := coeff q). assert (Lv : length v = 2 ^ n) by (unfold v; rewrite Wl, <- N; reflexivity).
  exists (map (fun m => expm (2 ^ n) A v (INR m * (qk_dt o / INR (qk_s o + 1 - 1)))%R) (seq 0 (qk_s o + 1))). split.
  - intros eig. unfold ntsrqk_run. cbn [negb]. rewrite EA. cbn [bind]. fold n. rewrite Eq. cbn [bind]. unfold apply_time_evolution_op. cbn [fst snd]. fold v. rewrite Lv, Nat.eqb_refl. cbn [negb]. destruct (Nat.ltb_spec (qk_s o + 1) 2) as [Hl|Hl]; [lia|]. reflexivity.
  - exists (fun m => set_coeff_vec (new_computer n) (expm (2 ^ n) A v (nt_time o m))). intros m Hm. destruct (HE (2 ^ n) A v (nt_time o m) Lv) as (Le & Ce).
    split; [|split; [|split]].
    + unfold nt_prep, py_get. rewrite nth_error_map, (nth_error_nth' (seq 0 (qk_s o + 1)) 0) by (rewrite seq_length; lia). rewrite seq_nth by lia. cbn [option_map bind Nat.add]. rewrite Nat.add_sub. reflexivity.
    + destruct (new_computer_wf n) as (W1 & W2). split; [exact Le|exact W2].
    + reflexivity.
    + change (psi_of (set_coeff_vec (new_computer n) (expm (2 ^ n) A v (nt_time o m)))) with (amp (expm (2 ^ n) A v (nt_time o m))).
      assert (SP : supported n (amp v)) by (intros I HI; apply (amp_range v n I Lv HI)).
      assert (EX : is_exp (mkC 0 (- nt_time o m)) (op_act (qk_ham o)) (amp v) (amp (expm (2 ^ n) A v (nt_time o m)))).
      { apply (exp_transfer n (qk_ham o) A); [exact (ham_range n _ HH)|exact HA|exact SP|intros I HI; apply (amp_range _ n I Le HI)|exact Ce]. }
      unfold Evolved. replace (prepared (qk_Uprep o)) with (amp v); [exact EX|]. apply FunctionalExtensionality.functional_extensionality. exact Aq.
Qed.
(** ---- what holds: the Krylov states are exp(-i m (dt/s) H) |ref> ---- *)
Theorem C72_matrices_partial : forall eig expm o r, NtSetup o -> ExpmCorrect expm -> ntsrqk_run eig expm true o = Ok r ->
  forall Psi, (forall m, m <= qk_s o -> Evolved o (INR m * (qk_dt o / INR (qk_s o)))%R (Psi m)) -> forall a b, a <= qk_s o -> b <= qk_s o ->
  r_S r a b = inner (qk_nqb o) (Psi a) (Psi b) /\ r_H r a b = inner (qk_nqb o) (Psi a) (op_act (qk_ham o) (Psi b)).
Proof.
  intros eig expm o r HS HE E Psi HK. assert (H1 : 1 <= qk_s o).
  { destruct (Nat.eq_dec (qk_s o) 0) as [Z|]; [exfalso|lia]. destruct (csc_ok o HS) as (A & EA & _). unfold ntsrqk_run in E. cbn [negb] in E. rewrite EA in E. cbn [bind] in E. destruct (apply_circuit _ _) as [q|]; cbn [bind] in E; [|discriminate].
    unfold apply_time_evolution_op in E. destruct (negb _); [discriminate|]. rewrite Z in E. discriminate. }
  destruct (nt_preps expm o HS HE H1) as (vs & ER & QC & HQ). rewrite ER in E. destruct HS as (_ & HH & _).
  apply (common_matrices eig o (nt_prep o vs) (qk_nqb o) QC HH); [| |exact E].
  - intros m Hm. destruct (HQ m Hm) as (P1 & P2 & P3 & _). auto.
  - intros m Hm. destruct (HQ m Hm) as (_ & _ & _ & P4). exact (PropPy.is_exp_unique _ _ _ _ _ P4 (HK m Hm)).
Qed.
Print Assumptions C72_matrices_partial.
(** without diagonalize_each_step the run completes (dropped overlap eigenvalues last, see C48) *)
Theorem C72_completes_partial : forall eig expm o Psi k, NtSetup o -> ExpmCorrect expm -> 1 <= qk_s o -> qk_each_step o = false ->
  (forall m, m <= qk_s o -> Evolved o (INR m * (qk_dt o / INR (qk_s o)))%R (Psi m)) ->
  (forall S, (forall a b, a <= qk_s o -> b <= qk_s o -> S a b = inner (qk_nqb o) (Psi a) (Psi b)) -> GoodOverlap eig (qk_s o + 1) S /\ KeptFirst eig (qk_s o + 1) S k) -> EigCorrect eig k -> qk_root o < k ->
  exists r, ntsrqk_run eig expm true o = Ok r.
Proof.
  intros eig expm o Psi k HS HE H1 EF HK HG EC HR. destruct (nt_preps expm o HS HE H1) as (vs & ER & QC & HQ). setoid_rewrite ER. destruct HS as (_ & HH & _).
  refine (common_completes eig o (nt_prep o vs) (qk_nqb o) QC HH _ Psi _ k EF HG EC HR).
  - intros m Hm. destruct (HQ m Hm) as (P1 & P2 & P3 & _). auto.
  - intros m Hm. destruct (HQ m Hm) as (_ & _ & _ & P4). exact (PropPy.is_exp_unique _ _ _ _ _ P4 (HK m Hm)).
Qed.
Print Assumptions C72_completes_partial.
(** the energies are variational *)
Theorem C72_variational_partial : forall eig expm o r k Psi, NtSetup o -> ExpmCorrect expm -> 1 <= qk_s o -> ntsrqk_run eig expm true o = Ok r ->
  (forall m, m <= qk_s o -> Evolved o (INR m * (qk_dt o / INR (qk_s o)))%R (Psi m)) ->
  GoodOverlap eig (qk_s o + 1) (r_S r) -> KeptFirst eig (qk_s o + 1) (r_S r) k -> EigCorrect eig k -> NonzeroVectors eig k ->
  length (r_eigenvalues r) = k /\
  (forall e, In e (r_eigenvalues r) -> exists c, let Phi := combination (qk_s o + 1) c Psi in
     (0 < Re (inner (qk_nqb o) Phi Phi))%R /\ inner (qk_nqb o) Phi (op_act (qk_ham o) Phi) = (e * inner (qk_nqb o) Phi Phi)%C) /\
  (forall e, In e (r_eigenvalues r) -> (r_Egs r <= Re e)%R) /\
  forall L, (forall phi, L * Re (inner (qk_nqb o) phi phi) <= Re (inner (qk_nqb o) phi (op_act (qk_ham o) phi)))%R -> (L <= r_Egs r <= r_Ets r)%R.
Proof.
  intros eig expm o r k Psi HS HE H1 E HK GO KF EC NZ. destruct (nt_preps expm o HS HE H1) as (vs & ER & QC & HQ). rewrite ER in E. destruct HS as (_ & HH & _).
  refine (common_variational eig o (nt_prep o vs) (qk_nqb o) QC HH _ Psi _ r k E GO KF EC NZ).
  - intros m Hm. destruct (HQ m Hm) as (P1 & P2 & P3 & _). auto.
  - intros m Hm. destruct (HQ m Hm) as (_ & _ & _ & P4). exact (PropPy.is_exp_unique _ _ _ _ _ P4 (HK m Hm)).
Qed.
Print Assumptions C72_variational_partial.
(** ---- inputs that raise ---- *)
Theorem C72_realistic_raises : forall eig expm o, ntsrqk_run eig expm false o = Throw (PyError "ValueError").
Proof. reflexivity. Qed.
Theorem C72_one_state_raises : forall eig expm o, NtSetup o -> qk_s o = 0 -> ntsrqk_run eig expm true o = Throw (PyError "ValueError").
Proof.
  intros eig expm o HS H0. destruct (csc_ok o HS) as (A & EA & _). destruct HS as (HU & _). destruct (run_prepared (qk_nqb o) (qk_Uprep o) HU) as (q & Eq & (Wl & _) & N & _).
  unfold ntsrqk_run. cbn [negb]. rewrite EA. cbn [bind]. rewrite Eq. cbn [bind]. unfold apply_time_evolution_op. rewrite H0. destruct (negb _); reflexivity.
Qed.
Print Assumptions C72_one_state_raises.
(** a Hamiltonian that does not act on the last qubit of the register *)
Theorem C72_narrow_hamiltonian_raises : forall eig expm o, Applicable (qk_nqb o) (qk_Uprep o) -> Hamiltonian (op_num_qubits (qk_ham o)) (qk_ham o) -> qk_ham o <> [] -> NoTinySums (op_num_qubits (qk_ham o)) (qk_ham o) ->
  op_num_qubits (qk_ham o) < qk_nqb o -> ntsrqk_run eig expm true o = Throw (PyError "ValueError").
Proof.
  intros eig expm o HU HH NE HX HL. set (n := op_num_qubits (qk_ham o)) in *. destruct (sparse_exact_loop n (qk_ham o)) as (m & E & _); [eapply Forall_impl; [|exact HH]; intros t (H & _); exact H|exact HX|].
  assert (EO : op_sparse n (qk_ham o) = Ok m) by (unfold op_sparse; destruct (qk_ham o); [contradiction|exact E]).
  unfold ntsrqk_run, get_scipy_csc_from_op. cbn [negb]. cbv zeta. fold n. rewrite EO. cbn [bind]. destruct (run_prepared (qk_nqb o) (qk_Uprep o) HU) as (q & Eq & (Wl & _) & N & _). rewrite Eq. cbn [bind]. unfold apply_time_evolution_op. cbn [fst].
  rewrite Wl. unfold nbasis. rewrite N. destruct (Nat.eqb_spec (2 ^ qk_nqb o) (2 ^ n)) as [X|]; [|reflexivity]. apply Nat.pow_inj_r in X; lia.
Qed.
Print Assumptions C72_narrow_hamiltonian_raises.

(** ---- refuted: the documented states exp(-i m dt H) |ref> ---- *)
(** H = Z, reference |+>, s = 2, dt = pi: the documented overlap <Psi_0|Psi_1> is -1, the
    computed one is 0 *)
Definition nt_example : qk_options := mkQkOptions 1 [gate_H] [(C1, [gate_Z])] 1 PI 2 0 false.
Lemma nt_setup : NtSetup nt_example.
Proof.
  assert (HZ : Hamiltonian 1 [(C1, [gate_Z])]).
  { constructor; [|constructor]. split; [|reflexivity]. split; [split|].
      + constructor; [exists "Z"%string, 0; split; [cbn; tauto|reflexivity]|constructor].
      + repeat constructor; cbn; tauto.
      + repeat constructor. }
  split; [|split; [exact HZ|split; [discriminate|split; [reflexivity|]]]].
  - apply applicable_made; [constructor; [exists "H"%string, 0, 0, 0%R; split; reflexivity|constructor]|repeat constructor].
  - intros k I J HI HJ. destruct k as [|k]; [left; reflexivity|]. cbn [qk_ham nt_example firstn]. rewrite firstn_nil. change (2 ^ qk_nqb nt_example) with 2 in *.
    assert (HX : op_act [(C1, [gate_Z])] (ket I) J = C0 \/ Cabs (op_act [(C1, [gate_Z])] (ket I) J) = 1%R).
    { unfold op_act. rewrite Csum_cons, Csum_nil. cbn [fst snd]. destruct I as [|[|]], J as [|[|]]; try lia.
      - right. replace (_ + _)%C with C1; [unfold Cabs, Cnorm2; cbn; replace (1 * 1 + 0 * 0)%R with 1%R by ring; apply sqrt_1|]. unfold circ_act, gate_act, gate_Z, act1, ket; cbn. apply C_ext; cbn; ring.
      - left. unfold circ_act, gate_act, gate_Z, act1, ket; cbn. apply C_ext; cbn; ring.
      - left. unfold circ_act, gate_act, gate_Z, act1, ket; cbn. apply C_ext; cbn; ring.
      - right. replace (_ + _)%C with (- C1)%C; [unfold Cabs, Cnorm2; cbn; match goal with |- sqrt ?e = _ => replace e with 1%R by ring end; apply sqrt_1|]. unfold circ_act, gate_act, gate_Z, act1, ket; cbn. apply C_ext; cbn; ring. }
    destruct HX as [HX|HX]; [now left|right]. rewrite HX. lra.
Qed.
Definition zt (t : R) : state := euler (- t) (circ_act [gate_Z]) (prepared [gate_H]).
Lemma zt_evolved t : Evolved nt_example t (zt t).
Proof.
  unfold Evolved, zt. assert (W : forall a, circ_act [gate_Z] (circ_act [gate_Z] a) == a). { intros a. apply word_invol. destruct nt_setup as (_ & HH & _). exact (string_word 1 _ (proj1 (Forall_inv HH))). }
  replace (op_act (qk_ham nt_example)) with (circ_act [gate_Z]).
  - apply euler_is_exp; [apply circ_act_ext|exact W].
  - apply FunctionalExtensionality.functional_extensionality. intros a. apply FunctionalExtensionality.functional_extensionality. intros I. unfold op_act. cbn [qk_ham nt_example]. rewrite Csum_cons, Csum_nil. cbn [fst snd]. ring.
Qed.
Lemma zt_overlap a b : inner 1 (zt a) (zt b) = RtoC (cos (b - a)).
Proof.
  unfold zt, inner. cbn [seq Nat.pow Nat.mul Nat.add]. rewrite !Csum_cons, Csum_nil. unfold euler, sadd, sscale, prepared, circ_act, gate_act, gate_Z, gate_H, act1, ket. cbn. 
  pose proof rsqrt2_sq as I2. unfold rsqrt2 in I2.
  rewrite cos_minus. rewrite !cos_neg, !sin_neg. set (w := (1 / sqrt 2)%R) in *. apply C_ext; cbn; [|ring]. transitivity (2 * (w * w) * (cos b * cos a + sin b * sin a))%R; [ring|]. rewrite I2. field.
Qed.

Theorem C72_documented_times_refuted : exists eig expm o r Psi, NtSetup o /\ ExpmCorrect expm /\ ntsrqk_run eig expm true o = Ok r /\
  (forall m, Evolved o (INR m * qk_dt o)%R (Psi m)) /\ inner (qk_nqb o) (Psi 0) (Psi 1) = (- C1)%C /\ r_S r 0 1 = C0.
Proof.
  set (eig := fun (n : nat) (A : mat) => (repeat C1 n, delta)). set (o := nt_example).
  assert (ER : exists r, ntsrqk_run eig true_expm true o = Ok r).
  { destruct (nt_preps true_expm o nt_setup C72_exponential_exists ltac:(cbn; lia)) as (vs & ER & QC & HQ). setoid_rewrite ER. destruct nt_setup as (_ & HH & _).
    assert (HP : forall m, m <= qk_s o -> nt_prep o vs m = Ok (QC m) /\ wf_computer (QC m) /\ nqubit (QC m) = qk_nqb o) by (intros m Hm; destruct (HQ m Hm) as (P1 & P2 & P3 & _); auto).
    destruct (build_total eig o (nt_prep o vs) (qk_nqb o) QC HH HP (qk_s o + 1) eq_refl ltac:(lia)) as (st & EB & _).
    unfold common_run, build_qk_mats. rewrite EB. cbn [bind]. unfold canonical_geig_solve. change (fst (eig (qk_s o + 1) (q_s st))) with [C1; C1; C1].
    assert (EK : keep_eigenvalues [C1; C1; C1] = Ok [1; 1; 1]%R).
    { assert (A1 : Rltb 1e-12 (Im C1) = false) by (unfold Rltb; destruct (Rlt_dec 1e-12 (Im C1)) as [H|]; [cbn in H; lra|reflexivity]). assert (A2 : Rltb 1e-15 (Re C1) = true) by (unfold Rltb; destruct (Rlt_dec 1e-15 (Re C1)) as [H|H]; [reflexivity|cbn in H; lra]).
      cbn [keep_eigenvalues]. rewrite A1, A2. reflexivity. }
    rewrite EK. cbn [bind length]. cbv zeta. change (fst (eig 3 _)) with [C1; C1; C1].
    assert (LS : length (sorted_largest_idxs [C1; C1; C1] false) = 3) by (rewrite (Permutation.Permutation_length (sorted_perm _ _)); reflexivity).
    destruct (sorted_largest_idxs [C1; C1; C1] false) as [|x [|y l]]; try discriminate. cbn. eexists. reflexivity. }
  destruct ER as (r & ER). exists eig, true_expm, o, r, (fun m => zt (INR m * PI)). split; [exact nt_setup|]. split; [exact C72_exponential_exists|]. split; [exact ER|]. split; [intros m; apply zt_evolved|].
  split. { change (qk_nqb o) with 1. rewrite zt_overlap. cbn [INR]. rewrite Rmult_0_l, Rminus_0_r, Rmult_1_l, cos_PI. apply C_ext; cbn; ring. }
  destruct (C72_matrices_partial eig true_expm o r nt_setup C72_exponential_exists ER (fun m => zt (INR m * (PI / INR 2))) (fun m _ => zt_evolved _) 0 1) as (H1 & _); [cbn; lia|cbn; lia|].
  rewrite H1. change (qk_nqb o) with 1. rewrite zt_overlap. cbn [INR]. replace (1 * (PI / (1 + 1)) - 0 * (PI / (1 + 1)))%R with (PI / 2)%R by field. rewrite cos_PI2. reflexivity.
Qed.
Print Assumptions C72_documented_times_refuted.
(** example: one qubit, H = Z, reference |+>, dt = 2 pi, s = 1: the two states coincide, one
    overlap eigenvalue is kept *)
Example C72_nonvacuous : exists eig expm o r k Psi, NtSetup o /\ ExpmCorrect expm /\ qk_s o = 1 /\ ntsrqk_run eig expm true o = Ok r /\ (forall m, m <= qk_s o -> Evolved o (INR m * (qk_dt o / INR (qk_s o)))%R (Psi m)) /\
  GoodOverlap eig (qk_s o + 1) (r_S r) /\ KeptFirst eig (qk_s o + 1) (r_S r) k /\ EigCorrect eig k /\ NonzeroVectors eig k.
Proof.
  set (o := example_options). set (Psi := fun m => zt (INR m * (2 * PI / INR 1))). pose proof nt_setup as HS. change (NtSetup o) in HS.
  assert (HK : forall m, m <= qk_s o -> Evolved o (INR m * (qk_dt o / INR (qk_s o)))%R (Psi m)) by (intros m _; apply zt_evolved).
  assert (HO : forall a b, a <= 1 -> b <= 1 -> inner 1 (Psi a) (Psi b) = C1).
  { intros a b Ha Hb. unfold Psi. rewrite zt_overlap. destruct a as [|[|]], b as [|[|]]; try lia; cbn [INR].
    - replace (_ - _)%R with 0%R by field. now rewrite cos_0.
    - replace (_ - _)%R with (2 * PI)%R by field. now rewrite cos_2PI.
    - replace (_ - _)%R with (- (2 * PI))%R by field. now rewrite cos_neg, cos_2PI.
    - replace (_ - _)%R with 0%R by field. now rewrite cos_0. }
  assert (EC : EigCorrect two_eig 1). { intros A. split; [reflexivity|]. intros i j Hi Hj. assert (i = 0) by lia. assert (j = 0) by lia. subst. unfold mdot. cbn. apply C_ext; cbn; ring. }
  destruct (C72_completes_partial two_eig true_expm o Psi 1 HS C72_exponential_exists (le_n 1) eq_refl HK) as (r & E).
  { intros S HSS. apply (two_eig_overlap S). intros a b Ha Hb. rewrite HSS by (cbn; lia). now apply HO. }
  { exact EC. } { cbn; lia. }
  assert (HG : GoodOverlap two_eig 2 (r_S r) /\ KeptFirst two_eig 2 (r_S r) 1).
  { apply two_eig_overlap. intros a b Ha Hb. destruct (C72_matrices_partial two_eig true_expm o r HS C72_exponential_exists E Psi HK a b Ha Hb) as (H1 & _). rewrite H1. now apply HO. }
  exists two_eig, true_expm, o, r, 1, Psi. split; [exact HS|]. split; [exact C72_exponential_exists|]. split; [reflexivity|]. split; [exact E|]. split; [exact HK|]. split; [apply HG|]. split; [apply HG|]. split; [exact EC|].
  intros A j Hj. exists 0. split; [lia|]. assert (j = 0) by lia. subst. cbn. intros H. apply (f_equal Re) in H. cbn in H. lra.
Qed.
