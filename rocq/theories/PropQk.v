(** C69: matrix elements and Experiment averages.  C70: single-reference quantum Krylov (SRQK). *)
From Coq Require Import Reals String List Arith Bool Lia Lra.
From Verif Require Import CBase Result Bits Spec OpSpec GateModel MeasSpec ComputerModel SafeProofs LibProofs CleanProofs SimProofs CircuitModel PauliProofs OperatorModel MeasureModel MeasureProofs PyModel PyApply ExpSpec ExpProofs ExpCircuit FermiProofs EigModel EigProofs GradModel GradSpec GradProofs QkModel QkProofs QkEig PropOperator PropMeasure PropEig PropGrad.
From Verif Require TrotterProofs PropPy PropAnsatz QftProofs.
Import ListNotations.
Local Open Scope nat_scope.

(** ---- C69 ---- *)
(** the state prepared from |0...0> *)
Definition prepared (U : list gate) : state := circ_act U (ket 0).
Definition OperatorOn (n : nat) (Q : option qop) : Prop := match Q with None => True | Some o => Terms (Applicable n) o end.
Definition acts (Q : option qop) (psi : state) : state := match Q with None => psi | Some o => op_act o psi end.
Lemma run_prepared n U : Applicable n U -> exists q, apply_circuit (new_computer n) U = Ok q /\ wf_computer q /\ nqubit q = n /\ psi_of q == prepared U.
Proof.
  intros H. destruct (sim_apply (new_computer n) U (new_computer_wf n) H) as (q & E & W & N & A). exists q. split; [exact E|]. split; [exact W|]. split; [exact N|].
  eapply seq_trans; [exact A|]. apply circ_act_ext. exact (new_computer_ket0 n).
Qed.
Theorem C69_matrix_element : forall n U_bra U_ket Q, Applicable n U_bra -> Applicable n U_ket -> OperatorOn n Q ->
  compute_operator_matrix_element n U_bra U_ket Q = Ok (inner n (prepared U_bra) (acts Q (prepared U_ket))).
Proof.
  intros n Ub Uk Q HB HK HQ. unfold compute_operator_matrix_element. destruct (run_prepared n Uk HK) as (q & E & W & N & A). rewrite E. cbn [bind].
  assert (HM : exists q1, match Q with None => Ok q | Some o => apply_operator q o end = Ok q1 /\ wf_computer q1 /\ nqubit q1 = n /\ psi_of q1 == acts Q (prepared Uk)).
  { destruct Q as [o|]; [|exists q; auto]. destruct (C18_apply_operator_partial q o W) as (q1 & E1 & W1 & N1 & A1); [rewrite N; exact HQ|]. exists q1. split; [exact E1|]. split; [exact W1|]. split; [congruence|].
    eapply seq_trans; [exact A1|]. intros I. unfold acts, op_act. apply Csum_ext. intros t _. f_equal. apply (circ_act_ext (snd t) _ _ A I). }
  destruct HM as (q1 & E1 & W1 & N1 & A1). rewrite E1. cbn [bind].
  destruct (sim_apply q1 (circuit_adjoint Ub) W1) as (q2 & E2 & W2 & N2 & A2); [rewrite N1; apply applicable_adjoint; exact HB|]. rewrite E2. cbn [bind].
  assert (L0 : 0 < length (coeff q2)). { destruct W2 as (L & _). rewrite L. unfold nbasis. pose proof (Nat.pow_nonzero 2 (nqubit q2)). lia. }
  unfold py_get. rewrite (nth_error_nth' _ C0 L0). f_equal. change (nth 0 (coeff q2) C0) with (psi_of q2 0).
  rewrite <- (QftProofs.inner_ket n 0 (psi_of q2)) by (pose proof (Nat.pow_nonzero 2 n); lia). rewrite (inner_ext n (ket 0) (ket 0) (psi_of q2) _ (seq_refl _) A2).
  destruct HB as (B1 & _ & B3). rewrite inner_conj, <- circ_inner_adjoint by assumption. rewrite <- inner_conj. apply inner_ext; [apply seq_refl|exact A1].
Qed.
Print Assumptions C69_matrix_element.
(** Experiment: exact average *)
Lemma op_act_ext' o a b : a == b -> op_act o a == op_act o b.
Proof. intros H I. unfold op_act. apply Csum_ext. intros t _. f_equal. apply (circ_act_ext (snd t) _ _ H I). Qed.
Theorem C69_perfect_average : forall n generator o, Applicable n generator -> Terms (StringOn n) o ->
  perfect_experimental_avg n generator o = Ok (Re (inner n (prepared generator) (op_act o (prepared generator)))).
Proof.
  intros n gen o HG HO. unfold perfect_experimental_avg. destruct (run_prepared n gen HG) as (q & E & W & N & A). rewrite E. cbn [bind].
  assert (HF : forall o, Terms (StringOn n) o -> forall z q', wf_computer q' -> nqubit q' = n -> coeff q' = coeff q ->
    exists q1, foreach o (fun t st => do r <- perfect_measure_circuit (snd st) (snd t); Ok (fst st + fst t * RtoC (fst r), snd r)%C) (z, q') = Ok ((z + inner n (psi_of q) (op_act o (psi_of q)))%C, q1)).
  { clear o HO. induction o as [|t o IH]; intros HO z q' W' N' C'; cbn [foreach].
    - exists q'. do 2 f_equal. rewrite inner_op_r, Csum_nil. ring.
    - destruct (C24_perfect_measure_circuit q' (snd t) W') as (r & q1 & E1 & R1 & (U1 & U2 & U3)); [rewrite N'; exact (Forall_inv HO)|]. cbn [fst snd]. rewrite E1. cbn [bind fst snd].
      destruct (IH (Forall_inv_tail HO) (z + fst t * RtoC r)%C q1 U3) as (q2 & E2); [congruence|congruence|]. exists q2. rewrite E2. do 2 f_equal. rewrite !inner_op_r, Csum_cons, R1, N'. unfold psi_of. rewrite C'. ring. }
  destruct (HF o HO C0 q W N eq_refl) as (q1 & E1). rewrite E1. cbn [bind fst snd]. do 2 f_equal. rewrite Cadd_0_l. apply inner_ext; [exact A|]. apply op_act_ext', A.
Qed.
Print Assumptions C69_perfect_average.
(** Experiment: sampled average.  Every shot of term c P contributes c or -c, and if the
    prepared state is an eigenstate of every string the average has no statistical error. *)
Lemma sum_pm rs : Forall (fun r => r = 1 \/ r = -1)%R rs -> (Rabs (fold_right Rplus 0 rs) <= INR (length rs))%R.
Proof.
  induction 1 as [|r rs Hr _ IH]; [cbn; rewrite Rabs_R0; lra|]. cbn [fold_right length]. rewrite S_INR. eapply Rle_trans; [apply Rabs_triang|]. assert (Rabs r <= 1)%R by (destruct Hr as [-> | ->]; [rewrite Rabs_R1; lra|rewrite Rabs_left; lra]). lra.
Qed.
Lemma sampled_loop n q0 (o : qop) (draws : list (list nat)) (N : nat) (good : C * list gate -> R -> Prop) : wf_computer q0 -> nqubit q0 = n ->
  Forall2 (fun t ds => length ds = N /\ forall q rs q', wf_computer q -> nqubit q = n -> coeff q = coeff q0 -> measure_circuit q (snd t) ds = Ok (rs, q') -> good t (fold_right Rplus 0 rs)%R) o draws ->
  Terms (StringOn n) o ->
  forall z q, wf_computer q -> nqubit q = n -> coeff q = coeff q0 ->
  exists vs q1, Forall2 (fun t v => good t v) o vs /\ foreach (combine o draws) (fun td st =>
     do r <- measure_circuit (snd st) (snd (fst td)) (snd td);
     Ok (fst st + fst (fst td) * RtoC (fold_right Rplus 0%R (fst r)), snd r)%C) (z, q) = Ok ((z + Csum (fun tv => (fst (fst tv) * RtoC (snd tv))%C) (combine o vs))%C, q1).
Proof.
  intros W0 N0 HF. induction HF as [|t ds o draws (HL & HV) _ IH]; intros HO z q W Nq Cq.
  - exists [], q. split; [constructor|]. cbn [combine foreach]. rewrite Csum_nil. do 2 f_equal. ring.
  - destruct (string_on n _ (Forall_inv HO)) as (_ & _ & HR). rewrite <- Nq in HR. destruct (C25_measure_circuit_values q (snd t) ds W HR) as (rs & q' & E & _ & _ & (U1 & U2 & U3)).
    cbn [combine foreach fst snd]. rewrite E. cbn [bind fst snd]. destruct (IH (Forall_inv_tail HO) (z + fst t * RtoC (fold_right Rplus 0 rs)%R)%C q' U3) as (vs & q1 & F & EF); [congruence|congruence|].
    exists (fold_right Rplus 0%R rs :: vs), q1. split; [constructor; [exact (HV q rs q' W Nq Cq E)|exact F]|]. rewrite EF. cbn [combine]. rewrite Csum_cons. cbn [fst snd]. do 2 f_equal. ring.
Qed.
Theorem C69_sampled_average_bounded : forall n generator o draws N, Applicable n generator -> Terms (StringOn n) o -> 1 <= N -> length draws = length o -> Forall (fun ds => length ds = N) draws ->
  exists x, experimental_avg n generator o draws N = Ok x /\ (Rabs x <= fold_right Rplus 0 (map (fun t => Rabs (Re (fst t))) o))%R.
Proof.
  intros n gen o draws N HG HO HN HL HD. unfold experimental_avg. destruct (run_prepared n gen HG) as (q & E & W & Nq & A). rewrite E. cbn [bind].
  assert (HF : Forall2 (fun t ds => length ds = N /\ forall q1 rs q', wf_computer q1 -> nqubit q1 = n -> coeff q1 = coeff q -> measure_circuit q1 (snd t) ds = Ok (rs, q') -> (Rabs (fold_right Rplus 0 rs) <= INR N)%R) o draws).
  { clear E. revert o HO HL. induction HD as [|ds draws Hd _ IH]; intros [|t o] HO HL; try discriminate; constructor.
    - split; [exact Hd|]. intros q1 rs q' W1 N1 _ E. destruct (string_on n _ (Forall_inv HO)) as (_ & _ & HR). rewrite <- N1 in HR. destruct (C25_measure_circuit_values q1 (snd t) ds W1 HR) as (rs1 & q2 & E1 & L1 & P1 & _). rewrite E in E1. injection E1 as -> ->. rewrite <- Hd, <- L1. now apply sum_pm.
    - apply IH; [exact (Forall_inv_tail HO)|cbn in HL; lia]. }
  destruct (sampled_loop n q o draws N (fun _ v => (Rabs v <= INR N)%R) W Nq HF HO C0 q W Nq eq_refl) as (vs & q1 & F & EF). rewrite EF. cbn [bind fst snd]. eexists. split; [reflexivity|].
  assert (HP : (0 < INR N)%R) by (apply lt_0_INR; lia).
  assert (HB : (Rabs (Re (Csum (fun tv => (fst (fst tv) * RtoC (snd tv))%C) (combine o vs)) ) <= INR N * fold_right Rplus 0 (map (fun t => Rabs (Re (fst t))) o))%R).
  { clear EF HF HO HL. induction F as [|t v o vs Hv _ IH]; [cbn; rewrite Rabs_R0; lra|]. cbn [combine map fold_right]. rewrite Csum_cons. cbn [Cadd Re fst snd]. eapply Rle_trans; [apply Rabs_triang|].
    replace (Re (fst t * RtoC v)) with (Re (fst t) * v)%R by (cbn; ring). rewrite Rabs_mult. assert (Rabs (Re (fst t)) * Rabs v <= Rabs (Re (fst t)) * INR N)%R by (apply Rmult_le_compat_l; [apply Rabs_pos|exact Hv]). lra. }
  rewrite Cadd_0_l. replace (Re (Csum (fun tv => (fst (fst tv) * RtoC (snd tv))%C) (combine o vs) * RtoC (/ INR N)))%C with (Re (Csum (fun tv => (fst (fst tv) * RtoC (snd tv))%C) (combine o vs)) * / INR N)%R by (cbn; ring).
  rewrite Rabs_mult, (Rabs_right (/ INR N)) by (apply Rle_ge, Rlt_le, Rinv_0_lt_compat, HP). apply Rmult_le_reg_r with (INR N); [exact HP|]. rewrite Rmult_assoc, Rinv_l by lra. lra.
Qed.
Print Assumptions C69_sampled_average_bounded.
(** the shots of the term are outcomes with non-zero probability *)
Definition LegalShots (n : nat) (generator : list gate) (t : C * list gate) (ds : list nat) : Prop :=
  forall q probs, wf_computer q -> nqubit q = n -> psi_of q == prepared generator -> rotated_probabilities q (snd t) = Ok probs -> legal probs ds.
Theorem C69_eigenstate_average_exact : forall n generator o draws N, Applicable n generator -> Terms (StringOn n) o -> 1 <= N -> 
  Forall2 (fun t ds => length ds = N /\ LegalShots n generator t ds) o draws ->
  Forall (fun t => exists v : R, circ_act (snd t) (prepared generator) == sscale (RtoC v) (prepared generator)) o ->
  experimental_avg n generator o draws N = Ok (Re (inner n (prepared generator) (op_act o (prepared generator)))).
Proof.
  intros n gen o draws N HG HO HN HD HE. unfold experimental_avg. destruct (run_prepared n gen HG) as (q & E & W & Nq & A). rewrite E. cbn [bind]. set (psi := prepared gen) in *.
  assert (N1 : inner n psi psi = C1). { unfold psi, prepared. destruct HG as (G1 & _ & G3). rewrite circ_preserves_inner by assumption. apply ket_norm. }
  assert (HF : Forall2 (fun t ds => length ds = N /\ forall q1 rs q', wf_computer q1 -> nqubit q1 = n -> coeff q1 = coeff q -> measure_circuit q1 (snd t) ds = Ok (rs, q') -> RtoC (fold_right Rplus 0 rs)%R = RtoC (INR N) * inner n psi (circ_act (snd t) psi))%C o draws).
  { clear E. induction HD as [|t ds o draws (Hd & HLg) _ IH]; constructor; [|apply IH; [exact (Forall_inv_tail HO)|exact (Forall_inv_tail HE)]].
    split; [exact Hd|]. intros q1 rs q' W1 Nq1 C1' E. destruct (Forall_inv HE) as (v & Ev). pose proof (Forall_inv HO) as HS. rewrite <- Nq1 in HS.
    assert (P1 : psi_of q1 == psi) by (unfold psi_of; rewrite C1'; exact A).
    destruct (C25_measure_circuit_born_rule q1 (snd t) 1%R W1 HS (or_introl eq_refl)) as (probs & Ep & _). 
    destruct (C25_measure_circuit_possible_values q1 (snd t) ds probs W1 HS Ep (HLg q1 probs W1 Nq1 P1 Ep)) as (rs1 & q2 & E1 & PV). rewrite E in E1. injection E1 as <- <-.
    destruct (string_on _ _ HS) as (_ & _ & HR). destruct (C25_measure_circuit_values q1 (snd t) ds W1 HR) as (rs1 & q2 & E1 & L1 & PM & _). rewrite E in E1. injection E1 as <- <-.
    assert (EV : inner n psi (circ_act (snd t) psi) = RtoC v). { rewrite (inner_ext n psi psi _ _ (seq_refl _) Ev), inner_scale_r, N1. ring. }
    assert (HV : (v * v = 1)%R).
    { pose proof (word_invol (snd t) psi (string_word _ _ HS)) as HI. assert (E2 : psi == sscale (RtoC v) (sscale (RtoC v) psi)).
      { eapply seq_trans; [apply seq_sym, HI|]. eapply seq_trans; [apply circ_act_ext, Ev|]. intros I. rewrite (circ_act_scale (snd t) (RtoC v) psi I). unfold sscale. rewrite (Ev I). reflexivity. }
      assert (E3 : inner n psi psi = inner n psi (sscale (RtoC v) (sscale (RtoC v) psi))) by (apply inner_ext; [apply seq_refl|exact E2]). rewrite !inner_scale_r, N1 in E3. apply (f_equal Re) in E3. cbn in E3. lra. }
    assert (HR1 : Forall (fun r => r = v) rs).
    { rewrite Forall_forall in *. intros r Hr. specialize (PV r Hr). specialize (PM r Hr). assert (PB : born (nqubit q1) (value_projector (snd t) r (psi_of q1)) = (((1 + r * v) * (1 + r * v)) / 4)%R).
      { rewrite Nq1. unfold born. assert (EP : value_projector (snd t) r (psi_of q1) == sscale (RtoC ((1 + r * v) / 2)) psi).
        { intros I. unfold value_projector. rewrite (circ_act_ext (snd t) _ _ P1 I), (P1 I), (Ev I). unfold sscale. apply C_ext; cbn; field. }
        rewrite (inner_ext n _ _ _ _ EP EP), inner_scale_r, inner_scale_l, N1. cbn. field. }
      rewrite PB in PV. assert (HV2 : v = 1%R \/ v = (-1)%R) by nra. destruct PM as [-> | ->], HV2 as [-> | ->]; try reflexivity; exfalso; lra. }
    rewrite EV, <- Hd, <- L1. clear - HR1. induction HR1 as [|r rs -> _ IH]; [cbn; apply C_ext; cbn; ring|]. cbn [fold_right length]. rewrite S_INR. apply (f_equal Re) in IH. cbn in IH. apply C_ext; cbn; lra. }
  destruct (sampled_loop n q o draws N (fun t v => RtoC v = RtoC (INR N) * inner n psi (circ_act (snd t) psi))%C W Nq HF HO C0 q W Nq eq_refl) as (vs & q1 & F & EF). rewrite EF. cbn [bind fst snd]. f_equal.
  assert (HP : (0 < INR N)%R) by (apply lt_0_INR; lia).
  assert (HB : Csum (fun tv => (fst (fst tv) * RtoC (snd tv))%C)%C (combine o vs) = (RtoC (INR N) * inner n psi (op_act o psi))%C).
  { rewrite inner_op_r. clear EF HF HO HE HD. induction F as [|t v o vs Hv _ IH]; [cbn [combine]; rewrite !Csum_nil; ring|]. cbn [combine]. rewrite !Csum_cons. cbn [fst snd]. rewrite Hv, IH. ring. }
  rewrite HB. cbn. field. lra.
Qed.
Print Assumptions C69_eigenstate_average_exact.
Example C69_nonvacuous : exists h x z, make_gate "H" 0 0 0 = Ok h /\ make_gate "cX" 1 0 0 = Ok x /\ make_gate "Z" 1 1 0 = Ok z /\ Applicable 2 [h; x] /\ Applicable 2 [] /\ Terms (StringOn 2) [(C1, [z])].
Proof.
  do 3 eexists. split; [reflexivity|]. split; [reflexivity|]. split; [reflexivity|]. split; [|split].
  - apply applicable_made; [constructor; [exists "H"%string, 0, 0, 0%R; auto|constructor; [exists "cX"%string, 1, 0, 0%R; auto|constructor]]|repeat constructor; cbn; lia].
  - repeat split; constructor.
  - constructor; [|constructor]. split; [split|].
    + constructor; [exists "Z"%string, 1; auto|constructor].
    + repeat constructor; cbn; tauto.
    + repeat constructor.
Qed.

(** ---- C70 ---- *)
(** what SRQK is given: a reference circuit that the simulator applies exactly, a real
    combination of Pauli strings on the register, at least one Trotter step *)
Definition Setup (o : qk_options) : Prop := Applicable (qk_nqb o) (qk_Uprep o) /\ Hamiltonian (qk_nqb o) (qk_ham o) /\ 1 <= qk_trotter o.
(** psi is the m-th Krylov state: the Trotter product formula for exp(-i m dt H) acting on the
    reference state *)
Definition Krylov (o : qk_options) (m : nat) (psi : state) : Prop :=
  exp_product (PropPy.trotter_factors (mkC 0 (- (INR m * qk_dt o))) (qk_trotter o) (qk_ham o)) (prepared (qk_Uprep o)) psi.
Lemma setup_ready o : Setup o -> qk_ready o.
Proof. intros (A & B & D). now split. Qed.
Theorem C70_krylov_states : forall o m, Setup o -> exists psi, Krylov o m psi /\ inner (qk_nqb o) psi psi = C1.
Proof. intros o m HS. destruct (srqk_prep_ok o m (setup_ready o HS)) as (QC & _ & _ & _ & R & N). now exists (psi_of QC). Qed.
Lemma preps o : Setup o -> exists QC : nat -> computer, forall m, srqk_prep o m = Ok (QC m) /\ wf_computer (QC m) /\ nqubit (QC m) = qk_nqb o /\ Krylov o m (psi_of (QC m)) /\ inner (qk_nqb o) (psi_of (QC m)) (psi_of (QC m)) = C1.
Proof.
  intros HS. exists (fun m => match srqk_prep o m with Ok q => q | Throw _ => new_computer 0 end). intros m. destruct (srqk_prep_ok o m (setup_ready o HS)) as (QC & E & R). rewrite E. split; [reflexivity|exact R].
Qed.
(** the matrices of a run are the overlaps and Hamiltonian matrix elements of the Krylov states *)
Theorem C70_matrices : forall eig o r, Setup o -> srqk_run eig o = Ok r ->
  forall Psi, (forall m, m <= qk_s o -> Krylov o m (Psi m)) -> forall a b, a <= qk_s o -> b <= qk_s o ->
  r_S r a b = inner (qk_nqb o) (Psi a) (Psi b) /\ r_H r a b = inner (qk_nqb o) (Psi a) (op_act (qk_ham o) (Psi b)) /\ r_S r a a = C1.
Proof.
  intros eig o r HS E Psi HK a b Ha Hb. destruct (preps o HS) as (QC & HQ). unfold srqk_run, common_run in E. destruct (build_qk_mats eig o (srqk_prep o)) as [st|] eqn:EB; cbn [bind] in E; [|discriminate].
  destruct (canonical_geig_solve _ _ _ _ _) as [e|]; cbn [bind] in E; [|discriminate]. destruct (py_get (fst e) 0); cbn [bind] in E; [|discriminate]. destruct (py_get (fst e) (qk_root o)); cbn [bind] in E; [|discriminate]. injection E as <-. cbn [r_S r_H].
  assert (HP : forall m, m <= qk_s o -> srqk_prep o m = Ok (QC m) /\ wf_computer (QC m) /\ nqubit (QC m) = qk_nqb o) by (intros m _; destruct (HQ m) as (H1 & H2 & H3 & _); auto).
  unfold build_qk_mats in EB. destruct HS as (_ & HH & _). destruct (build_inv eig o (srqk_prep o) (qk_nqb o) QC HH HP (qk_s o + 1) ltac:(lia) st EB) as [_ _ _ Ih Is]. rewrite Ih, Is by lia. rewrite Is by lia.
  assert (EU : forall m, m <= qk_s o -> psi_of (QC m) == Psi m). { intros m Hm. destruct (HQ m) as (_ & _ & _ & K & _). exact (PropAnsatz.exp_product_unique _ _ _ _ K (HK m Hm)). }
  split; [apply inner_ext; apply EU; assumption|]. split; [apply inner_ext; [apply EU; assumption|apply op_act_ext', EU; assumption]|]. apply HQ.
Qed.
Print Assumptions C70_matrices.
(** without diagonalize_each_step the run completes: here when the overlap eigenvalues that are
    dropped come last in the output of eig *)
Theorem C70_completes_partial : forall eig o Psi k, Setup o -> qk_each_step o = false -> (forall m, m <= qk_s o -> Krylov o m (Psi m)) ->
  (forall S, (forall a b, a <= qk_s o -> b <= qk_s o -> S a b = inner (qk_nqb o) (Psi a) (Psi b)) -> GoodOverlap eig (qk_s o + 1) S /\ KeptFirst eig (qk_s o + 1) S k) -> EigCorrect eig k -> qk_root o < k ->
  exists r, srqk_run eig o = Ok r.
Proof.
  intros eig o Psi k HS EF HK HG EC HR. destruct (preps o HS) as (QC & HQ). destruct (HS) as (_ & HH & _).
  assert (HP : forall m, m <= qk_s o -> srqk_prep o m = Ok (QC m) /\ wf_computer (QC m) /\ nqubit (QC m) = qk_nqb o) by (intros m _; destruct (HQ m) as (H1 & H2 & H3 & _); auto).
  destruct (build_total eig o (srqk_prep o) (qk_nqb o) QC HH HP (qk_s o + 1) EF ltac:(lia)) as (st & EB & [_ _ _ Ih Is]).
  assert (EU : forall m, m <= qk_s o -> psi_of (QC m) == Psi m). { intros m Hm. destruct (HQ m) as (_ & _ & _ & K & _). exact (PropAnsatz.exp_product_unique _ _ _ _ K (HK m Hm)). }
  destruct (HG (q_s st)) as (G1 & G2). { intros a b Ha Hb. rewrite Is by lia. apply inner_ext; apply EU; assumption. }
  unfold srqk_run, common_run, build_qk_mats. rewrite EB. cbn [bind]. destruct (C48_kept_subspace_partial eig (qk_s o + 1) (q_s st) (q_h st) k G1 G2 EC) as (e & D & E1 & L & _). destruct (C48_sorted_energies _ _ _ _ _ _ E1) as (e' & D' & E2 & HPm & _).
  rewrite E2. cbn [bind fst]. pose proof (Permutation.Permutation_length HPm) as LL. unfold py_get. rewrite (nth_error_nth' e' C0) by lia. cbn [bind]. rewrite (nth_error_nth' e' C0) by lia. cbn [bind]. eexists. reflexivity.
Qed.
Print Assumptions C70_completes_partial.
(** the energies are variational: every eigenvalue is the energy expectation value of a
    combination of Krylov states, so no energy lies below a lower bound of H; the ground state
    energy is the smallest eigenvalue *)
Theorem C70_variational_partial : forall eig o r k Psi, Setup o -> srqk_run eig o = Ok r -> (forall m, m <= qk_s o -> Krylov o m (Psi m)) ->
  GoodOverlap eig (qk_s o + 1) (r_S r) -> KeptFirst eig (qk_s o + 1) (r_S r) k -> EigCorrect eig k -> NonzeroVectors eig k ->
  length (r_eigenvalues r) = k /\
  (forall e, In e (r_eigenvalues r) -> exists c, let Phi := combination (qk_s o + 1) c Psi in
     (0 < Re (inner (qk_nqb o) Phi Phi))%R /\ inner (qk_nqb o) Phi (op_act (qk_ham o) Phi) = (e * inner (qk_nqb o) Phi Phi)%C) /\
  (forall e, In e (r_eigenvalues r) -> (r_Egs r <= Re e)%R) /\
  forall L, (forall phi, L * Re (inner (qk_nqb o) phi phi) <= Re (inner (qk_nqb o) phi (op_act (qk_ham o) phi)))%R -> (L <= r_Egs r <= r_Ets r)%R.
Proof.
  intros eig o r k Psi HS E HK GO KF EC NZ. set (n := qk_nqb o) in *.
  assert (HM : forall a b, a <= qk_s o -> b <= qk_s o -> r_S r a b = inner n (Psi a) (Psi b) /\ r_H r a b = inner n (Psi a) (op_act (qk_ham o) (Psi b))).
  { intros a b Ha Hb. destruct (C70_matrices eig o r HS E Psi HK a b Ha Hb) as (H1 & H2 & _). auto. }
  unfold srqk_run, common_run in E. destruct (build_qk_mats eig o (srqk_prep o)) as [st|]; cbn [bind] in E; [|discriminate].
  destruct (canonical_geig_solve eig (qk_s o + 1) (q_s st) (q_h st) true) as [[es D]|] eqn:EG; cbn [bind fst snd] in E; [|discriminate]. destruct (py_get es 0) as [e0|] eqn:E0; cbn [bind] in E; [|discriminate]. destruct (py_get es (qk_root o)) as [er|] eqn:Er; cbn [bind] in E; [|discriminate]. injection E as <-. cbn [r_S r_H r_eigenvalues r_Egs r_Ets] in *.
  destruct (rayleigh eig _ _ _ k es D GO KF EC NZ EG) as (LE & HR).
  assert (HQ : forall e, In e es -> exists c, let Phi := combination (qk_s o + 1) c Psi in (0 < Re (inner n Phi Phi))%R /\ inner n Phi (op_act (qk_ham o) Phi) = (e * inner n Phi Phi)%C).
  { intros e He. destruct (HR e He) as (c & x & H1 & H2 & H3). exists c. cbv zeta. rewrite (quad_S n _ c Psi (q_s st)) by (intros a b Ha Hb; apply HM; lia).
    rewrite (quad_H n _ c Psi (op_act (qk_ham o)) (q_h st)) by (try (apply C63_hamiltonian_self_adjoint, HS); intros a b Ha Hb; apply HM; lia). rewrite H1, H3. split; [exact H2|reflexivity]. }
  assert (H0 : forall e, In e es -> (Re e0 <= Re e)%R).
  { destruct GO as (G1 & G2 & G3). destruct KF as (K1 & K2). pose proof (solve_eq eig (qk_s o + 1) (q_s st) (q_h st) G2 G3 G1 k K1 K2 false) as EF. destruct (C48_sorted_energies _ _ _ _ _ _ EF) as (e' & D' & E2 & _ & HSort). rewrite EG in E2. injection E2 as <- <-.
    intros e He. destruct es as [|x es]; [destruct He|]. injection E0 as ->. destruct He as [->|He]; [lra|]. inversion HSort as [|? ? _ HF]; subst. rewrite Forall_forall in HF. now apply HF. }
  assert (I0 : In e0 es) by (unfold py_get in E0; destruct es as [|x es]; [discriminate|injection E0 as ->; now left]).
  assert (Ir : In er es). { unfold py_get in Er. destruct (nth_error es (qk_root o)) as [x|] eqn:EN; [|discriminate]. injection Er as ->. now apply nth_error_In in EN. }
  split; [exact LE|]. split; [exact HQ|]. split; [exact H0|]. intros L HL. split; [|apply H0, Ir]. destruct (HQ e0 I0) as (c & P1 & P2). cbv zeta in P1, P2. specialize (HL (combination (qk_s o + 1) c Psi)). rewrite P2 in HL.
  assert (IR : Im (inner n (combination (qk_s o + 1) c Psi) (combination (qk_s o + 1) c Psi)) = 0%R). { pose proof (f_equal Im (inner_conj n (combination (qk_s o + 1) c Psi) (combination (qk_s o + 1) c Psi))) as H. cbn in H. lra. }
  cbn [Cmul Re] in HL. rewrite IR in HL. apply Rmult_le_reg_r with (Re (inner n (combination (qk_s o + 1) c Psi) (combination (qk_s o + 1) c Psi))); [exact P1|]. lra.
Qed.
Print Assumptions C70_variational_partial.
Lemma filter_len {A} (f : A -> bool) l : length (filter f l) <= length l.
Proof. induction l as [|x l IH]; cbn; [lia|destruct (f x); cbn; lia]. Qed.
(** refuted: an excited target root with the default diagonalize_each_step=True.  The first
    step diagonalises a 1 x 1 problem and asks for a root that is not there. *)
Theorem C70_excited_root_refuted : forall eig o, (forall k A, length (fst (eig k A)) = k) -> qk_each_step o = true -> 1 <= qk_root o -> forall r, srqk_run eig o <> Ok r.
Proof.
  intros eig o HL HE HR r E. unfold srqk_run, common_run, build_qk_mats in E. rewrite Nat.add_1_r in E. cbn [seq foreach] in E.
  assert (HX : forall st, qk_step eig o (srqk_prep o) 0 (mkQk mzero mzero [] []) <> Ok st).
  { intros st E1. unfold qk_step in E1. destruct (srqk_prep o 0) as [q|]; cbn [bind] in E1; [|discriminate]. destruct (apply_operator q (qk_ham o)) as [q1|]; cbn [bind] in E1; [|discriminate]. cbv zeta in E1.
    destruct (foreach _ _ _) as [hs|] in E1; cbn [bind] in E1; [|discriminate]. rewrite HE in E1. destruct (canonical_geig_solve _ _ _ _ _) as [[es D]|] eqn:EG in E1; cbn [bind fst] in E1; [|discriminate].
    assert (LE : length es <= 1).
    { unfold canonical_geig_solve in EG. destruct (keep_eigenvalues _) as [s'|] eqn:EK; cbn [bind] in EG; [|discriminate]. cbv zeta in EG. injection EG as <- _. rewrite map_length.
      rewrite (Permutation.Permutation_length (sorted_perm _ _)), combine_length, seq_length, Nat.min_id, HL. apply keep_spec in EK. destruct EK as [-> _]. rewrite map_length.
      eapply Nat.le_trans; [apply filter_len|]. rewrite HL. apply Nat.le_refl. }
    unfold py_get in E1. rewrite (proj2 (nth_error_None es (qk_root o))) in E1 by lia. discriminate. }
  destruct (qk_step eig o (srqk_prep o) 0 _) as [st|] eqn:E1; cbn [bind] in E; [exact (HX st eq_refl)|discriminate].
Qed.
Print Assumptions C70_excited_root_refuted.

(** example: one qubit, H = Z, reference |+>, two Krylov states that coincide (dt = 2 pi), so
    that one overlap eigenvalue is zero and one is kept *)
Definition two_eig : eig_oracle := fun n A =>
  match n with 2 => ([RtoC 2; C0], fun i j => if Nat.eqb i 1 && Nat.eqb j 1 then RtoC (- / sqrt 2) else RtoC (/ sqrt 2)) | _ => (map (fun i => A i i) (seq 0 n), delta) end.
Lemma two_eig_overlap S : (forall a b, a <= 1 -> b <= 1 -> S a b = C1) -> GoodOverlap two_eig 2 S /\ KeptFirst two_eig 2 S 1.
Proof.
  intros HS. assert (S2 : (sqrt 2 * sqrt 2 = 2)%R) by (apply sqrt_sqrt; lra). assert (P2 : (0 < sqrt 2)%R) by (apply sqrt_lt_R0; lra).
  assert (I2 : (/ sqrt 2 * / sqrt 2 = / 2)%R) by (rewrite <- Rinv_mult; now rewrite S2). set (w := (/ sqrt 2)%R) in *.
  split; [split; [|split]|].
  - intros i j Hi Hj. rewrite !HS by lia. csolve.
  - split; [reflexivity|]. intros i j Hi Hj. unfold mdot, two_eig. cbn [seq fst snd]. rewrite !Csum_cons, Csum_nil, !HS by lia.
    destruct i as [|[|]], j as [|[|]]; try lia; cbn; fold w; apply C_ext; cbn; ring.
  - intros i j Hi Hj. unfold mdot, madj, two_eig. cbn [seq fst snd]. rewrite !Csum_cons, Csum_nil. destruct i as [|[|]], j as [|[|]]; try lia; cbn; fold w; apply C_ext; cbn; nra.
  - split; [lia|]. intros j Hj. unfold two_eig. cbn [fst]. destruct j as [|[|]]; cbn; try lia; split; intros; try lia; try lra.
Qed.
Definition gate_Z : gate := mkGate "Z" 0 0 m_Z None.
Definition gate_H : gate := mkGate "H" 0 0 m_H None.
Definition example_options : qk_options := mkQkOptions 1 [gate_H] [(C1, [gate_Z])] 1 (2 * PI) 1 0 false.
Example C70_nonvacuous : exists eig o r k Psi, Setup o /\ qk_s o = 1 /\ srqk_run eig o = Ok r /\ (forall m, m <= qk_s o -> Krylov o m (Psi m)) /\
  GoodOverlap eig (qk_s o + 1) (r_S r) /\ KeptFirst eig (qk_s o + 1) (r_S r) k /\ EigCorrect eig k /\ NonzeroVectors eig k.
Proof.
  set (o := example_options). set (psi := prepared [gate_H]).
  assert (HS : Setup o).
  { split; [|split; [|cbn; lia]].
    - apply applicable_made; [constructor; [exists "H"%string, 0, 0, 0%R; split; reflexivity|constructor]|repeat constructor].
    - constructor; [|constructor]. split; [|reflexivity]. split; [split|].
      + constructor; [exists "Z"%string, 0; split; [cbn; tauto|reflexivity]|constructor].
      + repeat constructor; cbn; tauto.
      + repeat constructor. }
  assert (N1 : inner 1 psi psi = C1). { destruct HS as ((G1 & _ & G3) & _). unfold psi, prepared. rewrite circ_preserves_inner by assumption. apply ket_norm. }
  assert (HK : forall m, m <= 1 -> Krylov o m psi).
  { intros m Hm. unfold Krylov. fold psi. change (prepared (qk_Uprep o)) with psi. unfold PropPy.trotter_factors. cbn [o example_options qk_dt qk_trotter qk_ham map repeat concat app fst snd exp_product].
    exists (euler (- (INR m * (2 * PI))) (circ_act [gate_Z]) psi). split.
    - replace (mkC 0 (- (INR m * (2 * PI))) * C1 * RtoC (/ INR 1))%C with (mkC 0 (- (INR m * (2 * PI)))) by (cbn [INR]; rewrite Rinv_1; apply C_ext; cbn; ring).
      apply euler_is_exp; [apply circ_act_ext|]. intros a. apply word_invol. destruct HS as (_ & HH & _). exact (string_word 1 _ (proj1 (Forall_inv HH))).
    - assert (TR : (cos (- (INR m * (2 * PI))) = 1 /\ sin (- (INR m * (2 * PI))) = 0)%R).
      { rewrite cos_neg, sin_neg. destruct m as [|[|]]; [cbn [INR]; rewrite Rmult_0_l, cos_0, sin_0; split; ring| |lia]. cbn [INR]. rewrite Rmult_1_l, cos_2PI, sin_2PI. split; ring. }
      intros I. unfold euler, sadd, sscale. rewrite (proj1 TR), (proj2 TR). apply C_ext; cbn; ring. }
  assert (EC : EigCorrect two_eig 1). { intros A. split; [reflexivity|]. intros i j Hi Hj. assert (i = 0) by lia. assert (j = 0) by lia. subst. unfold mdot. cbn. apply C_ext; cbn; ring. }
  destruct (C70_completes_partial two_eig o (fun _ => psi) 1 HS eq_refl HK) as (r & E).
  { intros S HSS. apply (two_eig_overlap S). intros a b Ha Hb. rewrite HSS by (cbn; lia). exact N1. }
  { exact EC. } { cbn; lia. }
  assert (HO : GoodOverlap two_eig 2 (r_S r) /\ KeptFirst two_eig 2 (r_S r) 1).
  { apply two_eig_overlap. intros a b Ha Hb. destruct (C70_matrices two_eig o r HS E (fun _ => psi) HK a b Ha Hb) as (H1 & _). rewrite H1. exact N1. }
  exists two_eig, o, r, 1, (fun _ => psi). split; [exact HS|]. split; [reflexivity|]. split; [exact E|]. split; [exact HK|]. split; [apply HO|]. split; [apply HO|]. split; [exact EC|].
  intros A j Hj. exists 0. split; [lia|]. assert (j = 0) by lia. subst. cbn. intros H. apply (f_equal Re) in H. cbn in H. lra.
Qed.
