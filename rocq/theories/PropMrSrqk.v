(** C80, continued: the SRQK calculation from which MRSQK selects its determinants. *)
From Coq Require Import Reals String List Arith NArith Bool Lia Lra Permutation Sorted.
From Verif Require Import CBase Result Bits Spec OpSpec GateModel ComputerModel SafeProofs LibProofs CleanProofs SimProofs CircuitModel PauliProofs OperatorModel MeasureModel MeasureProofs PyModel PyApply ExpSpec ExpProofs ExpCircuit FermiProofs EigModel EigProofs GradModel GradSpec GradProofs QkModel QkProofs QkEig MrModel MrProofs PropOperator PropMeasure PropEig PropGrad PropQk.
From Verif Require TrotterProofs PropPy PropAnsatz QftProofs StateProofs GradCalc.
Import ListNotations.
Local Open Scope nat_scope.

(** it uses the time step, the number of Trotter steps and the number of states of its own options
    (dt_o, trotter_number_o, s_o): the states are exp(-i m dt_o H), in Trotter form, on the
    reference determinant; the eigenvalues are those of their generalised eigenvalue problem,
    in increasing order *)
Theorem C80_srqk_states : forall eig o k, Hamiltonian (mr_nqb o) (mr_ham o) -> 1 <= mr_trotter_o o -> DetOn (mr_nqb o) (mr_ref o) -> mr_srqk eig o = Ok k ->
  exists (Psi : nat -> state) S H e D,
    (forall m, m <= mr_so o -> exp_product (PropPy.trotter_factors (mkC 0 (- (INR m * mr_dto o))) (mr_trotter_o o) (mr_ham o)) (ket (det_number (mr_ref o))) (Psi m) /\
       forall I, nth I (nth m (k_omega k) []) C0 = Psi m I) /\
    length (k_omega k) = mr_so o + 1 /\
    (forall a b, a <= mr_so o -> b <= mr_so o -> S a b = inner (mr_nqb o) (Psi a) (Psi b) /\ H a b = inner (mr_nqb o) (Psi a) (op_act (mr_ham o) (Psi b))) /\
    canonical_geig_solve eig (mr_so o + 1) S H false = Ok (e, D) /\ Permutation (k_evals k) e /\ StronglySorted (fun a b => Re a <= Re b)%R (k_evals k).
Proof.
  intros eig o k HH HT HR E. destruct (xgates_prepare _ _ HR) as (AX & KX). unfold mr_srqk in E. rewrite StateProofs.refprep_eq in E. cbn [bind] in E. cbv zeta in E.
  set (q := mkQkOptions (mr_nqb o) (StateProofs.xgates 0 (mr_ref o)) (mr_ham o) (mr_trotter_o o) (mr_dto o) (mr_so o) 0 true) in *.
  assert (HS : Setup q) by (split; [exact AX|split; [exact HH|exact HT]]).
  destruct (build_qk_mats eig q (srqk_prep q)) as [st|] eqn:EB; [|discriminate]. cbn [bind] in E. destruct (canonical_geig_solve eig _ _ _ true) as [ev|] eqn:EG; [|discriminate]. cbn [bind] in E. destruct (py_get (fst ev) 0); [|discriminate]. cbn [bind] in E. injection E as <-. cbn [k_evals k_omega].
  destruct (preps q HS) as (QC & HQ). assert (HP : forall m, m <= qk_s q -> srqk_prep q m = Ok (QC m) /\ wf_computer (QC m) /\ nqubit (QC m) = qk_nqb q) by (intros m _; destruct (HQ m) as (H1 & H2 & H3 & _); auto).
  unfold build_qk_mats in EB. destruct (build_inv eig q (srqk_prep q) (qk_nqb q) QC HH HP (qk_s q + 1) ltac:(lia) st EB) as [Iom _ _ Ih Is]. cbn [qk_s q] in *.
  destruct (canonical_geig_solve eig (mr_so o + 1) (q_s st) (q_h st) false) as [(e, D)|] eqn:EF.
  2:{ exfalso. unfold canonical_geig_solve in EG, EF. destruct (keep_eigenvalues _) as [s'|]; [|discriminate EG]. cbn [bind] in EF. cbv zeta in EF. discriminate EF. }
  destruct (C48_sorted_energies _ _ _ _ _ _ EF) as (e' & D' & E' & HPerm & HSort). rewrite EG in E'. injection E' as ->. cbn [fst].
  exists (fun m => psi_of (QC m)), (q_s st), (q_h st), e, D. split; [|split; [|split; [|split; [exact EF|split; [exact HPerm|exact HSort]]]]].
  - intros m Hm. destruct (HQ m) as (_ & _ & _ & K & _). unfold Krylov, prepared in K. cbn [qk_Uprep q qk_dt qk_trotter qk_ham] in K. apply GradCalc.state_eq in KX. rewrite KX in K. split; [exact K|]. intros I. rewrite Iom. rewrite (nth_indep _ [] (coeff (QC 0))) by (rewrite map_length, seq_length; lia). rewrite (map_nth (fun i => coeff (QC i))), seq_nth by lia. reflexivity.
  - now rewrite Iom, map_length, seq_length.
  - intros i j Ha Hb. rewrite Ih, Is by lia. split; reflexivity.
Qed.
Print Assumptions C80_srqk_states.
(** example: one qubit, H = Z, reference |1>, one state *)
Example C80_srqk_nonvacuous : let o := mkMr 1 [1] [(C1, [gate_Z])] 1 1 1 1 (Some 0) false false true true 0 (1/2) 2 in
  Hamiltonian (mr_nqb o) (mr_ham o) /\ DetOn (mr_nqb o) (mr_ref o) /\ exists k, mr_srqk two_eig o = Ok k /\ length (k_evals k) = 1.
Proof.
  intros o. set (q := mkQkOptions 1 (StateProofs.xgates 0 [1]) [(C1, [gate_Z])] 2 (1/2) 0 0 true).
  assert (HR : DetOn 1 [1]) by (split; [reflexivity|repeat constructor]).
  assert (HH : Hamiltonian 1 [(C1, [gate_Z])]).
  { constructor; [|constructor]. split; [|reflexivity]. split; [split|].
    - constructor; [exists "Z"%string, 0; split; [cbn; tauto|reflexivity]|constructor].
    - repeat constructor; cbn; tauto.
    - repeat constructor. }
  assert (HS : Setup q) by (split; [exact (proj1 (xgates_prepare _ _ HR))|split; [exact HH|cbn; lia]]).
  split; [exact HH|]. split; [exact HR|]. destruct (preps q HS) as (QC & HQ). assert (HP : forall m, m <= qk_s q -> srqk_prep q m = Ok (QC m) /\ wf_computer (QC m) /\ nqubit (QC m) = qk_nqb q) by (intros m _; destruct (HQ m) as (H1 & H2 & H3 & _); auto).
  destruct (qk_step_inv two_eig q (srqk_prep q) (qk_nqb q) QC HH HP 0 (mkQk mzero mzero [] [])) as (st & [_ _ _ Ih Is] & ES); [cbn; lia|apply qk_start|].
  assert (S00 : q_s st 0 0 = C1). { rewrite Is by lia. apply (HQ 0). }
  assert (G : GoodOverlap two_eig 1 (q_s st) /\ KeptFirst two_eig 1 (q_s st) 1 /\ EigCorrect two_eig 1).
  { split; [split; [|split]|split].
    - intros i j Hi Hj. assert (i = 0) by lia. assert (j = 0) by lia. subst. rewrite S00. apply C_ext; cbn; ring.
    - split; [reflexivity|]. intros i j Hi Hj. assert (i = 0) by lia. assert (j = 0) by lia. subst. unfold mdot. cbn. rewrite S00. apply C_ext; cbn; ring.
    - intros i j Hi Hj. assert (i = 0) by lia. assert (j = 0) by lia. subst. unfold mdot, madj. cbn. apply C_ext; cbn; ring.
    - split; [lia|]. intros j Hj. assert (j = 0) by lia. subst. cbn. rewrite S00. cbn. split; intros; try lia; lra.
    - intros A. split; [reflexivity|]. intros i j Hi Hj. assert (i = 0) by lia. assert (j = 0) by lia. subst. unfold mdot. cbn. apply C_ext; cbn; ring. }
  destruct G as (G1 & G2 & G3). destruct (C48_kept_subspace_partial two_eig 1 (q_s st) (q_h st) 1 G1 G2 G3) as (e & D & E1 & L & _). destruct (C48_sorted_energies _ _ _ _ _ _ E1) as (e' & D' & E2 & HPm & _). pose proof (Permutation_length HPm) as LL.
  exists (mkSrqk e' D' (q_omega st)). split; [|cbn [k_evals]; lia].
  unfold mr_srqk. rewrite StateProofs.refprep_eq. cbn [bind]. cbv zeta. cbn [mr_nqb mr_ref mr_ham mr_trotter_o mr_dto mr_so o]. fold q. unfold build_qk_mats. change (seq 0 (qk_s q + 1)) with [0]. cbn [foreach]. rewrite ES. cbn [qk_each_step q qk_root]. change (0 + 1) with 1. rewrite E2. cbn [bind fst snd].
  destruct e' as [|x e']; [cbn in LL; lia|]. cbn [py_get nth_error bind]. rewrite E2. reflexivity.
Qed.
