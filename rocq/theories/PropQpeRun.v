(** C73: complete runs of QPE, and runs whose phase is representable. *)
From Coq Require Import Reals String List Arith ZArith Bool Lia Lra FunctionalExtensionality.
From Verif Require Import CBase Result Bits Spec OpSpec GateModel MeasSpec ComputerModel SafeProofs GateProofs LibProofs CleanProofs SimProofs CircuitModel PauliProofs OperatorModel MeasureModel MeasureProofs MeasReadout QftSpec GateEval PyModel PyApply ExpSpec ExpProofs ExpCircuit TrotterProofs PropOperator PropMeasure PropGrad GradModel QkModel QkProofs QpeModel HadProofs PropQk QpeProofs FejerProofs QpeDist PropQpe PropQpeState.
From Verif Require PropPy QftProofs PropAnsatz.
Import ListNotations.
Local Open Scope nat_scope.

(** a run finishes for every list of samples; the phases are read off the samples *)
Lemma run_eq o t p prec guess draws : Ready o -> (p < 1)%R -> exists N U q, n_ancilla p prec = Ok N /\ 1 <= N /\ qpe_circuit o t N = Ok U /\ qpe_computer o t N = Ok q /\ wf_computer q /\ nqubit q = qp_nqb o + N /\
  qpe_run o guess t p prec draws = (do r <- qpe_post guess t (length draws) N (map (readout (qp_nqb o) N) draws); Ok (r, (N, get_num_cnots U, length draws))).
Proof.
  intros (HU & HH & Hm) Hp. destruct (ancillas p prec Hp) as (e & EN & He & _). assert (HN : 1 <= prec + e) by lia.
  destruct (circuit_ok o t (prec + e) HN Hm HH HU) as (U & q & E & _ & E' & W & NQ & _). exists (prec + e), U, q. split; [exact EN|]. split; [exact HN|]. split; [exact E|]. split; [unfold qpe_computer; rewrite E; exact E'|]. split; [exact W|]. split; [exact NQ|].
  unfold qpe_run. rewrite EN. cbn [bind]. rewrite E. cbn [bind]. rewrite E'. cbn [bind]. rewrite (proj1 (C73_readouts o (prec + e) q draws HN W NQ)). reflexivity.
Qed.
Lemma readouts_bits n N draws : Forall (bits_ok N) (map (readout n N) draws).
Proof. apply Forall_map, Forall_forall. intros I _. apply readout_bits. Qed.
Theorem C73_run_completes : forall o t p prec guess draws, Ready o -> (p < 1)%R -> t <> 0%R -> draws <> [] ->
  exists N U res, n_ancilla p prec = Ok N /\ qpe_circuit o t N = Ok U /\ qpe_run o guess t p prec draws = Ok (res, (N, get_num_cnots U, length draws)) /\
    qr_phases res = map (fun I => phase_of (readout (qp_nqb o) N I)) draws.
Proof.
  intros o t p prec guess draws HR Hp Ht HD. destruct (run_eq o t p prec guess draws HR Hp) as (N & U & q & EN & HN & EU & EQ & W & NQ & ER). exists N, U. rewrite ER.
  rewrite (post_shape guess t (length draws) N _ (readouts_bits _ _ _)); [|destruct draws; [contradiction|cbn; lia]|exact Ht]. cbn [bind]. eexists. split; [exact EN|]. split; [exact EU|]. split; [reflexivity|]. cbn [qr_phases]. apply map_map.
Qed.
Print Assumptions C73_run_completes.

Lemma phase_inj a : forall N b, bits_ok N a -> bits_ok N b -> phase_of a = phase_of b -> a = b.
Proof.
  induction a as [|x a IH]; intros N b (L1 & F1) (L2 & F2) E.
  - destruct b; [reflexivity|cbn in *; lia].
  - destruct b as [|y b]; [cbn in *; lia|]. cbn in L1, L2. inversion F1; subst. inversion F2; subst. rewrite !phase_cons in E. pose proof (phase_range a H2). pose proof (phase_range b H4).
    destruct x as [|[|]], y as [|[|]]; cbn [INR] in E; try lia; try lra; f_equal; (eapply (IH (length a)); [split; [reflexivity|assumption]|split; [lia|assumption]|lra]).
Qed.
Lemma closest_unique t phase k z E guess : t <> 0%R -> candidate t phase z = E -> (Rabs (candidate t phase k - guess) <= Rabs (E - guess))%R -> (Rabs (E - guess) < PI / Rabs t)%R -> candidate t phase k = E.
Proof.
  intros Ht EE Hmin HE. pose proof PI_RGT_0 as HP. assert (HT : (0 < Rabs t)%R) by now apply Rabs_pos_lt. assert (HD : (Rabs (candidate t phase k - E) < 2 * PI / Rabs t)%R).
  { replace (candidate t phase k - E)%R with ((candidate t phase k - guess) - (E - guess))%R by ring. eapply Rle_lt_trans; [apply Rabs_triang|]. rewrite Rabs_Ropp. replace (2 * PI / Rabs t)%R with (PI / Rabs t + PI / Rabs t)%R by (field; lra). lra. }
  rewrite <- EE in HD at 1. replace (candidate t phase k - candidate t phase z)%R with (-2 * PI / t * IZR (k - z))%R in HD by (unfold candidate; rewrite minus_IZR; field; exact Ht). rewrite Rabs_mult in HD.
  replace (Rabs (-2 * PI / t)) with (2 * PI / Rabs t)%R in HD by (unfold Rdiv; rewrite Rabs_mult, Rabs_inv; f_equal; rewrite Rabs_left by lra; ring).
  assert (HS : (Rabs (IZR (k - z)) < 1)%R). { apply (Rmult_lt_reg_l (2 * PI / Rabs t)); [apply Rdiv_lt_0_compat; lra|]. lra. }
  rewrite <- abs_IZR in HS. apply lt_IZR in HS. assert (k = z) by lia. now subst.
Qed.
(** with a single eigenstate whose phase is k / 2^N up to an integer every possible sample reads k *)
Lemma exact_reading o t N q phi k z I : Ready o -> 1 <= N -> Step o t (prepared (qp_Uprep o)) (sscale (Ccis (2 * PI * phi)) (prepared (qp_Uprep o))) -> qpe_computer o t N = Ok q ->
  k < 2 ^ N -> (phi = INR k / 2 ^ N + IZR z)%R -> nth I (probabilities q) 0%R <> 0%R -> phase_of (readout (qp_nqb o) N I) = (INR k / 2 ^ N)%R.
Proof.
  intros (HU & HH & Hm) HN HE EQ Hk Hphi HI. destruct (circuit_ok o t N HN Hm HH HU) as (U & q' & E & _ & E' & W & NQ & A). unfold qpe_computer in EQ. rewrite E in EQ. cbn [bind] in EQ. rewrite E' in EQ. injection EQ as ->.
  rewrite phase_val. destruct (Nat.eq_dec (val (qp_nqb o) N I) k) as [->|Ne]; [reflexivity|exfalso]. apply HI. rewrite probs_nth. fold (psi_of q I).
  rewrite (final_sum o t N q 1 (fun _ => phi) (fun _ => prepared (qp_Uprep o)) HH); [|intros J; cbn [seq]; rewrite Csum_cons, Csum_nil; ring|intros i _; exact HE|exact A].
  cbn [seq]. rewrite Csum_cons, Csum_nil. set (v := val (qp_nqb o) N I) in *. pose proof (QftProofs.val_lt (qp_nqb o) N I) as HV. fold v in HV.
  assert (HM : (0 < INR (2 ^ N))%R) by (apply lt_0_INR; lia).
  replace (phi - INR v / INR (2 ^ N))%R with ((INR k - INR v) / INR (2 ^ N) + IZR z)%R by (rewrite Hphi, <- pow2_INR; field; lra). rewrite fejer_period.
  rewrite (fejer_miss (2 ^ N) _ (Z.of_nat k - Z.of_nat v)).
  - replace (C0 * prepared (qp_Uprep o) (put (qp_nqb o) N I 0) + C0)%C with C0 by ring. unfold Cnorm2. cbn. ring.
  - lia.
  - rewrite minus_IZR, <- !INR_IZR_INZ. field. lra.
  - apply sin_small. apply lt_INR in HV, Hk. pose proof (pos_INR k). pose proof (pos_INR v). assert (HN0 : (INR k - INR v <> 0)%R) by (intros E0; apply Ne, INR_eq; lra). unfold Rdiv. rewrite Rabs_mult, (Rabs_right (/ INR (2 ^ N))) by (left; apply Rinv_0_lt_compat; lra). split.
    + apply Rmult_lt_0_compat; [apply Rabs_pos_lt, HN0|apply Rinv_0_lt_compat, HM].
    + apply (Rmult_lt_reg_r (INR (2 ^ N))); [exact HM|]. rewrite Rmult_assoc, Rinv_l, Rmult_1_r, Rmult_1_l by lra. apply Rabs_def1; lra.
Qed.
(** the reference is an eigenstate of the evolution step with energy E, whose phase needs no more
    than the available bits: whatever the samples, every phase and both energies are exact *)
Theorem C73_exact_run : forall o t p prec N q guess E k z draws, Ready o -> (p < 1)%R -> t <> 0%R -> n_ancilla p prec = Ok N ->
  Step o t (prepared (qp_Uprep o)) (sscale (Ccis (- (t * E))) (prepared (qp_Uprep o))) -> k < 2 ^ N -> (- (t * E) / (2 * PI) = INR k / 2 ^ N + IZR z)%R ->
  qpe_computer o t N = Ok q -> draws <> [] -> Forall (fun I => nth I (probabilities q) 0%R <> 0%R) draws ->
  exists res c, qpe_run o guess t p prec draws = Ok (res, (N, c, length draws)) /\ Forall (fun x => x = (INR k / 2 ^ N)%R) (qr_phases res) /\
    qr_final_phase res = (INR k / 2 ^ N)%R /\ qr_mode_phase res = (INR k / 2 ^ N)%R /\ ((Rabs (E - guess) < PI / Rabs t)%R -> qr_Egs res = E /\ qr_mode_energy res = E).
Proof.
  intros o t p prec N q guess E k z draws HR Hp Ht EN HS Hk Hz EQ HD HF. destruct (run_eq o t p prec guess draws HR Hp) as (N' & U & q' & EN' & HN & EU & EQ' & W & NQ & ER). rewrite EN in EN'. injection EN' as <-. clear q' EQ' W NQ.
  pose proof PI_RGT_0 as HP. assert (EC : Ccis (- (t * E)) = Ccis (2 * PI * (- (t * E) / (2 * PI)))) by (f_equal; field; lra). rewrite EC in HS.
  assert (HX : forall I, In I draws -> phase_of (readout (qp_nqb o) N I) = (INR k / 2 ^ N)%R). { intros I HI. rewrite Forall_forall in HF. exact (exact_reading o t N q _ k z I HR HN HS EQ Hk Hz (HF I HI)). }
  destruct draws as [|I0 draws]; [contradiction|]. set (r := readout (qp_nqb o) N I0). assert (Er : phase_of r = (INR k / 2 ^ N)%R) by (apply HX; now left).
  assert (HTm : times r (map (readout (qp_nqb o) N) (I0 :: draws)) = length (I0 :: draws)).
  { unfold times. rewrite <- (map_length (readout (qp_nqb o) N) (I0 :: draws)). f_equal. generalize (HX). generalize (I0 :: draws). clear - Er. intros l H. induction l as [|I l IH]; [reflexivity|]. cbn [map filter]. rewrite IH by (intros; apply H; now right). destruct (list_eq_dec Nat.eq_dec r (readout (qp_nqb o) N I)) as [|Ne]; [reflexivity|exfalso]. apply Ne. apply (phase_inj _ N); [apply readout_bits|apply readout_bits|]. rewrite Er, H by now left. reflexivity. }
  destruct (C74_majority guess t N (map (readout (qp_nqb o) N) (I0 :: draws)) r (readouts_bits _ _ _) Ht) as (res & EP & Eph & _ & Ef & Em & Ee & kk & Ek & Hmin); [rewrite HTm, map_length; cbn [length]; lia|].
  rewrite map_length in EP. rewrite ER, EP. cbn [bind]. exists res, (get_num_cnots U). split; [reflexivity|]. split.
  { rewrite Eph, map_map. apply Forall_map, Forall_forall. intros I HI. apply HX, HI. }
  split; [congruence|]. split; [congruence|]. intros HE. rewrite <- Ee. split; [|].
  - rewrite Ek. apply (closest_unique t (phase_of r) kk z E guess Ht); [unfold candidate; rewrite Er, <- Hz; field; lra| |exact HE]. specialize (Hmin z). rewrite Ek in Hmin. eapply Rle_trans; [exact Hmin|]. right. do 2 f_equal. unfold candidate. rewrite Er, <- Hz. field. lra.
  - rewrite Ek. apply (closest_unique t (phase_of r) kk z E guess Ht); [unfold candidate; rewrite Er, <- Hz; field; lra| |exact HE]. specialize (Hmin z). rewrite Ek in Hmin. eapply Rle_trans; [exact Hmin|]. right. do 2 f_equal. unfold candidate. rewrite Er, <- Hz. field. lra.
Qed.
Print Assumptions C73_exact_run.

(** a common eigenstate of the terms of the Hamiltonian is an eigenstate of the step *)
Lemma eulers_eigen s v : forall l : list (R * list gate), Forall (fun u => (s (snd u) = 1 \/ s (snd u) = -1)%R /\ circ_act (snd u) v == sscale (RtoC (s (snd u))) v) l ->
  eulers l v == sscale (Ccis (Rsum (fun u => fst u * s (snd u))%R l)) v.
Proof.
  induction l as [|[y P] l IH]; intros H.
  - intros I. cbn [eulers]. change (Rsum (fun u : R * list gate => fst u * s (snd u))%R []) with 0%R. unfold sscale. rewrite Ccis_0. ring.
  - inversion H as [|? ? (H1 & H2) H3]; subst. cbn [eulers fst snd] in *. rewrite Rsum_cons. cbn [fst snd].
    assert (E : euler y (circ_act P) v == sscale (Ccis (y * s P)) v).
    { intros I. unfold euler, sadd, sscale. rewrite (H2 I). unfold sscale. unfold Ccis. destruct H1 as [-> | ->].
      - rewrite Rmult_1_r. apply C_ext; cbn; ring.
      - replace (y * -1)%R with (- y)%R by ring. rewrite cos_neg, sin_neg. apply C_ext; cbn; ring. }
    eapply seq_trans; [apply eulers_ext, E|]. eapply seq_trans; [apply eulers_scale|]. intros I. pose proof (IH H3 I) as EI. unfold sscale in *. rewrite EI, Ccis_add. ring.
Qed.
Theorem C73_common_eigenstate : forall o t v (s : list gate -> R), Hamiltonian (qp_nqb o) (qp_ham o) -> 1 <= qp_trotter o ->
  Forall (fun u => (s (snd u) = 1 \/ s (snd u) = -1)%R /\ circ_act (snd u) v == sscale (RtoC (s (snd u))) v) (qp_ham o) ->
  Step o t v (sscale (Ccis (- (t * Rsum (fun u => Re (fst u) * s (snd u))%R (qp_ham o)))) v).
Proof.
  intros o t v s HH Hm HE. unfold Step. replace (sscale _ v) with (evolve (qp_trotter o) t (qp_ham o) v); [exact (evolve_product _ _ t _ v HH)|]. apply seq_eq. unfold evolve. eapply seq_trans; [apply (eulers_eigen s)|].
  - apply Forall_forall. intros u Hu. apply in_concat_repeat in Hu. apply in_map_iff in Hu. destruct Hu as (w & <- & Hw). cbn [snd]. rewrite Forall_forall in HE. exact (HE w Hw).
  - intros I. unfold sscale. f_equal. f_equal. unfold ylist.
    assert (G : forall k b, Rsum (fun u : R * list gate => fst u * s (snd u))%R (concat (repeat b k)) = (INR k * Rsum (fun u => fst u * s (snd u))%R b)%R).
    { induction k as [|k IH]; intros b; [unfold Rsum; cbn; ring|]. cbn [repeat concat]. rewrite Rsum_app, IH, S_INR. ring. }
    rewrite G, Rsum_map. cbn [fst snd]. rewrite (Rsum_ext _ (fun u => (- t * / INR (qp_trotter o)) * (Re (fst u) * s (snd u)))%R) by (intros; ring). rewrite Rsum_scale. field. apply not_0_INR. lia.
Qed.
Print Assumptions C73_common_eigenstate.
(** non-vacuity: H = Z_0 + 2 on |1>, whose energy 1 has phase 3/8 for t = -3 pi / 4 *)
Definition qpe_example (fast : bool) : qpe_options := mkQpeOptions 1 [mkGate "X" 0 0 m_X None] [(C1, [gate_Z]); (RtoC 2, [])] 1 fast.
Lemma example_ready fast : Ready (qpe_example fast).
Proof.
  split; [|split; [|cbn; lia]].
  - apply applicable_made; [constructor; [exists "X"%string, 0, 0, 0%R; split; reflexivity|constructor]|repeat constructor].
  - unfold Hamiltonian. apply Forall_cons; [|apply Forall_cons; [|apply Forall_nil]]; (split; [|reflexivity]); split; cbn [snd].
    + split; [constructor; [exists "Z"%string, 0; split; [cbn; tauto|reflexivity]|constructor]|repeat constructor; cbn; tauto].
    + repeat constructor.
    + split; [constructor|constructor].
    + constructor.
Qed.
Lemma three_ancillas : n_ancilla (1 / 2) 1 = Ok 3.
Proof.
  destruct (ancillas (1 / 2) 1 ltac:(lra)) as (e & -> & He & H1 & H2). replace (2 + 1 / (1 - 1 / 2))%R with 4%R in * by lra. do 2 f_equal. destruct e as [|[|[|e]]]; [lia|cbn in H1; lra|reflexivity|].
  exfalso. cbn [pow] in H2. pose proof (pow_R1_Rle 2 e ltac:(lra)). lra.
Qed.
Example C73_nonvacuous : forall fast, let o := qpe_example fast in let t := (- (3 * PI / 4))%R in let E := 1%R in
  Ready o /\ t <> 0%R /\ n_ancilla (1 / 2) 1 = Ok 3 /\ Step o t (prepared (qp_Uprep o)) (sscale (Ccis (- (t * E))) (prepared (qp_Uprep o))) /\
  (- (t * E) / (2 * PI) = INR 3 / 2 ^ 3 + IZR 0)%R /\ (Rabs (E - 1) < PI / Rabs t)%R /\ Spectrum o t 1 (fun _ => 3 / 8)%R (fun _ => prepared (qp_Uprep o)) /\
  exists q, qpe_computer o t 3 = Ok q /\ nth 13 (probabilities q) 0%R = 1%R /\ readout 1 3 13 = [0; 1; 1].
Proof.
  intros fast o t E. pose proof PI_RGT_0 as HP. pose proof (example_ready fast) as HR. fold o in HR. assert (Ht : t <> 0%R) by (unfold t; lra).
  assert (HS : Step o t (prepared (qp_Uprep o)) (sscale (Ccis (- (t * E))) (prepared (qp_Uprep o)))).
  { replace E with (Rsum (fun u => Re (fst u) * (match snd u with [] => 1 | _ => -1 end))%R (qp_ham o)) by (unfold E, Rsum; cbn; ring).
    apply (C73_common_eigenstate o t _ (fun gs => match gs with [] => 1 | _ => -1 end)%R); [apply HR|apply HR|]. constructor; [|constructor; [|constructor]].
    - split; [now right|]. cbn [snd]. intros I. unfold prepared, sscale, o, qpe_example. cbn [qp_Uprep]. unfold circ_act. cbn [fold_left]. unfold gate_act, gate_Z. cbn [gtarget gcontrol gmat]. rewrite Nat.eqb_refl. unfold act1, m_Z, m_X, mk44. rewrite !bit_upd, Nat.eqb_refl. cbn [b2n]. 
      assert (K : ket 0 (upd I 0 true) = C0) by (unfold ket; destruct (Nat.eqb_spec (upd I 0 true) 0) as [K|]; [|reflexivity]; pose proof (bit_upd_same I 0 true) as K2; rewrite K in K2; discriminate).
      destruct (bit I 0) eqn:B; cbn [b2n nth]; rewrite ?(upd_id' I 0 _ B); apply C_ext; cbn -[ket upd]; rewrite ?K; cbn -[ket upd]; ring.
    - split; [now left|]. intros I. unfold sscale. cbn [snd]. change (circ_act [] ?v I) with (v I). change (RtoC 1) with C1. ring. }
  assert (EP : (- (t * E) / (2 * PI) = 3 / 8)%R) by (unfold t, E; field; lra).
  assert (HS2 : Step o t (prepared (qp_Uprep o)) (sscale (Ccis (2 * PI * (3 / 8))) (prepared (qp_Uprep o)))) by (rewrite <- EP; replace (2 * PI * (- (t * E) / (2 * PI)))%R with (- (t * E))%R by (field; lra); exact HS).
  assert (S1 : prepared (qp_Uprep o) == (fun I => Csum (fun _ => prepared (qp_Uprep o) I) (seq 0 1))) by (intros I; cbn [seq]; rewrite Csum_cons, Csum_nil; ring).
  split; [exact HR|]. split; [exact Ht|]. split; [exact three_ancillas|]. split; [exact HS|]. split; [rewrite EP; cbn; lra|]. split; [unfold E; rewrite Rminus_eq_0, Rabs_R0; apply Rdiv_lt_0_compat; [lra|now apply Rabs_pos_lt]|]. split.
  { split; [exact S1|]. split; [intros i _; exact HS2|]. intros i j Hi Hj Hn. lia. }
  destruct HR as (HU & HH & Hm). destruct (circuit_ok o t 3 ltac:(lia) Hm HH HU) as (U & q & EU & _ & E' & W & NQ & A). exists q. split; [unfold qpe_computer; rewrite EU; exact E'|]. split; [|reflexivity].
  rewrite probs_nth. fold (psi_of q 13). rewrite (final_sum o t 3 q 1 (fun _ => 3 / 8)%R (fun _ => prepared (qp_Uprep o)) HH S1 (fun i _ => HS2) A). cbn [seq]. rewrite Csum_cons, Csum_nil.
  replace (val (qp_nqb o) 3 13) with 3 by reflexivity. replace (3 / 8 - INR 3 / INR (2 ^ 3))%R with (IZR 0) by (cbn; lra). rewrite fejer_int by (cbn; lia). replace (put (qp_nqb o) 3 13 0) with 1 by reflexivity.
  unfold prepared, o, qpe_example. cbn [qp_Uprep]. unfold circ_act. cbn [fold_left]. unfold gate_act. cbn. unfold Cnorm2. cbn. ring.
Qed.
