(** C86: construction of the algorithm objects and Hamiltonians with penalty terms. *)
From Coq Require Import Reals String List Arith Bool Lia Lra.
From Verif Require Import CBase Result Bits Spec OpSpec GateModel ComputerModel LibProofs SafeProofs CleanProofs SimProofs CircuitModel PauliProofs OperatorModel OperatorProofs OrderProofs FermiProofs SparseNorm RealOps PyModel PropOperator PropMeasure PropGrad PropAccess QpeProofs QiteNorm PenModel PenSpec PenProofs.
From Verif Require PropPy GradSpec.
Import ListNotations.
Local Open Scope C_scope.

(** ---- penalties ---- *)
(** a Hermitian sum of different Pauli strings without negligible terms, such as jw_transform returns *)
Definition PenaltyOperator (n : nat) (A : qop) : Prop := Hamiltonian n A /\ Terms Canonical A /\ NoDup (map snd A) /\ Forall (fun t => (1e-12 < Cabs (fst t))%R) A.
Definition triples (operators : list qop) (eigenvalues scalings : list R) : list (qop * R * R) := combine (combine operators eigenvalues) scalings.
Lemma simplified_iff n A : PenaltyOperator n A <-> Simplified n A.
Proof. unfold PenaltyOperator, Simplified. rewrite terms_canonical. tauto. Qed.
Lemma triples_forall (P : qop -> Prop) ops es ss : Forall P ops -> Forall (fun p => P (fst (fst p))) (triples ops es ss).
Proof.
  intros H. apply Forall_forall. intros ((A, e), s) Hp. unfold triples in Hp. apply in_combine_l in Hp. apply in_combine_l in Hp. cbn [fst]. rewrite Forall_forall in H. now apply H.
Qed.
(** the object is unchanged except for its Hamiltonian, which is Hermitian, simplified, real when
    the operators given are, and H + sum_i s_i (O_i - e_i)^2 up to the terms that simplify drops *)
Theorem C86_penalized_hamiltonian : forall a n operators eigenvalues scalings, Hamiltonian n (alg_ham a) -> Forall (PenaltyOperator n) operators ->
  length operators = length eigenvalues -> length eigenvalues = length scalings ->
  exists q, add_penalty false operators eigenvalues scalings a = Ok (mkAlgorithm (alg_ref a) (alg_refprep a) (alg_Uprep a) (alg_computer a) (alg_nqb a) q (length q)) /\
    Hamiltonian n q /\ Terms Canonical q /\ NoDup (map snd q) /\
    (Forall (fun t => Nat.even (count_Y (snd t)) = true) (concat (alg_ham a :: operators)) -> Forall (fun t => Nat.even (count_Y (snd t)) = true) q) /\
    forall psi, (norm n (ssub (op_act q psi) (penalized (alg_ham a) (triples operators eigenvalues scalings) psi)) <= penalty_error n (triples operators eigenvalues scalings) * norm n psi)%R.
Proof.
  intros a n ops es ss HH HO L1 L2. set (ps := triples ops es ss).
  destruct (penalized_hamiltonian n (alg_ham a) ps HH) as (pen & q & E1 & E2 & K1 & K2 & K3 & _ & K4 & K5). { apply triples_forall. eapply Forall_impl; [|exact HO]. intros A. apply simplified_iff. }
  exists q. unfold add_penalty. rewrite L1, L2, !Nat.eqb_refl. cbn [negb andb]. fold (triples ops es ss). fold ps. rewrite E1. cbn [bind]. rewrite E2. cbn [bind].
  split; [reflexivity|]. split; [exact K1|]. split; [apply terms_canonical, K2|]. split; [exact K3|]. split; [|exact K5].
  intros Y. cbn [concat] in Y. apply Forall_app in Y. destruct Y as [Y1 Y2]. apply K4; [exact Y1|]. apply triples_forall. apply Forall_forall. intros A HA. apply Forall_forall. intros t Ht. rewrite Forall_forall in Y2. apply Y2. apply in_concat. now exists A.
Qed.
Print Assumptions C86_penalized_hamiltonian.
(** the specification in terms of energies: H + sum_i s_i |(O_i - e_i) psi|^2 *)
Theorem C86_meaning_of_penalties : forall n H ps psi, Forall (fun p => Hamiltonian n (fst (fst p))) ps ->
  GradSpec.energy n (penalized H ps) psi = (GradSpec.energy n (op_act H) psi + fold_right (fun p acc => snd p * Re (inner n (shifted (fst (fst p)) (snd (fst p)) psi) (shifted (fst (fst p)) (snd (fst p)) psi)) + acc) 0 ps)%R.
Proof.
  intros n H ps psi HP. unfold GradSpec.energy. rewrite penalized_energy by exact HP. f_equal. clear HP. induction ps as [|((A, e), s) ps IH]; [reflexivity|]. cbn [penalty_sum fold_right fst snd]. now rewrite IH.
Qed.
Print Assumptions C86_meaning_of_penalties.
(** states with the wanted eigenvalues keep their energy *)
Theorem C86_target_states_keep_their_energy : forall a n operators eigenvalues scalings a', Hamiltonian n (alg_ham a) -> Forall (PenaltyOperator n) operators ->
  add_penalty false operators eigenvalues scalings a = Ok a' -> forall psi, inner n psi psi = C1 ->
  Forall (fun p => op_act (fst p) psi == sscale (RtoC (snd p)) psi) (combine operators eigenvalues) ->
  (Rabs (GradSpec.energy n (op_act (alg_ham a')) psi - GradSpec.energy n (op_act (alg_ham a)) psi) <= penalty_error n (triples operators eigenvalues scalings))%R.
Proof.
  intros a n ops es ss a' HH HO E psi NP EV. unfold add_penalty in E. destruct (Nat.eqb (length ops) (length es)) eqn:E1; [|discriminate]. destruct (Nat.eqb (length es) (length ss)) eqn:E2; [|discriminate]. apply Nat.eqb_eq in E1, E2.
  destruct (C86_penalized_hamiltonian a n ops es ss HH HO E1 E2) as (q & EQ & _ & _ & _ & _ & B). unfold add_penalty in EQ. rewrite E1, E2, !Nat.eqb_refl in EQ. rewrite E in EQ. injection EQ as ->. cbn [alg_ham]. set (ps := triples ops es ss) in *.
  assert (NN : norm n psi = 1%R) by (unfold norm, normsq; rewrite NP; apply sqrt_1). specialize (B psi). rewrite NN, Rmult_1_r in B.
  assert (X : penalized (alg_ham a) ps psi == op_act (alg_ham a) psi). { apply penalized_eigen. apply Forall_forall. intros ((A, e), s) Hp. unfold ps, triples in Hp. apply in_combine_l in Hp. rewrite Forall_forall in EV. exact (EV (A, e) Hp). }
  pose proof (inner_abs n psi (ssub (op_act q psi) (penalized (alg_ham a) ps psi))) as I1. rewrite NN, Rmult_1_l in I1. unfold GradSpec.energy.
  replace (inner n psi (ssub (op_act q psi) (penalized (alg_ham a) ps psi))) with (inner n psi (op_act q psi) - inner n psi (op_act (alg_ham a) psi))%C in I1; [unfold Csub in I1; cbn [Re] in I1; lra|].
  rewrite <- (inner_ext n psi psi _ _ (seq_refl psi) X). transitivity (inner n psi (sadd (op_act q psi) (sscale (- C1) (penalized (alg_ham a) ps psi)))); [rewrite inner_add_r, inner_scale_r; ring|]. apply inner_ext; [apply seq_refl|]. intros I. unfold sadd, sscale, ssub. ring.
Qed.
Print Assumptions C86_target_states_keep_their_energy.
(** with non-negative scaling factors no energy is lowered: minima stay upper bounds *)
Theorem C86_penalties_do_not_lower_energies : forall a n operators eigenvalues scalings a', Hamiltonian n (alg_ham a) -> Forall (PenaltyOperator n) operators -> Forall (fun s => (0 <= s)%R) scalings ->
  add_penalty false operators eigenvalues scalings a = Ok a' -> forall psi, inner n psi psi = C1 ->
  (GradSpec.energy n (op_act (alg_ham a)) psi - penalty_error n (triples operators eigenvalues scalings) <= GradSpec.energy n (op_act (alg_ham a')) psi)%R.
Proof.
  intros a n ops es ss a' HH HO HS E psi NP. unfold add_penalty in E. destruct (Nat.eqb (length ops) (length es)) eqn:E1; [|discriminate]. destruct (Nat.eqb (length es) (length ss)) eqn:E2; [|discriminate]. apply Nat.eqb_eq in E1, E2.
  destruct (C86_penalized_hamiltonian a n ops es ss HH HO E1 E2) as (q & EQ & _ & _ & _ & _ & B). unfold add_penalty in EQ. rewrite E1, E2, !Nat.eqb_refl in EQ. rewrite E in EQ. injection EQ as ->. cbn [alg_ham]. set (ps := triples ops es ss) in *.
  assert (NN : norm n psi = 1%R) by (unfold norm, normsq; rewrite NP; apply sqrt_1). specialize (B psi). rewrite NN, Rmult_1_r in B.
  pose proof (inner_abs n psi (ssub (op_act q psi) (penalized (alg_ham a) ps psi))) as I1. rewrite NN, Rmult_1_l in I1. unfold GradSpec.energy.
  replace (inner n psi (ssub (op_act q psi) (penalized (alg_ham a) ps psi))) with (inner n psi (op_act q psi) - inner n psi (penalized (alg_ham a) ps psi))%C in I1.
  2:{ transitivity (inner n psi (sadd (op_act q psi) (sscale (- C1) (penalized (alg_ham a) ps psi)))); [rewrite inner_add_r, inner_scale_r; ring|]. apply inner_ext; [apply seq_refl|]. intros I. unfold sadd, sscale, ssub. ring. }
  unfold Csub in I1. cbn [Re] in I1. rewrite penalized_energy in I1 by (apply triples_forall; eapply Forall_impl; [|exact HO]; intros A HA; apply HA).
  assert (PN : (0 <= penalty_sum n ps psi)%R). { apply penalty_sum_nonneg. apply Forall_forall. intros (Ae, s) Hp. unfold ps, triples in Hp. apply in_combine_r in Hp. rewrite Forall_forall in HS. exact (HS s Hp). }
  assert (Y := Rle_trans _ _ _ I1 B). match type of Y with (Rabs ?x <= _)%R => pose proof (Rle_abs (- x)) as Z; rewrite Rabs_Ropp in Z end. lra.
Qed.
Print Assumptions C86_penalties_do_not_lower_energies.
(** projective algorithms and lists of different lengths are refused *)
Theorem C86_penalty_refused : forall pqe operators eigenvalues scalings a,
  pqe = true \/ length operators <> length eigenvalues \/ length eigenvalues <> length scalings -> add_penalty pqe operators eigenvalues scalings a = Throw (PyError "ValueError").
Proof.
  intros pqe ops es ss a H. unfold add_penalty. destruct pqe; [reflexivity|]. destruct H as [H|H]; [discriminate|]. destruct (Nat.eqb (length ops) (length es)) eqn:E1; [|reflexivity]. destruct (Nat.eqb (length es) (length ss)) eqn:E2; [|reflexivity]. apply Nat.eqb_eq in E1, E2. exfalso. lia.
Qed.
Print Assumptions C86_penalty_refused.
(** an operator with a negligible term: (O - e)^2 is formed with different left and right factors
    and the "Hamiltonian" is not Hermitian *)
Definition tiny_X : qop := [(RtoC 9e-13, [gX 0]); (RtoC 3, [gZ 0])].
Lemma cabs_of z x : z = RtoC x -> Cabs z = Rabs x.
Proof. intros ->. apply Cabs_RtoC. Qed.
Lemma tiny_pre : op_simplify true (op_add_term (op_add_op [] tiny_X) (RtoC (- 0)) []) = Ok [(RtoC 3 * C1, [gZ 0])].
Proof.
  unfold op_simplify, tiny_X, op_add_term, op_add_op. cbn [app].
  change (canonical_order [(RtoC 9e-13, [gX 0]); (RtoC 3, [gZ 0]); (RtoC (- 0), [])]) with (Ok [(RtoC 9e-13 * C1, [gX 0]); (RtoC 3 * C1, [gZ 0]); (RtoC (- 0) * C1, [])] : res qop). cbn [bind].
  change (unique_terms [(RtoC 9e-13 * C1, [gX 0]); (RtoC 3 * C1, [gZ 0]); (RtoC (- 0) * C1, [])]) with [([], RtoC (- 0) * C1); ([gX 0], RtoC 9e-13 * C1); ([gZ 0], RtoC 3 * C1)].
  cbn [filter map fst snd]. rewrite (cabs_of (RtoC (- 0) * C1) 0), (cabs_of (RtoC 9e-13 * C1) 9e-13), (cabs_of (RtoC 3 * C1) 3) by (apply C_ext; cbn; lra).
  rewrite (Rabs_pos_eq 0), (Rabs_pos_eq 9e-13), (Rabs_pos_eq 3) by lra. rewrite (Rltb_false 1e-12 0), (Rltb_false 1e-12 9e-13), (Rltb_true 1e-12 3) by lra. reflexivity.
Qed.
Lemma tiny_product : penalty_qop tiny_X 0 1 = Ok [(RtoC 3 * C1 * RtoC 3 * (C1 * C1) * RtoC 1, []); (RtoC 3 * C1 * RtoC 9e-13 * (C1 * Ci) * RtoC 1, [gY 0])].
Proof.
  unfold penalty_qop, operator_product. cbv zeta. change (op_add_op [] (op_add_term (op_add_op [] tiny_X) (RtoC (- 0)) [])) with (op_add_term (op_add_op [] tiny_X) (RtoC (- 0)) []). rewrite tiny_pre. cbn [bind].
  unfold tiny_X, op_add_term, op_add_op, raw_product. cbn [flat_map map app fst snd]. unfold op_simplify.
  change (canonical_order [(RtoC 3 * C1 * RtoC 9e-13, [gZ 0; gX 0]); (RtoC 3 * C1 * RtoC 3, [gZ 0; gZ 0]); (RtoC 3 * C1 * RtoC (- 0), [gZ 0])]) with (Ok [(RtoC 3 * C1 * RtoC 9e-13 * (C1 * Ci), [gY 0]); (RtoC 3 * C1 * RtoC 3 * (C1 * C1), []); (RtoC 3 * C1 * RtoC (- 0) * C1, [gZ 0])] : res qop). cbn [bind].
  change (unique_terms [(RtoC 3 * C1 * RtoC 9e-13 * (C1 * Ci), [gY 0]); (RtoC 3 * C1 * RtoC 3 * (C1 * C1), []); (RtoC 3 * C1 * RtoC (- 0) * C1, [gZ 0])]) with [([], RtoC 3 * C1 * RtoC 3 * (C1 * C1)); ([gY 0], RtoC 3 * C1 * RtoC 9e-13 * (C1 * Ci)); ([gZ 0], RtoC 3 * C1 * RtoC (- 0) * C1)].
  cbn [filter map fst snd]. rewrite (cabs_of (RtoC 3 * C1 * RtoC 3 * (C1 * C1)) 9), (cabs_of (RtoC 3 * C1 * RtoC (- 0) * C1) 0) by (apply C_ext; cbn; lra).
  assert (Y : Cabs (RtoC 3 * C1 * RtoC 9e-13 * (C1 * Ci)) = 2.7e-12%R). { rewrite !Cabs_mul, !Cabs_RtoC, Cabs_C1. replace (Cabs Ci) with 1%R by (unfold Cabs, Cnorm2; cbn; replace (0 * 0 + 1 * 1)%R with 1%R by ring; now rewrite sqrt_1). rewrite (Rabs_pos_eq 3), (Rabs_pos_eq 9e-13) by lra. lra. }
  rewrite Y, (Rabs_pos_eq 0), (Rabs_pos_eq 9) by lra. rewrite (Rltb_false 1e-12 0), (Rltb_true 1e-12 9), (Rltb_true 1e-12 2.7e-12) by lra. reflexivity.
Qed.
Theorem C86_negligible_term_refuted : exists A l, Hamiltonian 1 A /\ Terms Canonical A /\ NoDup (map snd A) /\ penalty_qop A 0 1 = Ok l /\ ~ Hamiltonian 1 l.
Proof.
  exists tiny_X, [(RtoC 3 * C1 * RtoC 3 * (C1 * C1) * RtoC 1, []); (RtoC 3 * C1 * RtoC 9e-13 * (C1 * Ci) * RtoC 1, [gY 0])].
  assert (CX : canonical_op tiny_X) by (constructor; [|constructor; [|constructor]]; (split; cbn [snd]; [constructor; [try apply gX_pauli; apply gZ_pauli|constructor]|cbn; intuition])).
  split; [|split; [now apply terms_canonical|split; [repeat constructor; cbn; intuition discriminate|split; [exact tiny_product|]]]].
  - assert (S1 := canonical_strings 1 tiny_X CX). apply Forall_forall. intros t Ht. split.
    + assert (G : in_reg 1 tiny_X) by (repeat constructor; cbn; lia). specialize (S1 G). rewrite Forall_forall in S1. now apply S1.
    + destruct Ht as [<-|[<-|[]]]; reflexivity.
  - intros H. inversion H as [|? ? _ H2]; subst. inversion H2 as [|? ? (_ & Z) _]; subst. cbn in Z. lra.
Qed.
Print Assumptions C86_negligible_term_refuted.

(** ---- construction ---- *)
(** the simulator on which the algorithm starts, and the state its preparation circuit makes of it *)
Definition prepared (a : algorithm) : state := circ_act (alg_Uprep a) (psi_of (get_initial_computer a)).
(** occupation list (by default the Hartree-Fock reference): the object is built exactly when the
    Hamiltonian acts on as many qubits as the list has entries, and it starts from that determinant *)
Theorem C86_occupation_list : forall init sys fast reference ref, (reference = Occupations ref \/ reference = NoReference /\ ref = hf_reference sys) ->
  (op_num_qubits (hamiltonian sys) <> length ref -> algorithm_init init sys reference "occupation_list" fast = Throw (PyError "ValueError")) /\
  (op_num_qubits (hamiltonian sys) = length ref -> exists a, algorithm_init init sys reference "occupation_list" fast = Ok a /\
     alg_ref a = ref /\ alg_nqb a = length ref /\ alg_ham a = hamiltonian sys /\ alg_Nl a = length (hamiltonian sys) /\
     wf_computer (get_initial_computer a) /\ nqubit (get_initial_computer a) = length ref /\ Applicable (length ref) (alg_Uprep a) /\
     exists D, (forall q, bit D q = negb (Nat.eqb (nth q ref 0%nat) 0)) /\ prepared a == ket D).
Proof.
  intros init sys fast reference ref HR. destruct (PropPy.C37_refprep ref) as (gs & D & EG & HB & HK & _).
  assert (EP : prepare init sys reference "occupation_list" fast = Ok (ref, gs, gs, None)). { unfold prepare. cbn [String.eqb Ascii.eqb Bool.eqb]. destruct HR as [-> |[-> ->]]; cbn [bind]; rewrite EG; reflexivity. }
  unfold algorithm_init. rewrite EP. cbn [bind]. split; intros HN.
  - apply Nat.eqb_neq in HN. rewrite HN. reflexivity.
  - apply Nat.eqb_eq in HN. rewrite HN. cbn [negb]. eexists. split; [reflexivity|]. cbn [alg_ref alg_nqb alg_ham alg_Nl get_initial_computer alg_computer alg_Uprep].
    do 4 (split; [reflexivity|]). split; [apply new_computer_wf|]. split; [reflexivity|].
    assert (HG : gs = StateProofs.xgates 0 ref) by (rewrite StateProofs.refprep_eq in EG; now injection EG as <-).
    split; [rewrite HG; exact (StateProofs.xgates_applicable (length ref) ref 0 (le_n _))|]. exists D. split; [exact HB|].
    unfold prepared, get_initial_computer. cbn [alg_computer alg_nqb alg_Uprep]. eapply seq_trans; [|exact HK]. apply circ_act_ext. intros J. unfold psi_of. apply new_computer_ket0.
Qed.
Print Assumptions C86_occupation_list.
(** circuit: it becomes the preparation circuit as it is; the reference stays the Hartree-Fock one *)
Theorem C86_circuit : forall init sys fast reference,
  match reference with
  | CircuitReference U =>
      (op_num_qubits (hamiltonian sys) <> length (hf_reference sys) -> algorithm_init init sys reference "unitary_circ" fast = Throw (PyError "ValueError")) /\
      (op_num_qubits (hamiltonian sys) = length (hf_reference sys) -> exists a, algorithm_init init sys reference "unitary_circ" fast = Ok a /\
         alg_ref a = hf_reference sys /\ alg_nqb a = length (hf_reference sys) /\ alg_ham a = hamiltonian sys /\ alg_Uprep a = U /\
         wf_computer (get_initial_computer a) /\ nqubit (get_initial_computer a) = length (hf_reference sys) /\ prepared a == circ_act U (ket 0))
  | _ => algorithm_init init sys reference "unitary_circ" fast = Throw (PyError "ValueError")
  end.
Proof.
  intros init sys fast reference. destruct reference as [|l|U|c]; try reflexivity. unfold algorithm_init, prepare. cbn [String.eqb Ascii.eqb Bool.eqb]. rewrite StateProofs.refprep_eq. cbn [bind]. split; intros HN.
  - apply Nat.eqb_neq in HN. now rewrite HN.
  - apply Nat.eqb_eq in HN. rewrite HN. cbn [negb]. eexists. split; [reflexivity|]. cbn [alg_ref alg_nqb alg_ham alg_Uprep]. do 4 (split; [reflexivity|]). split; [apply new_computer_wf|]. split; [reflexivity|].
    unfold prepared, get_initial_computer. cbn [alg_computer alg_nqb alg_Uprep]. apply circ_act_ext. intros J. unfold psi_of. apply new_computer_ket0.
Qed.
Print Assumptions C86_circuit.
(** simulator: accepted exactly by the fast algorithms that can be started from one, with the right
    number of qubits, and the algorithm starts from its state *)
Theorem C86_computer : forall init sys fast reference,
  match reference with
  | ComputerReference c =>
      let accepted := fast = true /\ nqubit c = length (hf_reference sys) /\ init = true /\ op_num_qubits (hamiltonian sys) = length (hf_reference sys) in
      (~ accepted -> algorithm_init init sys reference "computer" fast = Throw (PyError "ValueError")) /\
      (accepted -> exists a, algorithm_init init sys reference "computer" fast = Ok a /\
         alg_ref a = hf_reference sys /\ alg_nqb a = nqubit c /\ alg_ham a = hamiltonian sys /\ get_initial_computer a = c /\ prepared a == psi_of c)
  | _ => algorithm_init init sys reference "computer" fast = Throw (PyError "ValueError")
  end.
Proof.
  intros init sys fast reference. destruct reference as [|l|U|c]; try reflexivity. cbv zeta. unfold algorithm_init, prepare. cbn [String.eqb Ascii.eqb Bool.eqb]. split.
  - intros HN. destruct fast; [cbn [negb]|reflexivity]. destruct (Nat.eqb (nqubit c) (length (hf_reference sys))) eqn:E1; [cbn [negb]|reflexivity]. destruct init; [cbn [negb]|reflexivity]. rewrite StateProofs.refprep_eq. cbn [bind].
    destruct (Nat.eqb (op_num_qubits (hamiltonian sys)) (length (hf_reference sys))) eqn:E2; [|reflexivity]. apply Nat.eqb_eq in E1, E2. exfalso. apply HN. auto.
  - intros (-> & E1 & -> & E2). rewrite E1, Nat.eqb_refl. cbn [negb]. rewrite StateProofs.refprep_eq. cbn [bind]. rewrite E2, Nat.eqb_refl. cbn [negb]. eexists. split; [reflexivity|]. cbn [alg_ref alg_nqb alg_ham alg_Uprep get_initial_computer alg_computer].
    do 4 (split; [reflexivity|]). apply seq_refl.
Qed.
Print Assumptions C86_computer.
(** no other way of preparing a state, and no simulator or circuit where a list is expected *)
Theorem C86_other_arguments_refused : forall init sys fast reference kind,
  (kind <> "occupation_list" /\ kind <> "unitary_circ" /\ kind <> "computer" \/ kind = "occupation_list" /\ match reference with CircuitReference _ | ComputerReference _ => True | _ => False end)%string ->
  algorithm_init init sys reference kind fast = Throw (PyError "ValueError").
Proof.
  intros init sys fast reference kind H. unfold algorithm_init, prepare. destruct H as [(H1 & H2 & H3)|(-> & H)].
  - apply String.eqb_neq in H1, H2, H3. now rewrite H1, H2, H3.
  - cbn [String.eqb Ascii.eqb Bool.eqb]. destruct reference; try contradiction; reflexivity.
Qed.
Print Assumptions C86_other_arguments_refused.
(** a Hamiltonian no term of which touches the last qubits is refused, whatever the reference *)
Theorem C86_idle_qubits_refused : forall init sys fast reference kind, Forall (fun t => FitsIn (pred (length (hf_reference sys))) (snd t)) (hamiltonian sys) -> hf_reference sys <> [] ->
  match reference with Occupations l => length l = length (hf_reference sys) | _ => True end ->
  algorithm_init init sys reference kind fast = Throw (PyError "ValueError").
Proof.
  intros init sys fast reference kind HF NE HL.
  assert (W : op_num_qubits (hamiltonian sys) <= pred (length (hf_reference sys))). { apply PropAccess.C56_operator_width. intros c gs Hin. rewrite Forall_forall in HF. exact (HF _ Hin). }
  assert (NQ : op_num_qubits (hamiltonian sys) <> length (hf_reference sys)). { destruct (hf_reference sys); [congruence|cbn in *; lia]. }
  destruct (String.eqb kind "occupation_list") eqn:K1; [|destruct (String.eqb kind "unitary_circ") eqn:K2; [|destruct (String.eqb kind "computer") eqn:K3]].
  - apply String.eqb_eq in K1. subst kind. destruct reference as [|l|U|c].
    + apply (C86_occupation_list init sys fast NoReference (hf_reference sys)); auto.
    + apply (C86_occupation_list init sys fast (Occupations l) l); [auto|congruence].
    + reflexivity. + reflexivity.
  - apply String.eqb_eq in K2. subst kind. pose proof (C86_circuit init sys fast reference) as X. destruct reference as [|l|U|c]; try exact X. now apply X.
  - apply String.eqb_eq in K3. subst kind. pose proof (C86_computer init sys fast reference) as X. destruct reference as [|l|U|c]; try exact X. cbv zeta in X. apply X. tauto.
  - apply C86_other_arguments_refused. left. apply String.eqb_neq in K1, K2, K3. auto.
Qed.
Print Assumptions C86_idle_qubits_refused.

(** ---- the hypotheses are met ---- *)
Example C86_nonvacuous_operator : PenaltyOperator 1 [(RtoC 3, [gZ 0])].
Proof.
  assert (CX : canonical_op [(RtoC 3, [gZ 0])]) by (constructor; [|constructor]; (split; cbn [snd]; [constructor; [apply gZ_pauli|constructor]|cbn; intuition])).
  split; [|split; [now apply terms_canonical|split; [repeat constructor; cbn; tauto|]]].
  - assert (S1 := canonical_strings 1 _ CX). apply Forall_forall. intros t Ht. split.
    + assert (G : in_reg 1 [(RtoC 3, [gZ 0])]) by (repeat constructor; cbn; lia). specialize (S1 G). rewrite Forall_forall in S1. now apply S1.
    + destruct Ht as [<-|[]]; reflexivity.
  - constructor; [|constructor]. cbn [fst]. rewrite Cabs_RtoC, Rabs_pos_eq; lra.
Qed.
(** Z with the wanted eigenvalue 3 of 3 Z on |0>, and a penalty *)
Example C86_nonvacuous_penalty : exists a a', algorithm_init false (mkSystem [(RtoC 3, [gZ 0])] [1]) (Occupations [0]) "occupation_list" true = Ok a /\ add_penalty false [[(RtoC 3, [gZ 0])]] [3%R] [2%R] a = Ok a' /\ inner 1 (ket 0) (ket 0) = C1 /\ Forall (fun p => op_act (fst p) (ket 0) == sscale (RtoC (snd p)) (ket 0)) (combine [[(RtoC 3, [gZ 0])]] [3%R]).
Proof.
  destruct (C86_occupation_list false (mkSystem [(RtoC 3, [gZ 0])] [1]) true (Occupations [0]) [0] (or_introl eq_refl)) as (_ & X). destruct (X eq_refl) as (a & E & _ & _ & HH & _).
  destruct (C86_penalized_hamiltonian a 1 [[(RtoC 3, [gZ 0])]] [3%R] [2%R]) as (q & EQ & _); [rewrite HH; apply C86_nonvacuous_operator|constructor; [apply C86_nonvacuous_operator|constructor]|reflexivity|reflexivity|].
  eexists a, _. split; [exact E|]. split; [exact EQ|]. split.
  - unfold inner. cbn. apply C_ext; cbn; ring.
  - constructor; [|constructor]. cbn [fst snd]. intros J. unfold op_act, sscale, Csum, circ_act. cbn [fold_left fold_right fst snd]. unfold gate_act. cbn [gtarget gcontrol gZ Nat.eqb gmat]. unfold act1.
    assert (KT : ket 0 (upd J 0 true) = C0). { unfold ket. destruct (Nat.eqb_spec (upd J 0 true) 0) as [Z|Z]; [|reflexivity]. exfalso. assert (B : bit (upd J 0 true) 0 = true) by (rewrite bit_upd, Nat.eqb_refl; reflexivity). rewrite Z in B. discriminate B. }
    destruct (bit J 0) eqn:B; cbn [b2n].
    + assert (UJ : upd J 0 true = J) by (apply bits_ext; intros k; rewrite bit_upd; destruct (Nat.eqb_spec k 0) as [-> |]; congruence). rewrite UJ in KT |- *. rewrite KT. apply C_ext; cbn; ring.
    + assert (UJ : upd J 0 false = J) by (apply bits_ext; intros k; rewrite bit_upd; destruct (Nat.eqb_spec k 0) as [-> |]; congruence). rewrite UJ, KT. apply C_ext; cbn; ring.
Qed.
