(** Vanishing residuals of a complete pool mean an eigenstate. *)
From Coq Require Import Reals String List Arith ZArith Bool Lia Lra.
From Verif Require Import CBase Result Bits Spec OpSpec GateModel ComputerModel SafeProofs LibProofs CleanProofs SimProofs CircuitModel OperatorModel MeasureModel MeasureProofs SQSpec SQModel SQPoolModel PyModel PyApply CompactModel CompactApply ExpSpec ExpProofs AnsatzSpec AnsatzModel AnsatzProofs FermiProofs QkProofs SpinSpec SymmSums SectorProofs ResModel RunModel GradModel GradSpec GradCalc GradProofs GradAnsatz PropOperator PropMeasure PropAnsatz PropGrad PropRes RunProofs PropRun PropPqe.
From Verif Require PauliProofs PenProofs QftProofs.
Import ListNotations.
Local Open Scope nat_scope.

(** ---- specification ---- *)
(** an operator that takes N-electron states to N-electron states *)
Definition ConservesElectrons (n : nat) (H : state -> state) : Prop := forall N psi, Within (fun I => n_electrons n I = N) psi -> Within (fun I => n_electrons n I = N) (H psi).
(** the pool takes the reference to every other determinant with its number of electrons *)
Definition CompletePool (s : ucc) (n D : nat) : Prop := forall J, J < 2 ^ n -> n_electrons n J = n_electrons n D -> J <> D -> exists e phase, In e (pool s) /\ TakesTo (qubit_excitations s) (snd e) D J phase /\ phase <> C0.

Lemma electrons_weight n I : weight (fun _ => 1%Z) n I = Z.of_nat (n_electrons n I).
Proof. unfold weight, n_electrons, wlist. induction (filter (bit I) (seq 0 n)) as [|x l IH]; [reflexivity|]. cbn [map fold_right length]. rewrite IH. lia. Qed.
Lemma wlist_one l : wlist (fun _ => 1%Z) l = Z.of_nat (length l).
Proof. unfold wlist. induction l as [|x l IH]; [reflexivity|]. cbn [map fold_right length]. rewrite IH. lia. Qed.
Lemma pair_conserves n qe a P H : length P = length H -> Forall (fun p => p < n) P -> Forall (fun p => p < n) H -> ConservesElectrons n (act qe (Antihermitian a P H)).
Proof.
  intros E BP BH N psi HW I HI. assert (W : Within (fun I => (fun z => z = Z.of_nat N) (weight (fun _ => 1%Z) n I)) psi) by (intros J HJ; rewrite electrons_weight; f_equal; now apply HW).
  apply (act_within (fun _ => 1%Z) n qe (fun z => z = Z.of_nat N) (Antihermitian a P H)) in W.
  - apply W in HI. cbn beta in HI. rewrite electrons_weight in HI. lia.
  - unfold Antihermitian. repeat constructor; unfold fcre, fann; cbn [fst snd]; try assumption; intros z; rewrite !wlist_one, E; lia.
Qed.
Lemma factors_conserve s n : forall tops ts, length ts = length tops -> Forall (fun x => Usable s n (fst x) (snd x)) (combine tops ts) -> Forall (fun x => ConservesElectrons n (snd x)) (factors (qubit_excitations s) (pool s) tops ts).
Proof.
  induction tops as [|top tops IH]; intros [|t ts] L F; try discriminate; [constructor|]. unfold factors in *. cbn [combine map fst snd] in *. constructor; [|apply IH; [now injection L|exact (Forall_inv_tail F)]].
  destruct (usable_at _ _ _ _ (Forall_inv F)) as (_ & a & P & H & EO & (_ & HE & _) & (BP & BH) & _). cbn [fst snd] in *. rewrite EO. apply pair_conserves; [apply HE|exact BP|exact BH].
Qed.
Lemma steps_conserve (Q : (state -> state) -> Prop) m l : Forall (fun x : C * (state -> state) => Q (snd x)) l -> Forall (fun x => Q (snd x)) (trotter_steps m l).
Proof.
  intros F. unfold trotter_steps. set (g := map _ l). assert (G : Forall (fun x : C * (state -> state) => Q (snd x)) g). { apply Forall_map. eapply Forall_impl; [|exact F]. intros (c, A) H. exact H. }
  clearbody g. induction m as [|m IH]; [constructor|]. cbn [repeat concat]. apply Forall_app. now split.
Qed.
Lemma ansatz_conserve s n ts : Admissible s n ts -> Forall (fun x => ConservesElectrons n (snd x)) (pqe_factors s ts).
Proof.
  intros (L & F). unfold pqe_factors. cbv zeta. assert (G := factors_conserve s n (seq 0 (length (pool s))) ts ltac:(rewrite seq_length; exact L) F). destruct (compact s); [exact G|]. exact (steps_conserve _ _ _ G).
Qed.
Lemma ket_within n D : Within (fun I => n_electrons n I = n_electrons n D) (ket D).
Proof. intros J HJ. unfold ket in HJ. destruct (Nat.eqb_spec J D) as [E|E]; [now rewrite E|now elim HJ]. Qed.
Lemma inner_disjoint n S a b : Within (fun I => ~ S I) a -> Within S b -> inner n a b = C0.
Proof.
  intros HA HB. unfold inner. apply Csum_zero. intros I _. destruct (Ceq_dec (a I) C0) as [E|E]; [rewrite E; apply C_ext; cbn; ring|]. destruct (Ceq_dec (b I) C0) as [E'|E']; [rewrite E'; apply C_ext; cbn; ring|]. elim (HA I E). now apply HB.
Qed.

Lemma real_phase n H phi : self_adjoint n H -> inner n phi (H phi) = RtoC (energy n H phi).
Proof. intros HH. assert (E : inner n phi (H phi) = Cconj (inner n phi (H phi))) by (rewrite <- inner_conj; apply HH). unfold energy. apply (f_equal Im) in E. cbn in E. apply C_ext; cbn; [reflexivity|lra]. Qed.
(** ---- all residuals of a complete pool vanish exactly for an eigenstate ---- *)
Theorem C88_zero_residuals_eigenstate_partial : forall o s ts rs, let n := length (ref o) in PqeObject o s -> Admissible s n ts -> ConservesElectrons n (op_act (ham s)) -> (forall D, reference s = ket D -> CompletePool s n D) ->
  Residuals s n ts rs -> Forall (fun r => r = C0) rs ->
  exists phi E, exp_product (pqe_factors s ts) (reference s) phi /\ inner n phi phi = C1 /\ (forall I, I < 2 ^ n -> op_act (ham s) phi I = (RtoC E * phi I)%C) /\ IsAnsatzEnergy s n ts E.
Proof.
  intros o s ts rs n (Ln & ER & EU & EI & HH & Nt & T1 & FE) HA HN HC (D & RD & LD & FR) FZ. specialize (HC D RD). pose proof HA as (LT & FU).
  set (s' := vqe_start s). destruct (ansatz_built PropSQ.isort tsort s' n ts PropSQ.isort_legal tsort_legal Nt T1 ltac:(cbn [tops s' vqe_start]; now rewrite seq_length) FU) as (U & _ & AU & HU).
  change (forall psi, exp_product (pqe_factors s ts) psi (circ_act U psi)) in HU.
  set (H := op_act (ham s)) in *. assert (SA : self_adjoint n H) by (intros a b; exact (PenProofs.ham_hermitian n (ham s) HH n a b (le_n n))). destruct AU as (A1 & A2 & A3).
  set (phi := circ_act U (ket D)). set (E := energy n H phi). exists phi, E. rewrite RD.
  assert (NP : inner n phi phi = C1) by (unfold phi; rewrite (circ_preserves_inner n U _ _ A1 A3), QftProofs.inner_ket by exact LD; unfold ket; now rewrite Nat.eqb_refl).
  split; [apply HU|]. split; [exact NP|]. split; [|exists phi; rewrite RD; split; [apply HU|split; [exact NP|reflexivity]]].
  set (N := n_electrons n D) in *. set (S := fun I => n_electrons n I = N).
  assert (SP : forall J, Within (fun I => n_electrons n I = n_electrons n J) (circ_act U (ket J))). { intros J. apply (product_within _ (pqe_factors s ts)) with (psi := ket J); [|apply HU|apply ket_within]. eapply Forall_impl; [|exact (ansatz_conserve s n ts HA)]. intros x Hx psi. apply Hx. }
  assert (WP : Within S phi) by apply SP. assert (WH : Within S (H phi)) by (apply HN; exact WP).
  set (v := fun I => (H phi I - RtoC E * phi I)%C). assert (EV : v == sadd (H phi) (sscale (RtoC (- E)) phi)) by (intros I; unfold v, sadd, sscale; apply C_ext; cbn; ring).
  assert (IV : forall a, inner n a v = (inner n a (H phi) + RtoC (- E) * inner n a phi)%C) by (intros a; rewrite (inner_ext n a a v _ (fun I => eq_refl) EV), inner_add_r, inner_scale_r; reflexivity).
  assert (Z : forall J, J < 2 ^ n -> inner n (circ_act U (ket J)) v = C0).
  { intros J LJ. rewrite IV. destruct (Nat.eq_dec J D) as [->|NJ].
    - fold phi. rewrite (real_phase n H phi SA). fold E. rewrite NP. apply C_ext; cbn; ring.
    - assert (O1 : inner n (circ_act U (ket J)) phi = C0) by (unfold phi; rewrite (circ_preserves_inner n U _ _ A1 A3), QftProofs.inner_ket by exact LJ; unfold ket; destruct (Nat.eqb_spec J D); [contradiction|reflexivity]).
      rewrite O1. assert (O2 : inner n (circ_act U (ket J)) (H phi) = C0); [|rewrite O2; apply C_ext; cbn; ring].
      destruct (Nat.eq_dec (n_electrons n J) N) as [EN|NN].
      + destruct (HC J LJ EN NJ) as (e & ph & Ie & TT & Hph). destruct (In_nth_error _ _ Ie) as (k & Ek). destruct (forall2_nth _ _ _ FR k e Ek) as (r & Er & phi0 & phimu & X1 & X2 & X3).
        assert (Z0 : r = C0) by (rewrite Forall_forall in FZ; apply FZ; now apply (nth_error_In _ k)).
        assert (E0 : phi0 = phi) by (apply state_eq; exact (exp_product_unique _ _ _ _ X1 (HU (ket D)))). subst phi0.
        assert (Em : phimu == sscale ph (circ_act U (ket J))). { eapply seq_trans; [exact (exp_product_unique _ _ _ _ X2 (HU _))|]. eapply seq_trans; [apply circ_act_ext; exact TT|]. apply (PauliProofs.circ_act_scale U ph (ket J)). }
        rewrite Z0 in X3. fold H in X3. rewrite (inner_ext n _ _ _ _ Em (fun I => eq_refl)), inner_scale_l in X3.
        destruct (Ceq_dec (inner n (circ_act U (ket J)) (H phi)) C0) as [Q|Q]; [exact Q|]. exfalso. apply Hph. symmetry in X3. set (z := inner n (circ_act U (ket J)) (H phi)) in *. clearbody z.
        apply (f_equal (fun x => (x * Cconj z)%C)) in X3. assert (M : (0 < Cnorm2 z)%R). { unfold Cnorm2. destruct z as [zr zi]. cbn. destruct (Req_dec zr 0) as [->|]; [destruct (Req_dec zi 0) as [->|]; [now elim Q|nra]|nra]. }
        assert (M2 : forall w, (Cconj ph * z * Cconj z = w -> w = C0 -> ph = C0)%C). { intros w <- W. unfold Cnorm2 in M. destruct ph as [pr pi], z as [zr zi]. cbn in *. pose proof (f_equal Re W) as W1. pose proof (f_equal Im W) as W2. cbn in W1, W2. apply C_ext; cbn; nra. }
        apply (M2 _ X3). apply C_ext; cbn; ring.
      + apply (inner_disjoint n S); [|exact WH]. intros I HI. apply SP in HI. unfold S. congruence. }
  set (w := circ_act (circuit_adjoint U) v). assert (ZW : forall J, J < 2 ^ n -> w J = C0). { intros J LJ. rewrite <- (QftProofs.inner_ket n J w LJ). unfold w. rewrite (inner_conj n (ket J)). rewrite <- (circ_inner_adjoint n U v (ket J) A1 A3), <- inner_conj. now apply Z. }
  assert (NV : inner n v v = C0).
  { transitivity (inner n w w); [|unfold inner; apply Csum_zero; intros I HI; apply in_seq in HI; rewrite (ZW I) by lia; apply C_ext; cbn; ring].
    unfold w. rewrite <- (circ_inner_adjoint n U v (circ_act (circuit_adjoint U) v) A1 A3). apply inner_ext; [intros I; reflexivity|]. intros I. symmetry. apply (circuit_adjoint_undoes U v A1). }
  intros I LI. pose proof (norm_zero n v ltac:(rewrite NV; reflexivity) I LI) as V0. unfold v in V0. apply (f_equal (fun x => (x + RtoC E * phi I)%C)) in V0. transitivity (H phi I - RtoC E * phi I + RtoC E * phi I)%C; [ring|]. rewrite V0. apply C_ext; cbn; ring.
Qed.
Print Assumptions C88_zero_residuals_eigenstate_partial.
(** the residuals of an eigenstate vanish, whatever the pool *)
Theorem C88_eigenstate_zero_residuals_partial : forall o s ts rs phi E, let n := length (ref o) in PqeObject o s -> Admissible s n ts -> Residuals s n ts rs ->
  exp_product (pqe_factors s ts) (reference s) phi -> (forall I, I < 2 ^ n -> op_act (ham s) phi I = (E * phi I)%C) -> Forall (fun r => r = C0) rs.
Proof.
  intros o s ts rs phi E n HO HA (D & RD & LD & FR) HP HE. pose proof HO as (Ln & ER & EU & EI & HH & Nt & T1 & FE). pose proof HA as (LT & FU). rewrite RD in HP.
  set (s' := vqe_start s). destruct (ansatz_built PropSQ.isort tsort s' n ts PropSQ.isort_legal tsort_legal Nt T1 ltac:(cbn [tops s' vqe_start]; now rewrite seq_length) FU) as (U & _ & (A1 & A2 & A3) & HU). change (forall psi, exp_product (pqe_factors s ts) psi (circ_act U psi)) in HU.
  destruct (C65_excited_determinants PropSQ.isort PropSQ.isort_legal (qubit_excitations s) (ref o) (refprep o) (pool s) ER Ln FE) as (D' & pool' & dets & HD & _ & _ & FD & _).
  assert (ED : D' = D). { pose proof (occupation_reference (ref o) (refprep o) D' s ER HD EU EI) as Q. rewrite RD in Q. apply (f_equal (fun f => f D)) in Q. unfold ket in Q. rewrite Nat.eqb_refl in Q. destruct (Nat.eqb_spec D D') as [X|X]; [now symmetry|]. apply (f_equal Re) in Q. cbn in Q. lra. } subst D'.
  clear FE LT FU HA. revert dets FD. induction FR as [|e r pl rs' (phi0 & phimu & X1 & X2 & X3) _ IH]; intros dets FD; [constructor|]. inversion FD as [|e' d pl' dets' (TT & _ & ND & _) FD' E1 E2]; subst. constructor; [|exact (IH _ FD')].
  assert (E0 : phi0 = phi) by (apply state_eq; exact (exp_product_unique _ _ _ _ X1 HP)). subst phi0. assert (Em : phimu == circ_act U (act (qubit_excitations s) (snd e) (ket D))) by exact (exp_product_unique _ _ _ _ X2 (HU _)). assert (Ep : phi == circ_act U (ket D)) by exact (exp_product_unique _ _ _ _ HP (HU _)).
  assert (V : inner n phimu (op_act (ham s) phi) = (E * inner n phimu phi)%C). { rewrite <- inner_scale_r. unfold inner. apply Csum_ext. intros I HI. apply in_seq in HI. rewrite HE by (unfold n in *; lia). reflexivity. }
  fold n. rewrite V, (inner_ext n _ _ _ _ Em Ep), (circ_preserves_inner n U _ _ A1 A3), (inner_ext n _ (sscale (snd d) (ket (fst d))) _ (ket D) TT (fun I => eq_refl)), inner_scale_l. rewrite inner_conj, QftProofs.inner_ket by exact LD. unfold ket. destruct (Nat.eqb_spec D (fst d)) as [Q|Q]; [now elim ND|]. apply C_ext; cbn; ring.
Qed.
Print Assumptions C88_eigenstate_zero_residuals_partial.

(** one electron in two spin orbitals, H = Z_0 + Z_1, at amplitude 1/2 *)
Definition gZ1 (q : nat) : gate := mkGate "Z" q q m_Z None.
Definition one_electron : ucc := mkUcc (new_computer 2) (StateProofs.xgates 0 [1; 0]) [(C1, [gZ1 0]); (C1, [gZ1 1])] "SD" false false 1 [(C1, Antihermitian 1 [1] [0])] [] [].
Definition one_electron_options : run_options := mkRun "jacobi" true (1/100000) (1/100000) 50 0 8 true false "occupation_list" [1; 0] (StateProofs.xgates 0 [1; 0]) (Some [RtoC (-2)]%R) 1.
Example C88_eigenstate_nonvacuous : PqeObject one_electron_options one_electron /\ Admissible one_electron 2 [1/2]%R /\ ConservesElectrons 2 (op_act (ham one_electron)) /\ (forall D, reference one_electron = ket D -> CompletePool one_electron 2 D) /\
  exists rs, Residuals one_electron 2 [1/2]%R rs /\ Forall (fun r => r = C0) rs.
Proof.
  assert (ST : Standard 1 [1] [0] (Antihermitian 1 [1] [0])). { split; [reflexivity|]. split; [|split; [cbn; lia|rewrite Rabs_R1; lra]]. split; [discriminate|]. split; [reflexivity|]. split; [repeat constructor|]. split; [repeat constructor|]. left. intros k [<-|[]] [E|[]]. lia. }
  assert (HD : forall psi I, op_act (ham one_electron) psi I = (((if bit I 0 then - C1 else C1) + (if bit I 1 then - C1 else C1)) * psi I)%C).
  { intros psi I. unfold op_act, one_electron. cbn [ham]. rewrite !Csum_cons, Csum_nil. cbn [fst snd]. unfold circ_act, gZ1. cbn [fold_left]. rewrite !ThreeQubit.act_1, !GateEval.ev_Z. unfold GateEval.sgn. destruct (bit I 0), (bit I 1); apply C_ext; cbn; ring. }
  assert (HO : PqeObject one_electron_options one_electron).
  { split; [cbn; lia|]. split; [apply StateProofs.refprep_eq|]. split; [reflexivity|]. split; [reflexivity|]. split.
    { assert (G : forall q, q < 2 -> StringOn 2 [gZ1 q]). { intros q Lq. split; [split|]; (constructor; [|constructor]); [exists "Z"%string, q; split; [tauto|unfold make_gate; now rewrite Nat.eqb_refl]|intros []|exact Lq]. }
      constructor; [split; [apply G; lia|reflexivity]|]. constructor; [split; [apply G; lia|reflexivity]|constructor]. }
    split; [discriminate|]. split; [cbn; lia|]. constructor; [|constructor]. exists 1%R, [1], [0]. split; [reflexivity|]. split; [exact ST|]. left. split; (constructor; [cbn; lia|constructor]). }
  assert (HA : Admissible one_electron 2 [1/2]%R). { split; [reflexivity|]. constructor; [|constructor]. exists 1%R, [1], [0]. split; [reflexivity|]. split; [exact ST|]. split; [repeat constructor; lia|]. split; [repeat constructor; lia|]. right. cbn [fst snd]. rewrite Rmult_1_r, Rabs_right; lra. }
  assert (HC : ConservesElectrons 2 (op_act (ham one_electron))). { intros N psi HW I HI. apply HW. intros E. apply HI. rewrite HD, E. apply C_ext; cbn; ring. }
  assert (RK : reference one_electron = ket 1). { apply (occupation_reference [1; 0] _ 1 one_electron (StateProofs.refprep_eq _)); [|reflexivity|reflexivity]. intros [|[|q]]; [reflexivity|reflexivity|]. unfold bit. rewrite (Nat.bits_above_log2 1) by (cbn; lia). destruct q; reflexivity. }
  split; [exact HO|]. split; [exact HA|]. split; [exact HC|]. split.
  - intros D ED. rewrite RK in ED. assert (D = 1) as ->. { apply (f_equal (fun f => f D)) in ED. unfold ket in ED. rewrite Nat.eqb_refl in ED. destruct (Nat.eqb_spec D 1); [assumption|]. apply (f_equal Re) in ED. cbn in ED. lra. }
    intros J LJ NJ DJ. assert (J = 2) as ->. { cbn in LJ. destruct J as [|[|[|[|J]]]]; try lia; try reflexivity; cbn in NJ; discriminate. }
    destruct (ResProofs.excite_ket false 1 [1] [0] 1) as (k & Hk & EK); try discriminate; try reflexivity; [repeat constructor|repeat constructor|repeat constructor; cbn; intuition lia|].
    eexists _, (RtoC (1 * k)). split; [now left|]. split; [exact EK|]. intros Q. apply (f_equal Re) in Q. cbn in Q. destruct Hk as [-> | ->]; lra.
  - destruct (pqe_setup example_libraries one_electron_options one_electron) as (D0 & pl0 & dt0 & _ & _ & _ & _ & _ & _ & _ & GR); [split; [exact PropSQ.isort_legal|split; [exact tsort_legal|exact Logic.I]]|exact HO|]. destruct (GR _ HA) as (rs & HR & _). exists rs. split; [exact HR|].
    destruct (start_energy example_libraries one_electron_options one_electron 2 [1/2]%R) as (U0 & E0 & _ & _ & phi & HP & _); [split; [exact PropSQ.isort_legal|split; [exact tsort_legal|exact Logic.I]]|reflexivity| |exact HA|].
    { destruct HO as (Ln & ER & EU & EI & HH & Nt & T1 & _). destruct (prepared_occupations [1; 0] _ one_electron Ln ER EU EI HH Nt T1) as (_ & _ & _ & _ & X). exact X. }
    apply (C88_eigenstate_zero_residuals_partial one_electron_options one_electron [1/2]%R rs phi C0 HO HA HR HP). intros I LI. cbn in LI. rewrite HD.
    assert (W : Within (fun I => n_electrons 2 I = 1) phi). { rewrite RK in HP. apply (product_within _ (pqe_factors one_electron [1/2]%R)) with (psi := ket 1); [|exact HP|exact (ket_within 2 1)]. eapply Forall_impl; [|exact (ansatz_conserve _ _ _ HA)]. intros x Hx psi. apply Hx. }
    destruct (Ceq_dec (phi I) C0) as [E|E]; [rewrite E; apply C_ext; cbn; ring|]. apply W in E. unfold n_electrons in E. cbn [seq filter] in E. destruct (bit I 0), (bit I 1); cbn in E; try discriminate; apply C_ext; cbn; ring.
Qed.
