(** C79: the residuals of SPQE, the exact ones of get_residual_vector and those that
    update_ansatz reads off the time-evolved state *)
From Coq Require Import Reals String List Arith NArith ZArith Bool Lia Lra Permutation Sorted.
From Verif Require Import CBase Result Bits Spec OpSpec SQSpec GateModel ComputerModel SafeProofs LibProofs CleanProofs SimProofs CircuitModel PauliProofs OperatorModel MeasureModel MeasureProofs SQModel SQPhase SQProofs SQPoolSpec SQPoolModel SQPoolProofs SQPoolOps PyModel PyApply ExpSpec ExpProofs AnsatzSpec AnsatzModel AnsatzProofs GradModel GradSpec GradCalc GradProofs GradAnsatz GradExample ResModel ResProofs SelectModel SelectSpec SelectProofs SpqeProofs SparseNorm CompactModel CompactAct CompactApply CompactProofs FermiProofs QkProofs QpeProofs QiteNorm PropOperator PropMeasure PropAnsatz PropGrad PropRes PropSpqe MomentModel MomentProofs MomentSpace PropMoment.
From Verif Require StateProofs TrotterProofs QftProofs.
Import ListNotations.
Local Open Scope nat_scope.
Notation norm2 := ResModel.norm2.

(** an operator of the pool with its amplitude: at most a sixfold excitation, and an amplitude
    that the circuits represent *)
Definition Selected (s : ucc) (m : nat) (R : N) (pl : list (N * list fterm)) (top : nat) (t : Rdefinitions.R) : Prop := exists D o,
  nth_error pl top = Some (D, o) /\ length (holes R D (2 * m)) <= 6 /\ (if compact s then sharp_amplitude (length (holes R D (2 * m))) t else t = 0%R \/ (1e-8 < Rabs t)%R).

Lemma same_size m R D : (forall s, s < 2 -> electrons s m D = electrons s m R) -> length (particles R D (2 * m)) = length (holes R D (2 * m)).
Proof.
  intros H. assert (G : forall k, (length (orbitals (fun p => occ D p && negb (occ R p)) (2 * k)) + (electrons 0 k R + electrons 1 k R) = length (orbitals (fun p => occ R p && negb (occ D p)) (2 * k)) + (electrons 0 k D + electrons 1 k D))%nat).
  { intros k. induction k as [|k IH]; [reflexivity|]. replace (2 * S k) with (S (S (2 * k))) by lia. cbn [orbitals electrons]. replace (2 * k + 0) with (2 * k) by lia. replace (2 * k + 1) with (S (2 * k)) by lia.
    destruct (occ R (2 * k)), (occ D (2 * k)), (occ R (S (2 * k))), (occ D (S (2 * k))); cbn [andb negb length]; lia. }
  specialize (G m). unfold particles, holes. rewrite (H 0), (H 1) in G by lia. lia.
Qed.
Lemma pool_pair m irreps irrep max R pl D o : PoolOf m irreps irrep max R pl -> In (D, o) pl ->
  (D < 2 ^ N.of_nat (2 * m))%N /\ D <> R /\ length (particles R D (2 * m)) = length (holes R D (2 * m)) /\ 1 <= length (holes R D (2 * m)) <= max /\ Permutation o (excitation R D (2 * m)).
Proof.
  intros (_ & PT & PF) HI. assert (HT : Target m irreps irrep max R D) by (apply PT; apply in_map_iff; exists (D, o); split; [reflexivity|exact HI]). rewrite Forall_forall in PF. specialize (PF _ HI). cbn [fst snd] in PF. destruct HT as (H1 & H2 & _ & H4). split; [exact H1|]. split.
  - intros ->. assert (X : holes R R (2 * m) = []); [|rewrite X in H4; cbn in H4; lia]. unfold holes. clear. generalize (2 * m) as k. induction k as [|k IH]; [reflexivity|]. cbn [orbitals]. destruct (occ R k); exact IH.
  - split; [now apply same_size|]. split; assumption.
Qed.
Lemma sharp_amp_neg r t : sharp_amplitude r t -> sharp_amplitude r (- t).
Proof. intros H k Hk. replace (- t / 2 ^ k)%R with (- (t / 2 ^ k))%R by (unfold Rdiv; ring). apply sharp_neg. now apply H. Qed.
Lemma selected_usable s m irreps irrep max R pl top t : PoolOf m irreps irrep max R pl -> map snd (pool s) = map snd pl -> Selected s m R pl top t -> UsableOp s (2 * m) top t.
Proof.
  intros PO EP (D & o & EN & L6 & HA). pose proof (nth_error_In _ _ EN) as HI. destruct (pool_pair _ _ _ _ _ _ _ _ PO HI) as (HD & ND & LL & LB & HP). set (n := 2 * m) in *. set (P := particles R D n) in *. set (H := holes R D n) in *.
  assert (EI : exists c, pool_item (pool s) top = Ok (c, o)). { unfold pool_item, vget. assert (E1 : nth_error (map snd (pool s)) top = Some o) by (rewrite EP; apply (map_nth_error snd _ _ EN)). rewrite nth_error_map in E1. destruct (nth_error (pool s) top) as [[c o']|]; [|discriminate]. cbn in E1. injection E1 as ->. now exists c. }
  destruct EI as (c & EI).
  assert (DP : dsorted P) by apply orbitals_sorted. assert (DH : dsorted H) by apply orbitals_sorted. assert (NP : P <> []) by (intros E; rewrite E in LL; cbn [length] in LL; lia). assert (NH : H <> []) by (intros E; rewrite E in LB; cbn [length] in LB; lia).
  assert (DJ : forall p, In p P -> ~ In p H) by (intros p H1 H2; apply orbitals_in in H1, H2; destruct (occ R p), (occ D p); cbn in *; destruct H1, H2; discriminate).
  assert (BP : Forall (fun p => p < n) P) by (apply Forall_forall; intros p Hp; now apply orbitals_in in Hp). assert (BH : Forall (fun p => p < n) H) by (apply Forall_forall; intros p Hp; now apply orbitals_in in Hp).
  assert (M1 : (- C1)%C = RtoC (-1)) by (apply C_ext; cbn; ring). assert (M2 : C1 = RtoC (- -1)) by (apply C_ext; cbn; ring).
  assert (SU : forall A B, (forall p, In p A -> ~ In p B) -> Supported A B) by (intros A B J q p r -> ->; apply (J q); [right; now left|now left]).
  apply Permutation_sym in HP. apply Permutation_length_2_inv in HP. destruct HP as [-> | ->].
  - exists c, 1%R, P, H. unfold excitation in EI. fold P H in EI. rewrite M1 in EI. split; [exact EI|]. split; [|split; [exact BP|split; [exact BH|]]].
    + split; [reflexivity|]. split; [|split; [lia|rewrite Rabs_R1; lra]]. split; [exact NP|]. split; [exact LL|]. split; [exact DP|]. split; [exact DH|]. left. exact DJ.
    + destruct (compact s); [split; [right; now apply SU|rewrite LL, Rmult_1_r; exact HA]|]. unfold Sizable. rewrite Rmult_1_r. exact HA.
  - exists c, (-1)%R, H, P. fold P H in EI. rewrite M1, M2 in EI. split; [exact EI|]. split; [|split; [exact BH|split; [exact BP|]]].
    + split; [reflexivity|]. split; [|split; [lia|rewrite (Rabs_left (-1)) by lra; lra]]. split; [exact NH|]. split; [now symmetry|]. split; [exact DH|]. split; [exact DP|]. left. intros p X Y. now apply (DJ p).
    + replace (t * -1)%R with (- t)%R by ring. destruct (compact s); [split; [right; apply SU; intros p X Y; now apply (DJ p)|now apply sharp_amp_neg]|]. unfold Sizable. replace (t * -1)%R with (- t)%R by ring. rewrite Rabs_Ropp. exact HA.
Qed.
Lemma residual_loop (step : nat -> list C -> res (list C)) (G : nat -> C -> Prop) (jacobi : bool) tops :
  (forall top, In top tops -> exists r v, G top r /\ (v = r \/ v = (- r)%C) /\ (jacobi = true -> v = r) /\ forall acc, step top acc = if Req_EM_T (Im v) 0 then Ok (acc ++ [v])%list else Throw (PyError "ValueError")) ->
  exists rs vs, Forall2 G tops rs /\ Forall2 (fun r v => v = r \/ v = (- r)%C) rs vs /\ (jacobi = true -> vs = rs) /\
    (Forall (fun r => Im r = 0%R) rs -> forall acc, foreach tops step acc = Ok (acc ++ vs)%list) /\ (Exists (fun r => Im r <> 0%R) rs -> forall acc, foreach tops step acc = Throw (PyError "ValueError")).
Proof.
  induction tops as [|top l IH]; intros H.
  - exists [], []. split; [constructor|]. split; [constructor|]. split; [reflexivity|]. split; [intros _ acc; cbn; now rewrite app_nil_r|]. intros X. inversion X.
  - destruct (IH (fun x Hx => H x (or_intror Hx))) as (rs & vs & F1 & F2 & J & A & B). destruct (H top (or_introl eq_refl)) as (r & v & G1 & PM & Jv & SV). exists (r :: rs), (v :: vs). split; [now constructor|]. split; [now constructor|]. split; [intros E; rewrite (J E), (Jv E); reflexivity|].
    assert (IV : Im v = 0%R <-> Im r = 0%R) by (destruct PM as [-> | ->]; [tauto|]; cbn; split; intros; lra). split.
    + intros FR acc. cbn [foreach]. rewrite SV. destruct (Req_EM_T (Im v) 0) as [_|X]; [|exfalso; apply X, IV; exact (Forall_inv FR)]. cbn [bind]. rewrite (A (Forall_inv_tail FR)), <- app_assoc. reflexivity.
    + intros X acc. cbn [foreach]. rewrite SV. destruct (Req_EM_T (Im v) 0) as [Y|_]; [|reflexivity]. cbn [bind]. apply B. apply IV in Y. inversion X as [? ? Q|? ? Q]; subst; [contradiction|exact Q].
Qed.
Lemma norm2_signs rs vs : Forall2 (fun r v => v = r \/ v = (- r)%C) rs vs -> norm2 vs = norm2 rs.
Proof. intros F. unfold ResModel.norm2. f_equal. induction F as [|r v rs vs [-> | ->] _ IH]; [reflexivity| |]; cbn [map fold_right]; rewrite IH; [reflexivity|]. cbn. ring. Qed.
Lemma item_of (pl : list (N * list fterm)) pls top D o : map snd pls = map snd pl -> nth_error pl top = Some (D, o) -> exists c : C, pool_item pls top = Ok (c, o).
Proof. intros EP EN. unfold pool_item, vget. assert (E1 : nth_error (map snd pls) top = Some o) by (rewrite EP; apply (map_nth_error snd _ _ EN)). rewrite nth_error_map in E1. destruct (nth_error pls top) as [[c o']|]; [|discriminate]. cbn in E1. injection E1 as ->. now exists c. Qed.
Lemma ansatz_real s n ts : length ts = length (tops s) -> Forall (fun x => UsableOp s n (fst x) (snd x)) (combine (tops s) ts) -> Forall real_factor (ansatz_factors s ts).
Proof.
  intros L F. unfold ansatz_factors. cbv zeta. assert (G : Forall real_factor (factors (qubit_excitations s) (pool s) (tops s) ts)).
  { rewrite <- units_factors. change (qubit_excitations s) with (qubit_excitations (units s)). apply (factors_real n (units s)); [exact L|]. eapply Forall_impl; [|exact F]. intros x (c & a & P & H & E & Q). exists a, P, H. split; [|exact Q]. cbn [pool units]. rewrite units_item, E. reflexivity. }
  destruct (compact s); [exact G|now apply steps_real].
Qed.
Lemma takes_projection n U chi D Dm k qe o : applicable n U -> D < 2 ^ n -> (k = 1 \/ k = -1)%R -> act qe o (ket Dm) == sscale (RtoC k) (ket D) ->
  inner n (circ_act U (act qe o (ket Dm))) chi = (circ_act (circuit_adjoint U) chi D * RtoC k)%C.
Proof.
  intros AU HD Hk HA. destruct AU as (A1 & _ & A3). rewrite (inner_ext n _ (sscale (RtoC k) (circ_act U (ket D))) chi chi); [| |apply seq_refl].
  - rewrite inner_scale_l. rewrite (inner_conj n (circ_act U (ket D))), (circ_inner_adjoint n U chi _ A1 A3), <- inner_conj, (QftProofs.inner_ket n D _ HD). destruct Hk as [-> | ->]; apply C_ext; cbn; ring.
  - intros J. rewrite (circ_act_ext U _ _ HA J). apply circ_act_scale.
Qed.
(** get_residual_vector *)
Theorem C79_residuals_partial : forall srt sort s m ref R irreps irrep max pl ts jacobi, legal_sort srt -> legal_term_sort sort -> RefOf m ref R -> build_refprep (map Nat.b2n ref) = Ok (Uprep s) -> PoolOf m irreps irrep max R pl -> max <= 19 -> map snd (pool s) = map snd pl ->
  pool_type s <> "sa_SD"%string -> (compact s = false -> 1 <= trotter_number s) -> Terms (Applicable (2 * m)) (ham s) -> length ts = length (tops s) -> Forall (fun x => Selected s m R pl (fst x) (snd x)) (combine (tops s) ts) ->
  exists rs vs, Forall2 (fun top r => exists D o, nth_error pl top = Some (D, o) /\ Projection (2 * m) (op_act (ham s)) (ansatz_factors s ts) (N.to_nat R) (act (qubit_excitations s) o (ket (N.to_nat R))) r) (tops s) rs /\
    (Hamiltonian (2 * m) (ham s) -> Forall (fun t => Nat.even (count_Y (snd t)) = true) (ham s) -> Forall (fun r => Im r = 0%R) rs) /\
    Forall2 (fun r v => v = r \/ v = (- r)%C) rs vs /\ (jacobi = true -> vs = rs) /\
    let call := spqe_residual_vector srt sort s (2 * m) (Uprep s) pl jacobi (map RtoC ts) in
    (Forall (fun r => Im r = 0%R) rs -> call = Ok (vs, norm2 rs)) /\ (Exists (fun r => Im r <> 0%R) rs -> call = Throw (PyError "ValueError")).
Proof.
  intros srt sort s m ref R irreps irrep max pl ts jacobi HS HT HR EP PO M19 EPL Nt T1 HH L F. set (n := 2 * m) in *.
  assert (FU : Forall (fun x => UsableOp s n (fst x) (snd x)) (combine (tops s) ts)) by (eapply Forall_impl; [|exact F]; intros x Hx; eapply selected_usable; eassumption).
  destruct (ansatz_made srt sort s n ts HS HT Nt T1 L FU) as (U & EU & AU & HU). destruct HR as (HL & H64 & HlR & HB).
  destruct (ref_state ref R n (Uprep s) (eq_sym HL) EP HB) as (q0 & E0 & W0 & N0 & P0).
  set (chi := op_act (ham s) (circ_act U (ket (N.to_nat R)))). set (w := circ_act (circuit_adjoint U) chi).
  destruct (sim_apply q0 U W0) as (q1 & E1 & W1 & N1 & A1); [now rewrite N0|]. fold (psi_of q1) in A1. fold (psi_of q0) in A1. rewrite P0 in A1. apply state_eq in A1.
  destruct (C18_apply_operator_partial q1 (ham s) W1) as (q2 & E2 & W2 & N2 & A2); [rewrite N1, N0; exact HH|]. rewrite A1 in A2. fold chi in A2. apply state_eq in A2.
  destruct (sim_apply q2 (circuit_adjoint U) W2) as (q3 & E3 & W3 & N3 & A3); [rewrite N2, N1, N0; now apply applicable_adjoint|]. fold (psi_of q3) in A3. fold (psi_of q2) in A3. rewrite A2 in A3. fold w in A3. apply state_eq in A3.
  assert (LN : forall D, (D < 2 ^ N.of_nat n)%N -> N.to_nat D < 2 ^ n). { intros D HD. assert (PN : (2 ^ N.of_nat n)%N = N.of_nat (2 ^ n)). { clear. generalize n as k. induction k as [|k IH]; [reflexivity|]. rewrite Nat.pow_succ_r', Nat2N.inj_succ, N.pow_succ_r', IH. symmetry. apply Nat2N.inj_mul. } lia. }
  assert (GET : forall q psi D, wf_computer q -> nqubit q = n -> psi_of q = psi -> (D < 2 ^ N.of_nat n)%N -> py_get (coeff q) (N.to_nat D) = Ok (psi (N.to_nat D))).
  { intros q psi D Wq Nq <- HD. unfold py_get. rewrite (nth_error_nth' (coeff q) C0); [reflexivity|]. destruct Wq as (-> & _). unfold nbasis. rewrite Nq. now apply LN. }
  set (step := fun m0 (rs : list C) => do e <- (match nth_error pl m0 with Some e => Ok e | None => Throw (PyError "KeyError") end); do c <- py_get (coeff q3) (N.to_nat (fst e));
    do res_m <- (if jacobi then do qt <- apply_circuit (new_computer n) (Uprep s); do q <- jw_transform srt (qubit_excitations s) (snd e); do qt <- apply_operator qt (snd q); do sign_adjust <- py_get (coeff qt) (N.to_nat (fst e)); Ok (c * sign_adjust)%C else Ok c);
    if Req_EM_T (Im res_m) 0 then Ok (rs ++ [res_m])%list else Throw (PyError "ValueError")).
  assert (FT : forall top, In top (tops s) -> exists D o, nth_error pl top = Some (D, o)).
  { clear - F L. revert ts L F. induction (tops s) as [|x l IH]; intros [|t ts] L F top Ht; try destruct Ht; try discriminate L; cbn [combine] in F.
    - subst. destruct (Forall_inv F) as (D & o & E & _). now exists D, o.
    - apply (IH ts); [now injection L|exact (Forall_inv_tail F)|assumption]. }
  destruct (residual_loop step (fun top r => exists D o, nth_error pl top = Some (D, o) /\ Projection n (op_act (ham s)) (ansatz_factors s ts) (N.to_nat R) (act (qubit_excitations s) o (ket (N.to_nat R))) r /\ exists k, (k = 1 \/ k = -1)%R /\ act (qubit_excitations s) o (ket (N.to_nat R)) == sscale (RtoC k) (ket (N.to_nat D))) jacobi (tops s)) as (rs & vs & F1 & F2 & J & A & B).
  { intros top Ht. destruct (FT top Ht) as (D & o & EN). destruct (pool_pair _ _ _ _ _ _ _ _ PO (nth_error_In _ _ EN)) as (HD & ND & LL & LB & HP).
    destruct (excitation_apply srt (qubit_excitations s) n R D o q0 HS HlR HD LL ltac:(fold n in LB; lia) HP W0 N0 P0) as (q & k & qt & EJ & Hk & EO & WO & NO & PSO & AO).
    exists (w (N.to_nat D) * RtoC k)%C, (if jacobi then w (N.to_nat D) * RtoC k else w (N.to_nat D))%C. split; [|split; [|split]].
    - exists D, o. split; [exact EN|]. split; [|now exists k]. exists (circ_act U (ket (N.to_nat R))), (circ_act U (act (qubit_excitations s) o (ket (N.to_nat R)))). split; [apply HU|]. split; [apply HU|]. fold chi. symmetry. unfold w. now apply takes_projection; [|apply LN| |].
    - destruct jacobi; [now left|]. destruct Hk as [-> | ->]; [left|right]; apply C_ext; cbn; ring.
    - intros ->. reflexivity.
    - intros acc. unfold step. rewrite EN. cbn [bind fst snd]. rewrite (GET q3 w D W3 ltac:(congruence) A3 HD). cbn [bind]. destruct jacobi; [|reflexivity]. rewrite E0. cbn [bind]. rewrite EJ. cbn [bind]. rewrite EO. cbn [bind]. rewrite (GET qt _ D WO NO PSO HD). cbn [bind]. unfold sscale, ket. rewrite Nat.eqb_refl. replace (RtoC k * C1)%C with (RtoC k) by (apply C_ext; cbn; ring). reflexivity. }
  exists rs, vs. split. { clear - F1. induction F1 as [|top r l rs (D & o & H1 & H2 & _) _ IH]; constructor; [|exact IH]. now exists D, o. }
  split. { intros HM HY. pose proof (ansatz_real s n ts L FU) as RF. assert (HO : Forall (fun t => Im (fst t) = 0%R /\ Forall pauli_gate (snd t) /\ Nat.even (count_Y (snd t)) = true) (ham s)).
    { unfold Hamiltonian in HM. rewrite Forall_forall in *. intros t It. destruct (HM t It) as (H1 & H2). split; [exact H2|]. split; [apply (string_on n _ H1)|now apply HY]. }
    clear - F1 RF HO. induction F1 as [|top r l rs (D & o & H1 & (phi0 & phimu & P1 & P2 & ->) & k & _ & H3) _ IH]; constructor; [|exact IH]. apply real_inner; [|apply real_op; [exact HO|]; apply (real_product _ RF _ _ P1), real_ket]. apply (real_product _ RF _ _ P2). intros I. rewrite (H3 I). unfold sscale. cbn. rewrite (real_ket (N.to_nat D) I). ring. }
  split; [exact F2|]. split; [exact J|]. cbv zeta.
  assert (EC : spqe_residual_vector srt sort s n (Uprep s) pl jacobi (map RtoC ts) = (do rs <- foreach (tops s) step []; Ok (rs, norm2 rs))).
  { unfold spqe_residual_vector, step. rewrite map_length, L, Nat.eqb_refl. cbn [negb]. rewrite EU. cbn [bind]. rewrite E0. cbn [bind]. rewrite E1. cbn [bind]. rewrite E2. cbn [bind]. rewrite E3. cbn [bind]. reflexivity. }
  rewrite EC. split; intros HX; [rewrite (A HX)|rewrite (B HX); reflexivity]. cbn [bind app]. now rewrite (norm2_signs _ _ F2).
Qed.
Print Assumptions C79_residuals_partial.
Theorem C79_length_mismatch : forall srt sort s n refprep pl jacobi amps, length amps <> length (tops s) -> spqe_residual_vector srt sort s n refprep pl jacobi amps = Throw (PyError "AssertionError").
Proof. intros srt sort s n refprep pl jacobi amps H. unfold spqe_residual_vector. now rewrite (proj2 (Nat.eqb_neq _ _) H). Qed.
Print Assumptions C79_length_mismatch.
(** what update_ansatz reads: the amplitudes divided by dt approach the moduli of the moments *)
Theorem C79_selection_partial : forall srt sort s m ref R irreps irrep max pl ts, legal_sort srt -> legal_term_sort sort -> RefOf m ref R -> build_refprep (map Nat.b2n ref) = Ok (Uprep s) -> PoolOf m irreps irrep max R pl -> map snd (pool s) = map snd pl ->
  pool_type s <> "sa_SD"%string -> 1 <= trotter_number s -> Hamiltonian (2 * m) (ham s) -> tamps s = map RtoC ts -> length ts = length (tops s) -> Forall (fun x => Selected s m R pl (fst x) (snd x)) (combine (tops s) ts) ->
  exists M : N -> C, (forall D, Projection (2 * m) (op_act (ham s)) (ansatz_factors s ts) (N.to_nat R) (ket (N.to_nat D)) (M D) /\ ((D < 2 ^ N.of_nat (2 * m))%N -> (Cabs (M D) <= weight (ham s))%R)) /\
  forall dt, dt <> 0%R -> exists c, spqe_coeffs srt sort s (2 * m) dt = Ok c /\
    forall D, (D < 2 ^ N.of_nat (2 * m))%N -> D <> R -> (Rabs (Cabs (c D) / Rabs dt - Cabs (M D)) <= Rabs dt * (weight (ham s) * weight (ham s)) / 2)%R.
Proof.
  intros srt sort s m ref R irreps irrep max pl ts HS HT HR EP PO EPL Nt T1 HH ET L F. set (n := 2 * m) in *.
  assert (FU : Forall (fun x => UsableOp s n (fst x) (snd x)) (combine (tops s) ts)) by (eapply Forall_impl; [|exact F]; intros x Hx; eapply selected_usable; eassumption).
  destruct (ansatz_made srt sort s n ts HS HT Nt (fun _ => T1) L FU) as (U & EU & AU & HU). destruct HR as (HL & H64 & HlR & HB).
  set (Mof := fun D => inner n (circ_act U (ket (N.to_nat D))) (op_act (ham s) (circ_act U (ket (N.to_nat R))))). exists Mof.
  assert (LN : forall D, (D < 2 ^ N.of_nat n)%N -> N.to_nat D < 2 ^ n). { intros D HD. assert (PN : (2 ^ N.of_nat n)%N = N.of_nat (2 ^ n)). { clear. generalize n as k. induction k as [|k IH]; [reflexivity|]. rewrite Nat.pow_succ_r', Nat2N.inj_succ, N.pow_succ_r', IH. symmetry. apply Nat2N.inj_mul. } lia. }
  split.
  { intros D. split; [exists (circ_act U (ket (N.to_nat R))), (circ_act U (ket (N.to_nat D))); split; [apply HU|]; split; [apply HU|reflexivity]|]. intros HD.
    destruct AU as (U1 & _ & U3). unfold Mof. eapply Rle_trans; [apply cs_abs|]. assert (N1 : forall K, K < 2 ^ n -> norm n (circ_act U (ket K)) = 1%R) by (intros K HK; unfold norm, normsq; rewrite (circ_preserves_inner n U _ _ U1 U3), ket_unit by exact HK; apply sqrt_1).
    rewrite N1 by now apply LN. rewrite Rmult_1_l. eapply Rle_trans; [apply norm_op|rewrite N1 by (now apply LN); apply Req_le, Rmult_1_r]. eapply Forall_impl; [|exact HH]. intros t Ht. apply Ht. }
  intros dt Hdt. destruct (residual_state_ok srt sort s n ts ref R dt U T1 (eq_sym HL) EP HB HH ET EU AU) as (gs & ph & qc & EC & W & Nq & HG & NP & PS).
  unfold spqe_coeffs. rewrite EC. cbn [bind]. eexists. split; [reflexivity|]. intros D HD ND. cbn beta. change (nth (N.to_nat D) (coeff qc) C0) with (psi_of qc (N.to_nat D)).
  pose proof (first_order_amplitude n (trotter_number s) dt (ham s) U gs ph (N.to_nat R) (N.to_nat D) T1 HH AU (LN R HlR) (LN D HD)) as FO. specialize (FO ltac:(intros X; apply ND; now apply N2Nat.inj) Hdt HG NP). cbv zeta in FO. rewrite <- PS in FO. fold (Mof D) in FO.
  set (z := psi_of qc (N.to_nat D)) in *. assert (EZ : (Cabs z / Rabs dt)%R = Cabs (z * RtoC (/ dt))%C) by (rewrite Cabs_mul, Cabs_RtoC; unfold Rdiv; now rewrite Rabs_inv).
  rewrite EZ. eapply Rle_trans; [apply (cabs_phase_diff ph _ _ NP)|]. replace (ph * (z * RtoC (/ dt)))%C with (ph * z * RtoC (/ dt))%C by ring. exact FO.
Qed.
Print Assumptions C79_selection_partial.
(** hence the squared norm with which update_ansatz (C46) decides on convergence *)
Theorem C79_convergence_partial : forall srt sort s m ref R irreps irrep max pl ts, legal_sort srt -> legal_term_sort sort -> RefOf m ref R -> build_refprep (map Nat.b2n ref) = Ok (Uprep s) -> PoolOf m irreps irrep max R pl -> map snd (pool s) = map snd pl ->
  pool_type s <> "sa_SD"%string -> 1 <= trotter_number s -> Hamiltonian (2 * m) (ham s) -> tamps s = map RtoC ts -> length ts = length (tops s) -> Forall (fun x => Selected s m R pl (fst x) (snd x)) (combine (tops s) ts) ->
  exists M : nat -> C, (forall p D o, nth_error pl p = Some (D, o) -> Projection (2 * m) (op_act (ham s)) (ansatz_factors s ts) (N.to_nat R) (ket (N.to_nat D)) (M p)) /\
  forall dt, dt <> 0%R -> exists c, spqe_coeffs srt sort s (2 * m) dt = Ok c /\
    forall l, Forall (fun p => p < length pl) l -> let d := (Rabs dt * (weight (ham s) * weight (ham s)) / 2)%R in
      (Rabs (total (residual dt pl (fun _ _ _ => c) 0 [] []) l - total (fun p => Cabs (M p) * Cabs (M p)) l) <= INR (length l) * (d * (2 * weight (ham s) + d)))%R.
Proof.
  intros srt sort s m ref R irreps irrep max pl ts HS HT HR EP PO EPL Nt T1 HH ET L F.
  destruct (C79_selection_partial srt sort s m ref R irreps irrep max pl ts HS HT HR EP PO EPL Nt T1 HH ET L F) as (M & HM & HC). exists (fun p => M (nth p (map fst pl) 0%N)). split.
  { intros p D o EN. rewrite (nth_error_nth (map fst pl) p 0%N (map_nth_error fst _ _ EN)). apply HM. }
  intros dt Hdt. destruct (HC dt Hdt) as (c & EC & HD). exists c. split; [exact EC|]. intros l Hl. cbv zeta. set (W := weight (ham s)) in *. set (d := (Rabs dt * (W * W) / 2)%R) in *.
  assert (HW : (0 <= W)%R). { unfold W, weight. clear. induction (ham s) as [|t h IH]; [unfold Rsum; cbn; lra|]. rewrite Rsum_cons. pose proof (Cabs_nonneg (fst t)). lra. }
  assert (Hd : (0 <= d)%R) by (unfold d; pose proof (Rabs_pos dt); nra).
  clear EC. induction Hl as [|p l Hp _ IH].
  - unfold total. cbn [fold_right length INR]. rewrite Rminus_0_r, Rabs_R0. lra.
  - unfold total in *. cbn [fold_right]. rewrite (S_INR (length l) : INR (length (p :: l)) = _). set (A := fold_right _ _ l) in *. set (B := fold_right (fun p s => Cabs _ * _ + s)%R _ l) in *.
    set (D := nth p (map fst pl) 0%N). assert (ID : exists o, In (D, o) pl). { assert (X : In D (map fst pl)) by (apply nth_In; now rewrite map_length). apply in_map_iff in X. destruct X as ((D' & o) & <- & X). now exists o. }
    destruct ID as (o & ID). destruct (pool_pair _ _ _ _ _ _ _ _ PO ID) as (HD1 & HD2 & _). specialize (HD D HD1 HD2). destruct (HM D) as (_ & HB). specialize (HB HD1).
    assert (ER : residual dt pl (fun _ _ _ => c) 0 [] [] p = (Cabs (c D) / Rabs dt * (Cabs (c D) / Rabs dt))%R).
    { unfold residual. cbv zeta. fold D. assert (SQ : (Cabs (c D) * Cabs (c D) = Re (c D) * Re (c D) + Im (c D) * Im (c D))%R) by (unfold Cabs, Cnorm2; rewrite sqrt_sqrt; [reflexivity|nra]). assert (SD : (Rabs dt * Rabs dt = dt * dt)%R) by (rewrite <- Rabs_mult; apply Rabs_right; nra). rewrite <- SQ, <- SD. field. now apply Rabs_no_R0. }
    rewrite ER. pose proof (Cabs_nonneg (M D)) as P1. assert (P2 : (0 <= Cabs (c D) / Rabs dt)%R) by (unfold Rdiv; apply Rmult_le_pos; [apply Cabs_nonneg|apply Rlt_le, Rinv_0_lt_compat, Rabs_pos_lt, Hdt]).
    pose proof (sq_close _ _ d P2 P1 HD) as SQ. set (x := (Cabs (c D) / Rabs dt)%R) in *. set (y := Cabs (M D)) in *. replace (x * x + A - (y * y + B))%R with (x * x - y * y + (A - B))%R by ring. eapply Rle_trans; [apply Rabs_triang|]. rewrite Rmult_plus_distr_r, Rmult_1_l.
    assert (d * (2 * y + d) <= d * (2 * W + d))%R by (apply Rmult_le_compat_l; lra). lra.
Qed.
Print Assumptions C79_convergence_partial.
(** ---- a concrete case: two electrons in two orbitals, the double excitation selected ---- *)
Definition spqe_example (pl : list (N * list fterm)) (top : nat) : ucc :=
  mkUcc (new_computer 4) (StateProofs.xgates 0 [1; 1; 0; 0]) XX "2" false false 2 (map (fun e => (C0, snd e)) pl) [top] [RtoC (1/2)].
Example C79_nonvacuous : forall srt, legal_sort srt -> exists pl top, let s := spqe_example pl top in build_pool srt [true; true; false; false] [0; 0]%N 0 None = Ok pl /\ RefOf 2 [true; true; false; false] 3 /\ PoolOf 2 [0; 0]%N 0 2 3 pl /\ build_refprep (map Nat.b2n [true; true; false; false]) = Ok (Uprep s) /\
  map snd (pool s) = map snd pl /\ Hamiltonian 4 (ham s) /\ Terms (Applicable 4) (ham s) /\ tamps s = map RtoC [1/2]%R /\ Forall (fun x => Selected s 2 3 pl (fst x) (snd x)) (combine (tops s) [1/2]%R) /\ map fst (firstn 1 (skipn top pl)) = [12]%N.
Proof.
  intros srt HS. destruct C65_nonvacuous as (_ & _ & HA & HM & _). destruct C46_nonvacuous as (HR & T1 & _).
  destruct (C46_pool srt 2 [true; true; false; false] 3 [0; 0]%N 0 None HS HR) as (pl & EB & PO); [cbn; lia|discriminate|]. change (rank_limit None (nelectrons 2 3)) with 2 in PO.
  pose proof PO as (_ & PT & _). apply PT in T1. apply in_map_iff in T1. destruct T1 as ((D & o) & ED & HI). cbn in ED. subst D. destruct (In_nth_error _ _ HI) as (top & EN). exists pl, top. cbv zeta. split; [exact EB|]. split; [exact HR|]. split; [exact PO|]. split; [apply StateProofs.refprep_eq|]. split; [cbn [pool spqe_example]; rewrite map_map; reflexivity|]. split; [exact HM|]. split; [exact HA|]. split; [reflexivity|]. split.
  - constructor; [|constructor]. exists 12%N, o. split; [exact EN|]. split; [cbn; lia|]. cbn [compact spqe_example fst snd]. right. rewrite Rabs_right; lra.
  - assert (SK : forall k, nth_error pl k = Some (12%N, o) -> map fst (firstn 1 (skipn k pl)) = [12]%N); [|now apply SK]. clear. intros k. revert pl. induction k as [|k IH]; intros [|e l] E; try discriminate; [injection E as ->; reflexivity|apply (IH l E)].
Qed.
