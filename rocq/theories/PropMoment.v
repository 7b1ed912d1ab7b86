(** C78: moment corrections (moment_energy_corrections.py). *)
From Coq Require Import Reals String List Arith NArith ZArith Bool Lia Lra Permutation Sorted.
From Verif Require GsdProofs.
From Verif Require Import CBase Result Bits Spec OpSpec SQSpec GateModel ComputerModel SafeProofs LibProofs CleanProofs SimProofs CircuitModel PauliProofs OperatorModel MeasureModel MeasureProofs SQModel SQPhase SQProofs SQPoolSpec SQPoolModel SQPoolProofs SQPoolOps PyModel PyApply ExpSpec ExpProofs AnsatzSpec AnsatzModel AnsatzProofs GradModel GradSpec GradCalc GradProofs GradAnsatz GradExample ResModel ResProofs SelectModel SelectSpec SelectProofs SpqeProofs SparseNorm CompactModel CompactAct CompactApply CompactProofs FermiProofs QkProofs QpeProofs QiteNorm PropOperator PropMeasure PropAnsatz PropGrad PropRes PropSpqe MomentModel MomentProofs MomentSpace.
From Verif Require StateProofs TrotterProofs QftProofs.
Import ListNotations.
Local Open Scope nat_scope.

(** ---- the reference ---- *)
Lemma ref_state ref R n refprep : n = length ref -> build_refprep (map Nat.b2n ref) = Ok refprep -> (forall p, occ R p = nth p ref false) ->
  exists q, apply_circuit (new_computer n) refprep = Ok q /\ wf_computer q /\ nqubit q = n /\ psi_of q = ket (N.to_nat R).
Proof.
  intros -> ER HR. rewrite StateProofs.refprep_eq in ER. injection ER as <-. set (rf := map Nat.b2n ref). assert (EL : length ref = length rf) by (unfold rf; now rewrite map_length). rewrite EL.
  destruct (sim_apply (new_computer (length rf)) (StateProofs.xgates 0 rf) (new_computer_wf _) (StateProofs.xgates_applicable _ rf 0 (le_n _))) as (qc & E1 & W1 & N1 & A1). exists qc. split; [exact E1|]. split; [exact W1|]. split; [exact N1|].
  apply state_eq. eapply seq_trans; [exact A1|]. eapply seq_trans; [apply circ_act_ext; intros I; apply new_computer_ket0|]. intros I. rewrite StateProofs.xgates_act, StateProofs.flips_ket. f_equal. apply bits_ext. intros k. rewrite StateProofs.bit_flips, FermiProofs.occ_bit, HR, Nat.sub_0_r. unfold bit at 1. rewrite Nat.bits_0. cbn [Nat.leb andb]. rewrite xorb_false_l. unfold rf.
  change 0 with (Nat.b2n false) at 1. rewrite map_nth. now destruct (nth k ref false).
Qed.
(** ---- the space of determinants and the denominators ---- *)
Theorem C78_space : forall srt par qe m ref R irreps orb_e refprep h r, legal_sort srt -> RefOf m ref R -> m <= length irreps -> length orb_e = 2 * m -> build_refprep (map Nat.b2n ref) = Ok refprep -> Evaluable (2 * m) par h ->
  (0 <= r)%Z -> let max := Nat.min (nelectrons m R) (Z.to_nat r) in max <= 19 ->
  exists pool den en, construct_moment_space srt par qe ref irreps orb_e refprep h (Some r) = Ok (pool, den, en) /\ PoolOf m irreps 0 max R pool /\
    Forall2 (fun e d => d = (orbital_sum orb_e (holes R (fst e) (2 * m)) - orbital_sum orb_e (particles R (fst e) (2 * m)))%C) pool den /\
    Forall2 (fun e x => x = det_energy (2 * m) h (N.to_nat (fst e))) pool en.
Proof.
  intros srt par qe m ref R irreps orb_e refprep h r HS HR HI HO EP HE Hr max H19. pose proof (ref_unique m ref R HR) as ER. destruct HR as (HL & H64 & HlR & HB). unfold construct_moment_space. destruct (count_every_spec m ref HL) as [-> ->]. rewrite <- ER. fold (nelectrons m R).
  assert (E : moment_rank (Some r) (nelectrons m R) = Ok max) by (unfold moment_rank, max; destruct (Z.ltb_spec r 0); [lia|]; f_equal; destruct (Z.ltb_spec (Z.of_nat (nelectrons m R)) r); lia).
  rewrite E. cbn [bind]. rewrite HL. destruct (entries_ok srt ref m irreps orb_e max HS HL H64 HI HO (all_dets (2 * m)) ([], [])) as (pool & den & EF & EM & HF & HD); [intros D HD; apply all_dets_in; exact HD|]. rewrite <- ER in *. cbn [fst snd app] in EF. rewrite EF. cbn [bind fst].
  assert (PO : PoolOf m irreps 0 max R pool).
  { unfold PoolOf. rewrite EM. split; [|split].
    - apply filter_sorted, all_dets_sorted.
    - intros D. rewrite filter_In, all_dets_in. split; [intros [HD' HM]; apply in_pool_spec; assumption|]. intros HT. assert (HD' : (D < 2 ^ N.of_nat (2 * m))%N) by apply HT. split; [exact HD'|]. apply in_pool_spec; assumption.
    - exact HF. }
  assert (EN : exists en, foreach pool (fun e l => do x <- epstein_nesbet_entry srt par qe (2 * m) refprep h (snd e); Ok (l ++ [x])%list) [] = Ok en /\ Forall2 (fun e x => x = det_energy (2 * m) h (N.to_nat (fst e))) pool en).
  { destruct (ref_state ref R (2 * m) refprep (eq_sym HL) EP HB) as (q0 & E0 & W0 & N0 & P0). destruct PO as (_ & PT & PF).
    enough (G : forall l, (forall e, In e l -> In e pool) -> forall acc, exists en, foreach l (fun e l => do x <- epstein_nesbet_entry srt par qe (2 * m) refprep h (snd e); Ok (l ++ [x])%list) acc = Ok (acc ++ en)%list /\ Forall2 (fun e x => x = det_energy (2 * m) h (N.to_nat (fst e))) l en) by (apply (G pool (fun e H => H) [])).
    induction l as [|e l IH]; intros SI acc; [exists []; rewrite app_nil_r; split; [reflexivity|constructor]|]. cbn [foreach].
    assert (TD : Target m irreps 0 max R (fst e)) by (apply PT, in_map, SI; now left). rewrite Forall_forall in PF. pose proof (PF e (SI e (or_introl eq_refl))) as PP. destruct TD as (LD & EL & _ & RK).
    assert (HLen : length (particles R (fst e) (2 * m)) = length (holes R (fst e) (2 * m))) by (pose proof (hole_count R (fst e) (2 * m)) as H; rewrite !electron_count in H; pose proof (EL 0 ltac:(lia)); pose proof (EL 1 ltac:(lia)); lia).
    destruct (excitation_apply srt qe (2 * m) R (fst e) (snd e) q0 HS HlR LD HLen ltac:(lia) PP W0 N0 P0) as (q & k & q1 & EJ & Hk & E1 & W1 & N1 & P1 & _).
    assert (EV : epstein_nesbet_entry srt par qe (2 * m) refprep h (snd e) = Ok (det_energy (2 * m) h (N.to_nat (fst e)))).
    { unfold epstein_nesbet_entry. rewrite E0. cbn [bind]. rewrite EJ. cbn [bind]. rewrite E1. cbn [bind]. destruct (evaluable (2 * m) par h q1 HE W1 N1) as (q2 & E2). rewrite E2. cbn [bind fst]. f_equal. rewrite P1. unfold det_energy. rewrite inner_scale_l.
      rewrite (inner_ext _ _ _ _ (sscale (RtoC k) (op_act h (ket (N.to_nat (fst e))))) (seq_refl _)).
      - rewrite inner_scale_r. assert (KK : (Cconj (RtoC k) * (RtoC k * C1) = C1)%C) by (destruct Hk as [-> | ->]; apply C_ext; cbn; ring). set (z := inner _ _ _). transitivity ((Cconj (RtoC k) * (RtoC k * C1)) * z)%C; [ring|]. rewrite KK. ring.
      - intros J. transitivity (Csum (fun t => (RtoC k * (fst t * circ_act (snd t) (ket (N.to_nat (fst e))) J))%C) h); [apply Csum_ext; intros t _; rewrite (circ_act_scale (snd t) _ _ J); unfold sscale; ring|rewrite Csum_mul_l; reflexivity]. }
    rewrite EV. cbn [bind]. destruct (IH (fun e' H => SI e' (or_intror H)) (acc ++ [det_energy (2 * m) h (N.to_nat (fst e))])%list) as (en & E3 & F3). rewrite E3. exists (det_energy (2 * m) h (N.to_nat (fst e)) :: en). rewrite <- app_assoc. split; [reflexivity|]. constructor; [reflexivity|exact F3]. }
  destruct EN as (en & EN & FN). rewrite EN. cbn [bind]. exists pool, den, en. split; [reflexivity|]. split; [exact PO|]. split; [|exact FN]. exact HD.
Qed.
Print Assumptions C78_space.
Theorem C78_rank_rejected : forall srt par qe ref irreps orb_e refprep h req, (forall r, req = Some r -> (r < 0)%Z) -> construct_moment_space srt par qe ref irreps orb_e refprep h req = Throw (PyError "TypeError").
Proof. intros srt par qe ref irreps orb_e refprep h req H. unfold construct_moment_space, moment_rank. destruct req as [r|]; [|reflexivity]. specialize (H r eq_refl). destruct (Z.ltb_spec r 0); [reflexivity|lia]. Qed.
Print Assumptions C78_rank_rejected.
(** the space is always the totally symmetric one: with a reference of another symmetry, no
    determinant of the symmetry of the reference is in it *)
Theorem C78_reference_symmetry_refuted : forall srt par qe m ref R irreps orb_e refprep h r, legal_sort srt -> RefOf m ref R -> m <= length irreps -> length orb_e = 2 * m -> build_refprep (map Nat.b2n ref) = Ok refprep -> Evaluable (2 * m) par h ->
  (0 <= r)%Z -> Nat.min (nelectrons m R) (Z.to_nat r) <= 19 -> total_irrep irreps (orbitals (occ R) (2 * m)) <> 0%N ->
  exists pool den en, construct_moment_space srt par qe ref irreps orb_e refprep h (Some r) = Ok (pool, den, en) /\ forall D, In D (map fst pool) -> total_irrep irreps (orbitals (occ D) (2 * m)) <> total_irrep irreps (orbitals (occ R) (2 * m)).
Proof.
  intros srt par qe m ref R irreps orb_e refprep h r HS HR HI HO EP HE Hr H19 HN. destruct (C78_space srt par qe m ref R irreps orb_e refprep h r HS HR HI HO EP HE Hr H19) as (pool & den & en & E & (_ & PT & _) & _). exists pool, den, en. split; [exact E|]. intros D HD. apply PT in HD. destruct HD as (_ & _ & -> & _). congruence.
Qed.
Print Assumptions C78_reference_symmetry_refuted.

(** ---- the moments ---- *)
(** an operator of the ansatz that compiles to its exponential; like Usable (C63) for any coefficient in the pool *)
Definition UsableOp (s : ucc) (n top : nat) (t : R) : Prop := exists c a P H,
  pool_item (pool s) top = Ok (c, Antihermitian a P H) /\ Standard a P H (Antihermitian a P H) /\ Forall (fun p => p < n) P /\ Forall (fun p => p < n) H /\
  (if compact s then (qubit_excitations s = true \/ Supported P H) /\ sharp_amplitude (length P) (t * a) else Sizable t a).
(** the exponentials of the ansatz *)
Definition ansatz_factors (s : ucc) (ts : list R) : list (C * (state -> state)) :=
  let l := factors (qubit_excitations s) (pool s) (tops s) ts in if compact s then l else trotter_steps (trotter_number s) l.
Definition units (s : ucc) : ucc := mkUcc (init s) (Uprep s) (ham s) (pool_type s) (compact s) (qubit_excitations s) (trotter_number s) (map (fun e => (C1, snd e)) (pool s)) (tops s) (tamps s).
Lemma units_item pl top : pool_item (map (fun e : C * list fterm => (C1, snd e)) pl) top = (do e <- pool_item pl top; Ok (C1, snd e)).
Proof. unfold pool_item, vget. rewrite nth_error_map. destruct (nth_error pl top); reflexivity. Qed.
Lemma units_ansatz srt sort pt c qe m pl tops amps : ansatz_circuit srt sort pt c qe m (map (fun e => (C1, snd e)) pl) tops amps = ansatz_circuit srt sort pt c qe m pl tops amps.
Proof.
  unfold ansatz_circuit. f_equal. unfold ansatz_pool. apply GsdProofs.foreach_ext2. intros ta temp _. rewrite units_item. destruct (pool_item pl (snd ta)) as [e|]; reflexivity.
Qed.
Lemma units_factors qe pl tops ts : factors qe (map (fun e => (C1, snd e)) pl) tops ts = factors qe pl tops ts.
Proof.
  unfold factors. apply map_ext. intros x. f_equal. f_equal. unfold op_at. destruct (nth_error pl (fst x)) as [e|] eqn:E.
  - rewrite (nth_error_nth pl _ _ E). apply (map_nth_error (fun e => (C1, snd e))) in E. now rewrite (nth_error_nth _ _ _ E).
  - apply nth_error_None in E. now rewrite !nth_overflow by (rewrite ?map_length; exact E).
Qed.
Lemma ansatz_made srt sort s n ts : legal_sort srt -> legal_term_sort sort -> pool_type s <> "sa_SD"%string -> (compact s = false -> 1 <= trotter_number s) -> length ts = length (tops s) -> Forall (fun x => UsableOp s n (fst x) (snd x)) (combine (tops s) ts) ->
  exists U, ansatz_circuit srt sort (pool_type s) (compact s) (qubit_excitations s) (trotter_number s) (pool s) (tops s) (map RtoC ts) = Ok U /\ applicable n U /\ forall psi, exp_product (ansatz_factors s ts) psi (circ_act U psi).
Proof.
  intros HS HT Nt T1 L F. destruct (ansatz_built srt sort (units s) n ts HS HT Nt T1 L) as (U & E & A & HU).
  - eapply Forall_impl; [|exact F]. intros x (c & a & P & H & E & Q). exists a, P, H. split; [|exact Q]. cbn [pool units]. rewrite units_item, E. reflexivity.
  - cbn [pool units pool_type compact qubit_excitations trotter_number tops] in E, HU. rewrite units_ansatz in E. rewrite units_factors in HU. exists U. split; [exact E|]. split; [exact A|exact HU].
Qed.
Lemma residual_state_ok srt sort s n ts ref R dt U : 1 <= trotter_number s -> n = length ref -> build_refprep (map Nat.b2n ref) = Ok (Uprep s) -> (forall p, occ R p = nth p ref false) ->
  Hamiltonian n (ham s) -> tamps s = map RtoC ts -> ansatz_circuit srt sort (pool_type s) (compact s) (qubit_excitations s) (trotter_number s) (pool s) (tops s) (map RtoC ts) = Ok U -> applicable n U ->
  exists gs ph qc, residual_state srt sort s n dt = Ok qc /\ wf_computer qc /\ nqubit qc = n /\
    (forall psi, sscale ph (circ_act gs psi) == TrotterProofs.eulers (ylist (trotter_number s) (- dt) (ham s)) psi) /\ Cnorm2 ph = 1%R /\ psi_of qc = circ_act (circuit_adjoint U) (circ_act gs (circ_act U (ket (N.to_nat R)))).
Proof.
  intros T1 Ln EP HR HH ET EU AU. destruct (evolve_circuit n (trotter_number s) dt (ham s) T1 HH) as (gs & ph & EG & AG & HG & NP).
  destruct (ref_state ref R n (Uprep s) Ln EP HR) as (q0 & E0 & W0 & N0 & P0).
  destruct (sim_apply q0 U W0) as (q1 & E1 & W1 & N1 & A1); [now rewrite N0|]. fold (psi_of q1) in A1. fold (psi_of q0) in A1. rewrite P0 in A1. apply state_eq in A1.
  destruct (sim_apply q1 gs W1) as (q2 & E2 & W2 & N2 & A2); [now rewrite N1, N0|]. fold (psi_of q2) in A2. fold (psi_of q1) in A2. rewrite A1 in A2. apply state_eq in A2.
  destruct (sim_apply q2 (circuit_adjoint U) W2) as (q3 & E3 & W3 & N3 & A3); [rewrite N2, N1, N0; now apply applicable_adjoint|]. fold (psi_of q3) in A3. fold (psi_of q2) in A3. rewrite A2 in A3. apply state_eq in A3.
  exists gs, ph, q3. split; [|split; [exact W3|]; split; [congruence|]; split; [exact HG|]; split; [exact NP|exact A3]].
  unfold residual_state. rewrite EG. cbn [bind]. rewrite ET, EU. cbn [bind]. rewrite E0. cbn [bind]. rewrite E1. cbn [bind fst]. rewrite E2. cbn [bind]. exact E3.
Qed.
(** sum of |M|^2 Re(1/d) *)
Definition inverse_re (d : C) : R := (Re d / (Re d * Re d + Im d * Im d))%R.
Definition correction (Ms ds : list C) : R := Rsum (fun x => (Cabs (fst x) * Cabs (fst x) * inverse_re (snd x))%R) (combine Ms ds).
Lemma moment_sum_eq rs ds : moment_sum rs ds = correction rs ds.
Proof.
  unfold moment_sum, correction. induction (combine rs ds) as [|x l IH]; [reflexivity|]. cbn [map fold_right]. rewrite IH, Rsum_cons. f_equal. unfold cdiv, inverse_re. set (d := (Re (snd x) * Re (snd x) + Im (snd x) * Im (snd x))%R).
  assert (SQ : (Cabs (fst x) * Cabs (fst x) = Re (fst x) * Re (fst x) + Im (fst x) * Im (fst x))%R) by (unfold Cabs, Cnorm2; rewrite sqrt_sqrt; [reflexivity|nra]). rewrite SQ. cbn. unfold Rdiv. ring.
Qed.
Lemma sq_close a b d : (0 <= a -> 0 <= b -> Rabs (a - b) <= d -> Rabs (a * a - b * b) <= d * (2 * b + d))%R.
Proof.
  intros Ha Hb H. replace (a * a - b * b)%R with ((a - b) * (2 * b + (a - b)))%R by ring. rewrite Rabs_mult. pose proof (Rabs_pos (a - b)) as P. apply Rmult_le_compat; [exact P|apply Rabs_pos|exact H|]. eapply Rle_trans; [apply Rabs_triang|]. rewrite (Rabs_right (2 * b)) by lra. lra.
Qed.
Lemma correction_close rs Ms ds d W : (0 <= d)%R -> Forall2 (fun r M => Rabs (Cabs r - Cabs M) <= d /\ Cabs M <= W)%R rs Ms ->
  (Rabs (correction rs ds - correction Ms ds) <= d * (2 * W + d) * Rsum (fun x => Rabs (inverse_re x)) (firstn (length Ms) ds))%R.
Proof.
  intros Hd F. revert ds. induction F as [|r M rs Ms (H1 & H2) _ IH]; intros ds.
  - unfold correction. cbn [combine length firstn]. change (Rsum _ []) with 0%R. change (Rsum (fun x => Rabs (inverse_re x)) []) with 0%R. rewrite Rminus_0_r, Rabs_R0. lra.
  - destruct ds as [|x ds]; [unfold correction; cbn [combine length firstn]; change (Rsum _ []) with 0%R; change (Rsum (fun x => Rabs (inverse_re x)) []) with 0%R; rewrite Rminus_0_r, Rabs_R0; lra|].
    unfold correction in *. cbn [combine length firstn]. rewrite !Rsum_cons. cbn [fst snd]. specialize (IH ds). set (A := Rsum _ (combine rs ds)) in *. set (B := Rsum _ (combine Ms ds)) in *. set (T := Rsum _ (firstn _ ds)) in *.
    pose proof (sq_close (Cabs r) (Cabs M) d (Cabs_nonneg r) (Cabs_nonneg M) H1) as SQ. pose proof (Rabs_pos (inverse_re x)) as PX. pose proof (Cabs_nonneg M) as PM.
    replace (Cabs r * Cabs r * inverse_re x + A - (Cabs M * Cabs M * inverse_re x + B))%R with ((Cabs r * Cabs r - Cabs M * Cabs M) * inverse_re x + (A - B))%R by ring.
    eapply Rle_trans; [apply Rabs_triang|]. rewrite Rabs_mult.
    assert (Rabs (Cabs r * Cabs r - Cabs M * Cabs M) * Rabs (inverse_re x) <= d * (2 * W + d) * Rabs (inverse_re x))%R; [|lra]. apply Rmult_le_compat_r; [exact PX|]. eapply Rle_trans; [exact SQ|]. apply Rmult_le_compat_l; lra.
Qed.
Lemma cabs_phase_diff p c M : Cnorm2 p = 1%R -> (Rabs (Cabs c - Cabs M) <= Cabs (p * c - Ci * M)%C)%R.
Proof.
  intros Hp. assert (P1 : Cabs p = 1%R) by (unfold Cabs; rewrite Hp; apply sqrt_1). assert (PI : Cabs Ci = 1%R) by (unfold Cabs, Cnorm2; cbn; replace (0 * 0 + 1 * 1)%R with 1%R by ring; apply sqrt_1).
  assert (E1 : Cabs (p * c)%C = Cabs c) by (rewrite Cabs_mul, P1; ring). assert (E2 : Cabs (Ci * M)%C = Cabs M) by (rewrite Cabs_mul, PI; ring). rewrite <- E1, <- E2. set (x := (p * c)%C). set (y := (Ci * M)%C).
  pose proof (Cabs_triangle (x - y)%C y) as T1. replace (x - y + y)%C with x in T1 by ring. pose proof (Cabs_triangle (y - x)%C x) as T2. replace (y - x + x)%C with y in T2 by ring.
  assert (E3 : Cabs (y - x)%C = Cabs (x - y)%C) by (unfold Cabs, Cnorm2; cbn; f_equal; ring). rewrite E3 in T2. apply Rabs_le. lra.
Qed.
(** compute_moment_energies: the moments are the exact ones up to dt W^2 / 2, and the energies
    approach E + sum |M|^2 / denominator at that rate; W is the sum of the coefficients of H *)
Definition error_bound (h : qop) (dt : R) (ds : list C) : R := let d := (Rabs dt * (weight h * weight h) / 2)%R in (d * (2 * weight h + d) * Rsum (fun x => Rabs (inverse_re x)) ds)%R.
Theorem C78_energies : forall srt sort s n ts ref R E indices den en, legal_sort srt -> legal_term_sort sort -> pool_type s <> "sa_SD"%string -> 1 <= trotter_number s -> n = length ref -> build_refprep (map Nat.b2n ref) = Ok (Uprep s) -> (R < 2 ^ N.of_nat n)%N -> (forall p, occ R p = nth p ref false) ->
  Hamiltonian n (ham s) -> tamps s = map RtoC ts -> length ts = length (tops s) -> Forall (fun x => UsableOp s n (fst x) (snd x)) (combine (tops s) ts) ->
  Forall (fun D => (D < 2 ^ N.of_nat n)%N /\ D <> R) indices -> length den = length indices -> length en = length indices ->
  exists Ms, Forall2 (fun D M => Projection n (op_act (ham s)) (ansatz_factors s ts) (N.to_nat R) (ket (N.to_nat D)) M) indices Ms /\
  forall dt, dt <> 0%R -> exists emp een, compute_moment_energies srt sort s n (Some dt) E indices den en = Ok (emp, een) /\
    (Rabs (emp - (E + correction Ms den)) <= error_bound (ham s) dt den)%R /\
    (Rabs (een - (E + correction Ms (map (fun e => RtoC E - e)%C en))) <= error_bound (ham s) dt (map (fun e => RtoC E - e)%C en))%R /\
    (Forall (fun d => Re d <= 0)%R den -> emp <= E)%R /\ (Forall (fun e => E <= Re e)%R en -> een <= E)%R.
Proof.
  intros srt sort s n ts ref R E indices den en HS HT Nt T1 Ln EP LR HR HH ET L F FI Ld Le.
  destruct (ansatz_made srt sort s n ts HS HT Nt (fun _ => T1) L F) as (U & EU & AU & HU).
  set (Mof := fun D => inner n (circ_act U (ket (N.to_nat D))) (op_act (ham s) (circ_act U (ket (N.to_nat R))))).
  assert (PN : (2 ^ N.of_nat n)%N = N.of_nat (2 ^ n)). { clear. induction n as [|n IH]; [reflexivity|]. rewrite Nat.pow_succ_r', Nat2N.inj_succ, N.pow_succ_r', IH. symmetry. apply Nat2N.inj_mul. }
  assert (LN : forall D, (D < 2 ^ N.of_nat n)%N -> N.to_nat D < 2 ^ n) by (intros D HD; lia).
  exists (map Mof indices). split. { clear - HU. induction indices as [|D l IH]; cbn [map]; constructor; [|exact IH]. exists (circ_act U (ket (N.to_nat R))), (circ_act U (ket (N.to_nat D))). split; [apply HU|]. split; [apply HU|reflexivity]. }
  intros dt Hdt. destruct (residual_state_ok srt sort s n ts ref R dt U T1 Ln EP HR HH ET EU AU) as (gs & ph & qc & EC & W & Nq & HG & NP & PS).
  set (rof := fun D => (psi_of qc (N.to_nat D) * RtoC (/ dt))%C). set (rs := map rof indices).
  assert (EM : foreach indices (fun I l => do r <- py_get (map (fun c => (c * RtoC (/ dt))%C) (coeff qc)) (N.to_nat I); Ok (l ++ [r])%list) [] = Ok rs).
  { unfold rs. enough (G : forall acc, foreach indices (fun I l => do r <- py_get (map (fun c => (c * RtoC (/ dt))%C) (coeff qc)) (N.to_nat I); Ok (l ++ [r])%list) acc = Ok (acc ++ map rof indices)%list) by apply (G []). clear Ld Le. induction FI as [|D l (HD & _) _ IH]; intros acc; [cbn; now rewrite app_nil_r|]. cbn [foreach map].
    assert (LC : N.to_nat D < length (coeff qc)) by (destruct W as (-> & _); unfold nbasis; rewrite Nq; now apply LN).
    unfold py_get at 1. rewrite (map_nth_error _ _ (coeff qc) (nth_error_nth' (coeff qc) C0 LC)). cbn [bind]. rewrite IH, <- app_assoc. reflexivity. }
  unfold compute_moment_energies. rewrite EC. cbn [bind]. destruct (Req_EM_T dt 0) as [Z|_]; [contradiction|]. cbn [bind]. rewrite EM. cbn [bind].
  assert (LRS : length rs = length indices) by (unfold rs; apply map_length). rewrite LRS, Ld, Le, Nat.ltb_irrefl. cbn [orb]. eexists _, _. split; [reflexivity|]. rewrite !moment_sum_eq.
  set (d := (Rabs dt * (weight (ham s) * weight (ham s)) / 2)%R).
  assert (HW : (0 <= weight (ham s))%R). { unfold weight. clear. induction (ham s) as [|t l IH]; [unfold Rsum; cbn; lra|]. rewrite Rsum_cons. pose proof (Cabs_nonneg (fst t)). lra. }
  assert (Hd : (0 <= d)%R) by (unfold d; pose proof (Rabs_pos dt); nra).
  assert (FR : Forall2 (fun r M => Rabs (Cabs r - Cabs M) <= d /\ Cabs M <= weight (ham s))%R rs (map Mof indices)).
  { unfold rs. clear EM LRS Ld Le. induction FI as [|D l (HD & ND) _ IH]; cbn [map]; constructor; [|exact IH]. split.
    - pose proof (first_order_amplitude n (trotter_number s) dt (ham s) U gs ph (N.to_nat R) (N.to_nat D) T1 HH AU (LN R LR) (LN D HD)) as FO. specialize (FO ltac:(intros X; apply ND; now apply N2Nat.inj) Hdt HG NP). cbv zeta in FO. rewrite <- PS in FO. fold (Mof D) in FO. fold d in FO.
      eapply Rle_trans; [apply (cabs_phase_diff ph (rof D) (Mof D) NP)|]. unfold rof. replace (ph * (psi_of qc (N.to_nat D) * RtoC (/ dt)))%C with (ph * psi_of qc (N.to_nat D) * RtoC (/ dt))%C by ring. exact FO.
    - destruct AU as (U1 & _ & U3). unfold Mof. eapply Rle_trans; [apply cs_abs|]. assert (N1 : forall K, K < 2 ^ n -> norm n (circ_act U (ket K)) = 1%R) by (intros K HK; unfold norm, normsq; rewrite (circ_preserves_inner n U _ _ U1 U3), ket_unit by exact HK; apply sqrt_1).
      rewrite N1 by now apply LN. rewrite Rmult_1_l. eapply Rle_trans; [apply norm_op|rewrite N1 by (now apply LN); apply Req_le, Rmult_1_r]. eapply Forall_impl; [|exact HH]. intros t Ht. apply Ht. }
  assert (LM : forall ds : list C, length ds = length indices -> firstn (length (map Mof indices)) ds = ds) by (intros ds HL; rewrite map_length, <- HL; apply firstn_all).
  assert (CL : forall ds, length ds = length indices -> (Rabs (E + correction rs ds - (E + correction (map Mof indices) ds)) <= error_bound (ham s) dt ds)%R).
  { intros ds HL. replace (E + correction rs ds - (E + correction (map Mof indices) ds))%R with (correction rs ds - correction (map Mof indices) ds)%R by ring. eapply Rle_trans; [apply (correction_close rs (map Mof indices) ds d (weight (ham s)) Hd FR)|]. rewrite (LM ds HL). unfold error_bound. fold d. apply Rle_refl. }
  assert (NG : forall (ds : list C), Forall (fun x => Re x <= 0)%R ds -> (correction rs ds <= 0)%R).
  { generalize rs as l. clear. intros l ds FD. revert l. induction FD as [|x ds Hx _ IH]; intros l; [unfold correction; destruct l; cbn [combine]; unfold Rsum; cbn; lra|]. destruct l as [|r l]; [unfold correction; cbn [combine]; unfold Rsum; cbn; lra|]. unfold correction in *. cbn [combine]. rewrite Rsum_cons. cbn [fst snd]. specialize (IH l).
    assert (IV : (inverse_re x <= 0)%R). { unfold inverse_re. set (q := (Re x * Re x + Im x * Im x)%R). assert (Hq : (0 <= q)%R) by (unfold q; nra). destruct Hq as [Hq|Hq]; [|rewrite <- Hq; unfold Rdiv; rewrite Rinv_0; lra]. unfold Rdiv. pose proof (Rinv_0_lt_compat q Hq). nra. }
    pose proof (Cabs_nonneg r). assert (0 <= Cabs r * Cabs r)%R by nra. nra. }
  split; [now apply CL|]. split; [apply CL; now rewrite map_length|]. split.
  - intros FD. specialize (NG den FD). lra.
  - intros FD. assert (X : Forall (fun x => Re x <= 0)%R (map (fun e => RtoC E - e)%C en)) by (apply Forall_map; eapply Forall_impl; [|exact FD]; intros e He; cbn; cbn beta in He; lra). specialize (NG _ X). lra.
Qed.
Print Assumptions C78_energies.
(** the error vanishes with dt *)
Theorem C78_limit : forall h ds eps, (0 < eps)%R -> exists delta, (0 < delta)%R /\ forall dt, (Rabs dt < delta -> error_bound h dt ds < eps)%R.
Proof.
  intros h ds eps He. unfold error_bound. set (W := weight h). set (S := Rsum (fun x => Rabs (inverse_re x)) ds).
  assert (HW : (0 <= W)%R). { unfold W, weight. clear. induction h as [|t l IH]; [unfold Rsum; cbn; lra|]. rewrite Rsum_cons. pose proof (Cabs_nonneg (fst t)). lra. }
  assert (HS : (0 <= S)%R). { unfold S. clear. induction ds as [|t l IH]; [unfold Rsum; cbn; lra|]. rewrite Rsum_cons. pose proof (Rabs_pos (inverse_re t)). lra. }
  set (K := (W * W / 2 * (2 * W + W * W / 2) * S)%R). assert (HK : (0 <= K)%R) by (unfold K; apply Rmult_le_pos; [apply Rmult_le_pos; nra|exact HS]).
  exists (Rmin 1 (eps / (K + 1)))%R. split; [apply Rmin_glb_lt; [lra|apply Rdiv_lt_0_compat; lra]|]. intros dt Hdt. assert (H1 : (Rabs dt < 1)%R) by (eapply Rlt_le_trans; [exact Hdt|apply Rmin_l]). assert (H2 : (Rabs dt < eps / (K + 1))%R) by (eapply Rlt_le_trans; [exact Hdt|apply Rmin_r]).
  pose proof (Rabs_pos dt) as P. set (a := Rabs dt) in *.
  apply Rle_lt_trans with (a * K)%R.
  - unfold K. replace (a * (W * W) / 2 * (2 * W + a * (W * W) / 2) * S)%R with (a * (W * W / 2 * (2 * W + a * (W * W / 2)) * S))%R by field. apply Rmult_le_compat_l; [exact P|]. apply Rmult_le_compat_r; [exact HS|]. apply Rmult_le_compat_l; [nra|]. assert (a * (W * W / 2) <= 1 * (W * W / 2))%R by (apply Rmult_le_compat_r; [nra|lra]). lra.
  - apply Rmult_lt_compat_r with (r := (K + 1)%R) in H2; [|lra]. unfold Rdiv in H2. rewrite Rmult_assoc, Rinv_l, Rmult_1_r in H2 by lra. nra.
Qed.
Print Assumptions C78_limit.
Theorem C78_default_step : forall srt sort s n E indices den en, compute_moment_energies srt sort s n None E indices den en = compute_moment_energies srt sort s n (Some 0.001%R) E indices den en.
Proof. reflexivity. Qed.
(** a step of zero *)
Theorem C78_zero_step : forall srt sort s n ts ref R E indices den en, legal_sort srt -> legal_term_sort sort -> pool_type s <> "sa_SD"%string -> 1 <= trotter_number s -> n = length ref -> build_refprep (map Nat.b2n ref) = Ok (Uprep s) -> (forall p, occ R p = nth p ref false) ->
  Hamiltonian n (ham s) -> tamps s = map RtoC ts -> length ts = length (tops s) -> Forall (fun x => UsableOp s n (fst x) (snd x)) (combine (tops s) ts) ->
  compute_moment_energies srt sort s n (Some 0%R) E indices den en = Throw (PyError "ZeroDivisionError").
Proof.
  intros srt sort s n ts ref R E indices den en HS HT Nt T1 Ln EP HR HH ET L F. destruct (ansatz_made srt sort s n ts HS HT Nt (fun _ => T1) L F) as (U & EU & AU & HU).
  destruct (residual_state_ok srt sort s n ts ref R 0 U T1 Ln EP HR HH ET EU AU) as (gs & ph & qc & EC & _). unfold compute_moment_energies. rewrite EC. cbn [bind]. destruct (Req_EM_T 0 0); [reflexivity|congruence].
Qed.
Print Assumptions C78_zero_step.
(** the two functions together: the corrections sum over the totally symmetric determinants *)
Theorem C78_corrections_partial : forall srt sort par s m ts ref R E irreps orb_e r, legal_sort srt -> legal_term_sort sort -> pool_type s <> "sa_SD"%string -> 1 <= trotter_number s -> RefOf m ref R -> m <= length irreps -> length orb_e = 2 * m -> build_refprep (map Nat.b2n ref) = Ok (Uprep s) ->
  Hamiltonian (2 * m) (ham s) -> Evaluable (2 * m) par (ham s) -> tamps s = map RtoC ts -> length ts = length (tops s) -> Forall (fun x => UsableOp s (2 * m) (fst x) (snd x)) (combine (tops s) ts) ->
  (0 <= r)%Z -> let max := Nat.min (nelectrons m R) (Z.to_nat r) in max <= 19 ->
  exists pool den en Ms, construct_moment_space srt par (qubit_excitations s) ref irreps orb_e (Uprep s) (ham s) (Some r) = Ok (pool, den, en) /\ (forall D, In D (map fst pool) <-> Target m irreps 0 max R D) /\ NoDup (map fst pool) /\
    Forall2 (fun D d => d = (orbital_sum orb_e (holes R D (2 * m)) - orbital_sum orb_e (particles R D (2 * m)))%C) (map fst pool) den /\
    Forall2 (fun D x => x = det_energy (2 * m) (ham s) (N.to_nat D)) (map fst pool) en /\
    Forall2 (fun D M => Projection (2 * m) (op_act (ham s)) (ansatz_factors s ts) (N.to_nat R) (ket (N.to_nat D)) M) (map fst pool) Ms /\
    forall dt, dt <> 0%R -> exists emp een, compute_moment_energies srt sort s (2 * m) (Some dt) E (map fst pool) den en = Ok (emp, een) /\
      (Rabs (emp - (E + correction Ms den)) <= error_bound (ham s) dt den)%R /\
      (Rabs (een - (E + correction Ms (map (fun e => RtoC E - e)%C en))) <= error_bound (ham s) dt (map (fun e => RtoC E - e)%C en))%R.
Proof.
  intros srt sort par s m ts ref R E irreps orb_e r HS HT Nt T1 HR HI HO EP HH HE ET L F Hr max H19.
  destruct (C78_space srt par (qubit_excitations s) m ref R irreps orb_e (Uprep s) (ham s) r HS HR HI HO EP HE Hr H19) as (pool & den & en & EC & (PS & PT & _) & FD & FE).
  assert (LL : forall (Q : N * list fterm -> C -> Prop) l, Forall2 Q pool l -> length l = length (map fst pool)) by (intros Q l HF; rewrite map_length; clear - HF; induction HF; cbn; congruence).
  assert (MM : forall (Q : N -> C -> Prop) l, Forall2 (fun e x => Q (fst e) x) pool l -> Forall2 Q (map fst pool) l) by (intros Q l HF; clear - HF; induction HF; cbn; constructor; assumption).
  destruct HR as (HL & H64 & HlR & HB).
  destruct (C78_energies srt sort s (2 * m) ts ref R E (map fst pool) den en HS HT Nt T1 (eq_sym HL) EP HlR HB HH ET L F) as (Ms & FM & HC).
  - apply Forall_forall. intros D HD. apply PT in HD. destruct HD as (H1 & _ & _ & H4 & _). split; [exact H1|]. intros ->. assert (X : holes R R (2 * m) = []); [|rewrite X in H4; cbn in H4; lia]. unfold holes. clear. generalize (2 * m) as k. induction k as [|k IH]; [reflexivity|]. cbn [orbitals]. destruct (occ R k); exact IH.
  - exact (LL _ _ FD).
  - exact (LL _ _ FE).
  - exists pool, den, en, Ms. split; [exact EC|]. split; [exact PT|]. split. { clear - PS. induction PS as [|D l _ IH HF]; constructor; [|exact IH]. intros HI. rewrite Forall_forall in HF. specialize (HF D HI). lia. }
    split; [now apply MM|]. split; [apply (MM (fun D x => x = det_energy (2 * m) (ham s) (N.to_nat D))); exact FE|]. split; [exact FM|]. intros dt Hdt. destruct (HC dt Hdt) as (emp & een & H1 & H2 & H3 & _). exists emp, een. repeat split; assumption.
Qed.
Print Assumptions C78_corrections_partial.

(** ---- a concrete case ---- *)
Definition moment_example (compact : bool) : ucc :=
  mkUcc (new_computer 4) (StateProofs.xgates 0 [1; 1; 0; 0]) XX "SD" compact false 2 [(C0, Antihermitian 1 [2] [0]); (C0, Antihermitian (-1) [1; 0] [3; 2])] [0; 1] (map RtoC [1/2; -1/3]%R).
Example C78_nonvacuous : RefOf 2 [true; true; false; false] 3 /\ nelectrons 2 3 = 2 /\ build_refprep (map Nat.b2n [true; true; false; false]) = Ok (Uprep (moment_example false)) /\ Hamiltonian 4 XX /\ Evaluable 4 None XX /\
  Forall (fun x => UsableOp (moment_example false) 4 (fst x) (snd x)) (combine [0; 1] [1/2; -1/3]%R) /\ Target 2 [0; 0]%N 0 2 3 12 /\ Target 2 [0; 0]%N 0 2 3 6.
Proof.
  destruct C65_nonvacuous as (FE & FU & HA & HM & _). destruct C46_nonvacuous as (HR & T1 & T2 & _). split; [exact HR|]. split; [reflexivity|]. split; [apply StateProofs.refprep_eq|]. split; [exact HM|]. split; [cbn [Evaluable]; eapply Forall_impl; [|exact HM]; intros t (Ht & _); now apply string_applicable|].
  split; [|split; [exact T1|exact T2]]. cbn [combine] in *. constructor; [|constructor; [|constructor]].
  - apply Forall_inv in FU. destruct FU as (a & P & H & E & Q). cbn in E. unfold Antihermitian in E. injection E as E1 E2 E3 _ _ _. subst a P H. exists C0, 1%R, [2], [0]. split; [reflexivity|exact Q].
  - apply Forall_inv_tail, Forall_inv in FU. destruct FU as (a & P & H & E & Q). cbn in E. unfold Antihermitian in E. injection E as E1 E2 E3 _ _ _. subst a P H. exists C0, (-1)%R, [1; 0], [3; 2]. split; [reflexivity|exact Q].
Qed.
