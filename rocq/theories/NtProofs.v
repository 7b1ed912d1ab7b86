(** The sparse matrix of a Hamiltonian without tiny partial sums; subspace energies for any
    family of states. *)
From Coq Require Import Reals String List Arith Bool Lia Lra.
From Verif Require Import CBase Result Bits Spec OpSpec GateModel ComputerModel SafeProofs LibProofs SimProofs CircuitModel PauliProofs OperatorModel MeasureModel SparseModel SparseProofs SparseApply SparseNorm SparseState PyModel PyApply ExpSpec ExpExists EigModel EigProofs GradModel QkModel QkProofs QkEig NtModel FermiProofs PropOperator PropMeasure PropEig PropGrad PropQk.
Import ListNotations.
Local Open Scope nat_scope.

Definition exact_sums (n : nat) (o : qop) : Prop := forall k I J, I < 2 ^ n -> J < 2 ^ n -> op_act (firstn k o) (ket I) J = C0 \/ (1e-16 < Cabs (op_act (firstn k o) (ket I) J))%R.
Lemma op_act_snoc o t psi J : op_act (o ++ [t]) psi J = (op_act o psi J + fst t * circ_act (snd t) psi J)%C.
Proof. unfold op_act. rewrite Csum_app, Csum_cons, Csum_nil. ring. Qed.
Lemma firstn_snoc {A} (o : list A) t k : k <= length o -> firstn k (o ++ [t]) = firstn k o.
Proof. intros H. rewrite firstn_app. replace (k - length o) with 0 by lia. now rewrite firstn_O, app_nil_r. Qed.
Lemma sparse_exact_loop n o : Terms (StringOn n) o -> exact_sums n o ->
  exists m, foreach o (fun t R => do L <- circuit_sparse n (snd t); Ok (sadd_mat R L (fst t))) [] = Ok m /\ wfm m /\ keys_in (2 ^ n) m /\
    forall I J, I < 2 ^ n -> J < 2 ^ n -> sget m J I = op_act o (ket I) J.
Proof.
  induction o as [|t o IH] using rev_ind; intros HT HX.
  - exists []. split; [reflexivity|]. split; [apply wfm_nil|]. split; [intros I J (r & x & H & _); destruct H|]. intros I J _ _. reflexivity.
  - apply Forall_app in HT. destruct HT as [HT Ht]. apply Forall_inv in Ht. destruct IH as (m & E & W & K & X); [exact HT| |].
    { intros k I J HI HJ. destruct (Nat.le_gt_cases k (length o)) as [Hk|Hk].
      - rewrite <- (firstn_snoc o t k Hk). now apply HX.
      - rewrite firstn_all2 by lia. rewrite <- (firstn_all o), <- (firstn_snoc o t (length o) (le_n _)). now apply HX. }
    assert (HR : Forall (in_range n) (snd t)) by (destruct (string_applicable n _ Ht) as (_ & _ & D); exact D).
    destruct (pauli_sparse n (snd t) HR) as (L & EL & WL & KL & XL). { apply circuit_iff, Ht. }
    rewrite foreach_app', E. cbn [bind foreach]. rewrite EL. cbn [bind]. eexists. split; [reflexivity|]. destruct (sadd_spec m L (fst t) W WL) as (WM & SM). split; [exact WM|].
    split; [now apply keys_in_add|].
    intros I J HI HJ. rewrite SM, op_act_snoc, <- (XL I J HI HJ), <- (X I J HI HJ). assert (SL : sget L J I = match mfind J L with Some r => vec_get r I | None => C0 end) by reflexivity. rewrite SL. destruct (mfind J L) as [r|] eqn:E1; [|ring]. unfold vec_get. destruct (mfind I r) as [x|] eqn:E2; [|ring].
    assert (EX : (fst t * x + sget m J I)%C = op_act (o ++ [t]) (ket I) J). { rewrite op_act_snoc, <- (XL I J HI HJ), <- (X I J HI HJ). rewrite SL. unfold vec_get. rewrite E2. ring. }
    rewrite EX. destruct (drop_cases thr16 (op_act (o ++ [t]) (ket I) J)) as [(D & _)|(D & D2)]; rewrite D.
    + rewrite <- EX. ring.
    + destruct (HX (length (o ++ [t])) I J HI HJ) as [H0|H0]; rewrite firstn_all in H0; [|unfold thr16 in D2; lra]. rewrite H0 in EX. rewrite <- EX. ring.
Qed.
Local Open Scope C_scope.
Local Open Scope nat_scope.
Definition supported (n : nat) (psi : state) : Prop := forall I, 2 ^ n <= I -> psi I = C0.
Lemma gate_supp n g psi : in_range n g -> supported n psi -> supported n (gate_act g psi).
Proof.
  intros (H1 & H2) HS I HI. unfold gate_act. destruct (gtarget g =? gcontrol g).
  - unfold act1. rewrite !HS by (auto using upd_ge). ring.
  - unfold act2. rewrite !HS by (auto using upd_ge). ring.
Qed.
Lemma circ_supp n gs : Forall (in_range n) gs -> forall psi, supported n psi -> supported n (circ_act gs psi).
Proof. induction 1 as [|g gs Hg _ IH]; intros psi HS; [exact HS|]. rewrite circ_act_cons. apply IH. now apply gate_supp. Qed.
Lemma op_supp n o psi : Forall (fun t => Forall (in_range n) (snd t)) o -> supported n psi -> supported n (op_act o psi).
Proof. intros H HS I HI. unfold op_act. rewrite (Csum_zero _ o); [reflexivity|]. intros t Ht. rewrite Forall_forall in H. rewrite (circ_supp n _ (H t Ht) psi HS I HI). ring. Qed.
Lemma iter_supp n o psi k : Forall (fun t => Forall (in_range n) (snd t)) o -> supported n psi -> supported n (Nat.iter k (op_act o) psi).
Proof. intros H HS. induction k as [|k IH]; [exact HS|]. cbn [Nat.iter]. now apply op_supp. Qed.
Lemma iter_transfer n (o : qop) (M : mat) psi : Forall (fun t => Forall (in_range n) (snd t)) o ->
  (forall I J, I < 2 ^ n -> J < 2 ^ n -> M J I = mkC 0 (-1) * op_act o (ket I) J)%C ->
  forall k J, J < 2 ^ n -> Nat.iter k (mat_dot (2 ^ n) M) psi J = (ExpSpec.Cpow (mkC 0 (-1)) k * Nat.iter k (op_act o) psi J)%C.
Proof.
  intros HR HM k. induction k as [|k IH]; intros J HJ; [cbn; apply C_ext; cbn; ring|]. change (Nat.iter (S k) (op_act o) psi) with (op_act o (Nat.iter k (op_act o) psi)). change (Nat.iter (S k) (mat_dot (2 ^ n) M) psi) with (mat_dot (2 ^ n) M (Nat.iter k (mat_dot (2 ^ n) M) psi)). cbn [ExpSpec.Cpow]. rewrite (op_resolve n o HR _ J HJ), <- Csum_mul_l. unfold mat_dot at 1. apply Csum_ext.
  intros K HK. apply in_seq in HK. rewrite HM, IH by lia. ring.
Qed.
Lemma cpow_mul a b k : ExpSpec.Cpow (a * b)%C k = (ExpSpec.Cpow a k * ExpSpec.Cpow b k)%C.
Proof. induction k as [|k IH]; cbn [ExpSpec.Cpow]; [apply C_ext; cbn; ring|]. rewrite IH. ring. Qed.
Lemma converges_ext u v l : (forall k, u k = v k) -> Cconverges u l -> Cconverges v l.
Proof. intros H. assert (E : forall n, Csums u n = Csums v n) by (intros; unfold Csums; now apply Csum_ext). intros (A & B). split; intros eps He; [destruct (A eps He) as (N & HN)|destruct (B eps He) as (N & HN)]; exists N; intros n Hn; rewrite <- E; now apply HN. Qed.
Lemma converges_zero u : (forall k, u k = C0) -> Cconverges u C0.
Proof. intros H. assert (E : forall n, Csums u n = C0) by (intros; unfold Csums; apply Csum_zero; intros; apply H). split; intros eps He; exists 0; intros n _; rewrite E; unfold R_dist; cbn; rewrite Rminus_0_r, Rabs_R0; lra. Qed.
Lemma exp_transfer n (o : qop) (M : mat) psi phi t : Forall (fun t => Forall (in_range n) (snd t)) o ->
  (forall I J, I < 2 ^ n -> J < 2 ^ n -> M J I = mkC 0 (-1) * op_act o (ket I) J)%C -> supported n psi -> supported n phi ->
  (forall I, I < 2 ^ n -> Cconverges (exp_term (RtoC t) (mat_dot (2 ^ n) M) psi I) (phi I)) -> is_exp (mkC 0 (- t)) (op_act o) psi phi.
Proof.
  intros HR HM HS HP HC. apply is_exp_converges. intros I. destruct (Nat.lt_ge_cases I (2 ^ n)) as [HI|HI].
  - eapply converges_ext; [|exact (HC I HI)]. intros k. unfold exp_term. rewrite (iter_transfer n o M psi HR HM k I HI).
    replace (mkC 0 (- t)) with (RtoC t * mkC 0 (-1))%C by (apply C_ext; cbn; ring). rewrite cpow_mul. ring.
  - rewrite (HP I HI). apply converges_zero. intros k. unfold exp_term. rewrite (iter_supp n o psi k HR HS I HI). ring.
Qed.
(** the matrices and energies of [common_run] for any family of prepared states *)
Section common.
Context (eig : eig_oracle) (o : qk_options) (prep : nat -> res computer) (n : nat).
Context (QC : nat -> computer) (HH : Hamiltonian n (qk_ham o)).
Context (HP : forall m, m <= qk_s o -> prep m = Ok (QC m) /\ wf_computer (QC m) /\ nqubit (QC m) = n).
Context (Psi : nat -> state) (HPsi : forall m, m <= qk_s o -> psi_of (QC m) == Psi m).
Lemma common_matrices r : common_run eig o prep = Ok r -> forall a b, a <= qk_s o -> b <= qk_s o ->
  r_S r a b = inner n (Psi a) (Psi b) /\ r_H r a b = inner n (Psi a) (op_act (qk_ham o) (Psi b)).
Proof.
  intros E a b Ha Hb. unfold common_run in E. destruct (build_qk_mats eig o prep) as [st|] eqn:EB; cbn [bind] in E; [|discriminate].
  destruct (canonical_geig_solve _ _ _ _ _) as [e|]; cbn [bind] in E; [|discriminate]. destruct (py_get (fst e) 0); cbn [bind] in E; [|discriminate]. destruct (py_get (fst e) (qk_root o)); cbn [bind] in E; [|discriminate]. injection E as <-. cbn [r_S r_H].
  unfold build_qk_mats in EB. destruct (build_inv eig o prep n QC HH HP (qk_s o + 1) ltac:(lia) st EB) as [_ _ _ Ih Is]. rewrite Ih, Is by lia.
  split; [apply inner_ext; apply HPsi; assumption|apply inner_ext; [apply HPsi; assumption|apply op_act_ext', HPsi; assumption]].
Qed.
Lemma common_completes k : qk_each_step o = false ->
  (forall S, (forall a b, a <= qk_s o -> b <= qk_s o -> S a b = inner n (Psi a) (Psi b)) -> GoodOverlap eig (qk_s o + 1) S /\ KeptFirst eig (qk_s o + 1) S k) -> EigCorrect eig k -> qk_root o < k ->
  exists r, common_run eig o prep = Ok r.
Proof.
  intros EF HG EC HR. destruct (build_total eig o prep n QC HH HP (qk_s o + 1) EF ltac:(lia)) as (st & EB & [_ _ _ Ih Is]).
  destruct (HG (q_s st)) as (G1 & G2). { intros a b Ha Hb. rewrite Is by lia. apply inner_ext; apply HPsi; assumption. }
  unfold common_run, build_qk_mats. rewrite EB. cbn [bind]. destruct (C48_kept_subspace_partial eig (qk_s o + 1) (q_s st) (q_h st) k G1 G2 EC) as (e & D & E1 & L & _). destruct (C48_sorted_energies _ _ _ _ _ _ E1) as (e' & D' & E2 & HPm & _).
  rewrite E2. cbn [bind fst]. pose proof (Permutation.Permutation_length HPm) as LL. unfold py_get. rewrite (nth_error_nth' e' C0) by lia. cbn [bind]. rewrite (nth_error_nth' e' C0) by lia. cbn [bind]. eexists. reflexivity.
Qed.
Lemma common_variational r k : common_run eig o prep = Ok r ->
  GoodOverlap eig (qk_s o + 1) (r_S r) -> KeptFirst eig (qk_s o + 1) (r_S r) k -> EigCorrect eig k -> NonzeroVectors eig k ->
  length (r_eigenvalues r) = k /\
  (forall e, In e (r_eigenvalues r) -> exists c, let Phi := combination (qk_s o + 1) c Psi in
     (0 < Re (inner n Phi Phi))%R /\ inner n Phi (op_act (qk_ham o) Phi) = (e * inner n Phi Phi)%C) /\
  (forall e, In e (r_eigenvalues r) -> (r_Egs r <= Re e)%R) /\
  forall L, (forall phi, L * Re (inner n phi phi) <= Re (inner n phi (op_act (qk_ham o) phi)))%R -> (L <= r_Egs r <= r_Ets r)%R.
Proof.
  intros E GO KF EC NZ. pose proof (common_matrices r E) as HM.
  unfold common_run in E. destruct (build_qk_mats eig o prep) as [st|]; cbn [bind] in E; [|discriminate].
  destruct (canonical_geig_solve eig (qk_s o + 1) (q_s st) (q_h st) true) as [[es D]|] eqn:EG; cbn [bind fst snd] in E; [|discriminate]. destruct (py_get es 0) as [e0|] eqn:E0; cbn [bind] in E; [|discriminate]. destruct (py_get es (qk_root o)) as [er|] eqn:Er; cbn [bind] in E; [|discriminate]. injection E as <-. cbn [r_S r_H r_eigenvalues r_Egs r_Ets] in *.
  destruct (rayleigh eig _ _ _ k es D GO KF EC NZ EG) as (LE & HR).
  assert (HQ : forall e, In e es -> exists c, let Phi := combination (qk_s o + 1) c Psi in (0 < Re (inner n Phi Phi))%R /\ inner n Phi (op_act (qk_ham o) Phi) = (e * inner n Phi Phi)%C).
  { intros e He. destruct (HR e He) as (c & x & H1 & H2 & H3). exists c. cbv zeta. rewrite (quad_S n _ c Psi (q_s st)) by (intros a b Ha Hb; apply HM; lia).
    rewrite (quad_H n _ c Psi (op_act (qk_ham o)) (q_h st)) by (try (apply C63_hamiltonian_self_adjoint, HH); intros a b Ha Hb; apply HM; lia). rewrite H1, H3. split; [exact H2|reflexivity]. }
  assert (H0 : forall e, In e es -> (Re e0 <= Re e)%R).
  { destruct GO as (G1 & G2 & G3). destruct KF as (K1 & K2). pose proof (solve_eq eig (qk_s o + 1) (q_s st) (q_h st) G2 G3 G1 k K1 K2 false) as EF. destruct (C48_sorted_energies _ _ _ _ _ _ EF) as (e' & D' & E2 & _ & HSort). rewrite EG in E2. injection E2 as <- <-.
    intros e He. destruct es as [|x es]; [destruct He|]. injection E0 as ->. destruct He as [->|He]; [lra|]. inversion HSort as [|? ? _ HF]; subst. rewrite Forall_forall in HF. now apply HF. }
  assert (I0 : In e0 es) by (unfold py_get in E0; destruct es as [|x es]; [discriminate|injection E0 as ->; now left]).
  assert (Ir : In er es). { unfold py_get in Er. destruct (nth_error es (qk_root o)) as [x|] eqn:EN; [|discriminate]. injection Er as ->. now apply nth_error_In in EN. }
  split; [exact LE|]. split; [exact HQ|]. split; [exact H0|]. intros L HL. split; [|apply H0, Ir]. destruct (HQ e0 I0) as (c & P1 & P2). cbv zeta in P1, P2. specialize (HL (combination (qk_s o + 1) c Psi)). rewrite P2 in HL.
  assert (IR : Im (inner n (combination (qk_s o + 1) c Psi) (combination (qk_s o + 1) c Psi)) = 0%R). { pose proof (f_equal Im (inner_conj n (combination (qk_s o + 1) c Psi) (combination (qk_s o + 1) c Psi))) as H. cbn in H. lra. }
  cbn [Cmul Re] in HL. rewrite IR in HL. apply Rmult_le_reg_r with (Re (inner n (combination (qk_s o + 1) c Psi) (combination (qk_s o + 1) c Psi))); [exact P1|]. lra.
Qed.
End common.
