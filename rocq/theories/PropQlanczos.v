(** C76: QLanczos on top of QITE. *)
From Coq Require Import Reals String List Arith ZArith Bool Lia Lra.
From Verif Require Import OrderProofs CBase Result Bits Spec OpSpec GateModel ComputerModel SafeProofs LibProofs CleanProofs SimProofs CircuitModel CircuitProofs PauliProofs OperatorModel OperatorProofs OrderProofs PoolProofs MeasureModel MeasureProofs FermiProofs SQModel AnsatzModel PyModel PyApply EigModel EigProofs GradModel GradSpec GradProofs QkModel QkProofs QkEig PropOperator PropMeasure PropEig PropGrad PropRes QiteModel QiteProofs PropQite PropQiteRun PropQiteMain.
From Verif Require PropQk PropSQ PropAnsatz.
Import ListNotations.
Local Open Scope nat_scope.

(** the Lanczos vectors are the states after 0, gap, 2 gap, ... steps *)
Lemma multiples g : g <> 0 -> forall N, 0 :: filter (fun k => Nat.eqb (k mod g) 0) (seq 1 N) = map (fun a => a * g) (seq 0 (N / g + 1)).
Proof.
  intros Hg. induction N as [|N IH]; [rewrite Nat.div_0_l by exact Hg; reflexivity|]. rewrite seq_S, filter_app, app_comm_cons, IH. cbn [Nat.add filter].
  pose proof (Nat.div_mod_eq N g) as D1. pose proof (Nat.mod_upper_bound N g Hg) as B1. pose proof (Nat.div_mod_eq (S N) g) as D2. pose proof (Nat.mod_upper_bound (S N) g Hg) as B2. destruct (Nat.eqb_spec (S N mod g) 0) as [E|E].
  - assert (Q : S N / g = N / g + 1) by nia. rewrite Q, (Nat.add_1_r (N / g + 1)), seq_S, map_app. cbn [map Nat.add]. do 2 f_equal. nia.
  - rewrite app_nil_r. assert (Q : S N / g = N / g) by nia. now rewrite Q.
Qed.
(** the inner and outer loops *)
Section Loops.
Context (eig : eig_oracle) (o : qite_options) (st : qite_state) (Phi : nat -> state) (L : nat).
Context (HH : Hamiltonian (qi_nqb o) (qi_ham o)).
Context (LV : length (qs_vecs st) = L) (HV : forall a, a < L -> exists v, nth_error (qs_vecs st) a = Some v /\ Amplitudes o v (Phi a)).
Context (HHV : forall a, a < L -> exists v, nth_error (qs_Hvecs st) a = Some v /\ Amplitudes o v (op_act (qi_ham o) (Phi a))).
Definition lsv (a b : nat) : C := inner (qi_nqb o) (Phi a) (Phi b).
Definition lhv (a b : nat) : C := inner (qi_nqb o) (Phi a) (op_act (qi_ham o) (Phi b)).
Lemma lsv_conj a b : Cconj (lsv a b) = lsv b a.
Proof. unfold lsv. symmetry. apply inner_conj. Qed.
Lemma lhv_conj a b : Cconj (lhv a b) = lhv b a.
Proof. unfold lhv. rewrite <- inner_conj. symmetry. apply C63_hamiltonian_self_adjoint, HH. Qed.
Lemma vdot_amplitudes u w psi phi : Amplitudes o u psi -> Amplitudes o w phi -> vdot u w = Ok (inner (qi_nqb o) psi phi).
Proof. intros (L1 & <-) (L2 & <-). unfold vdot. rewrite L1, L2, Nat.eqb_refl. now apply inner_amp. Qed.
Definition lrow (m : nat) := fun n (hs : mat * mat) =>
      do vm <- py_get (qs_vecs st) m;
      do Hvn <- py_get (qs_Hvecs st) n;
      do vn <- py_get (qs_vecs st) n;
      do hv <- vdot vm Hvn;
      let h := mset (fst hs) m n hv in
      let h := mset h n m (Cconj (h m n)) in
      do sv <- vdot vm vn;
      let s := mset (snd hs) m n sv in
      let s := mset s n m (Cconj (s m n)) in
      Ok (h, s).
Lemma lrow_run m h0 s0 : m < L -> forall k, k <= S m -> exists h s, foreach (seq 0 k) (lrow m) (h0, s0) = Ok (h, s) /\ (forall a b, h a b = if cross m k a b then lhv a b else h0 a b) /\ (forall a b, s a b = if cross m k a b then lsv a b else s0 a b).
Proof.
  intros Hm. induction k as [|k IH]; intros Hk.
  - exists h0, s0. split; [reflexivity|]. assert (CF : forall a b, cross m 0 a b = false) by (intros a b; unfold cross; destruct (Nat.ltb_spec b 0), (Nat.ltb_spec a 0); try lia; now rewrite !andb_false_r). split; intros a b; now rewrite CF.
  - destruct IH as (h & s & E & Hh & Hs); [lia|]. rewrite seq_S, foreach_app', E. cbn [bind Nat.add foreach]. unfold lrow at 1. unfold py_get.
    destruct (HV m Hm) as (vm & Em & Am). destruct (HV k ltac:(lia)) as (vk & Ek & Ak). destruct (HHV k ltac:(lia)) as (Hk' & EHk & AHk). rewrite Em. cbn [bind]. rewrite EHk. cbn [bind]. rewrite Ek. cbn [bind].
    rewrite (vdot_amplitudes vm Hk' _ _ Am AHk). cbn [bind]. cbv zeta. rewrite (vdot_amplitudes vm vk _ _ Am Ak). cbn [bind fst snd]. eexists _, _. split; [reflexivity|]. split; [exact (mset_cross h0 m k lhv h lhv_conj Hh)|exact (mset_cross s0 m k lsv s lsv_conj Hs)].
Qed.
Definition lstep := fun m (hse : mat * mat * C) =>
    do hs <- foreach (seq 0 (m + 1)) (lrow m) (fst hse);
    do e <- canonical_geig_solve eig (m + 1) (snd hs) (fst hs) true;
    do e0 <- py_get (fst e) 0;
    Ok (hs, e0).
Definition linv (m : nat) (h s : mat) : Prop := (forall a b, a < m -> b < m -> h a b = lhv a b) /\ (forall a b, a < m -> b < m -> s a b = lsv a b).
Lemma lstep_run m hse : m < L -> linv m (fst (fst hse)) (snd (fst hse)) -> exists h s, linv (S m) h s /\
  lstep m hse = (do e <- canonical_geig_solve eig (m + 1) s h true; do e0 <- py_get (fst e) 0; Ok ((h, s), e0)).
Proof.
  intros Hm (I1 & I2). destruct hse as ((h0 & s0) & e0). cbn [fst snd] in *. destruct (lrow_run m h0 s0 Hm (S m) (Nat.le_refl _)) as (h & s & E & Hh & Hs). exists h, s. split.
  - split; intros a b Ha Hb; [rewrite Hh|rewrite Hs]; unfold cross; destruct (Nat.eqb_spec a m), (Nat.eqb_spec b m), (Nat.ltb_spec b (S m)), (Nat.ltb_spec a (S m)); cbn [andb orb]; try lia; try reflexivity; [apply I1|apply I2]; lia.
  - unfold lstep. rewrite Nat.add_1_r. cbn [fst]. rewrite E. reflexivity.
Qed.
Lemma lanczos_inv : forall k, k <= L -> forall h s e, foreach (seq 0 k) lstep (mzero, mzero, C0) = Ok (h, s, e) -> linv k h s /\ (1 <= k -> exists es D, canonical_geig_solve eig k s h true = Ok (es, D) /\ py_get es 0 = Ok e).
Proof.
  induction k as [|k IH]; intros Hk h s e E.
  - cbn in E. injection E as <- <- <-. split; [split; intros; lia|lia].
  - rewrite seq_S, foreach_app' in E. destruct (foreach (seq 0 k) lstep _) as [((h1 & s1) & e1)|] eqn:E1; cbn [bind] in E; [|discriminate]. destruct (IH ltac:(lia) h1 s1 e1 eq_refl) as (HI & _). cbn [Nat.add foreach] in E.
    destruct (lstep_run k (h1, s1, e1) ltac:(lia) HI) as (h' & s' & HI' & ES). rewrite ES in E. rewrite Nat.add_1_r in E. destruct (canonical_geig_solve eig (S k) s' h' true) as [(es, D)|] eqn:EG; cbn [bind fst] in E; [|discriminate]. destruct (py_get es 0) as [e0|] eqn:E0; cbn [bind] in E; [|discriminate]. injection E as <- <- <-.
    split; [exact HI'|]. intros _. exists es, D. split; assumption.
Qed.
Lemma lanczos_total : (forall k, 1 <= k <= L -> forall h s, linv k h s -> exists es D e, canonical_geig_solve eig k s h true = Ok (es, D) /\ py_get es 0 = Ok e) ->
  forall k, k <= L -> exists h s e, foreach (seq 0 k) lstep (mzero, mzero, C0) = Ok (h, s, e) /\ linv k h s.
Proof.
  intros HG. induction k as [|k IH]; intros Hk; [exists mzero, mzero, C0; split; [reflexivity|split; intros; lia]|]. destruct (IH ltac:(lia)) as (h1 & s1 & e1 & E1 & HI). rewrite seq_S, foreach_app', E1. cbn [bind Nat.add foreach].
  destruct (lstep_run k (h1, s1, e1) ltac:(lia) HI) as (h & s & HI' & ES). rewrite ES, Nat.add_1_r. destruct (HG (S k) ltac:(lia) h s HI') as (es & D & e & EG & Ee). rewrite EG. cbn [bind fst]. rewrite Ee. cbn [bind]. exists h, s, e. split; [reflexivity|exact HI'].
Qed.
End Loops.
Lemma forall2_nth {A B} (R : A -> B -> Prop) (l : list A) (l' : list B) d : Forall2 R l l' -> forall a, a < length l' -> exists v, nth_error l a = Some v /\ R v (nth a l' d).
Proof. induction 1 as [|x y l l' Hx _ IH]; intros a Ha; [cbn in Ha; lia|]. destruct a as [|a]; [exists x; split; [reflexivity|exact Hx]|]. apply IH. cbn in Ha. lia. Qed.

Lemma forall2_len {A B} (R : A -> B -> Prop) (l : list A) (l' : list B) : Forall2 R l l' -> length l = length l'.
Proof. induction 1 as [|x y l l' _ _ IH]; [reflexivity|]. cbn. now rewrite IH. Qed.

(** ---- C76 ---- *)
(** a QITE run with do_lanczos that satisfies the conditions of C75_run *)
Record LanczosRun (srt : sorter) (sort : term_sorter) (lstsq : lstsq_oracle) (o : qite_options) (strs : list (list gate)) (N : nat) : Prop := {
  lr_ready : QiteReady o strs;
  lr_pool : build_expansion_pool srt sort o = Ok (SumOf strs);
  lr_lsq : LeastSquares (length strs) lstsq;
  lr_on : qi_lanczos o = true;
  lr_gap : qi_gap o <> 0;
  lr_db : qi_db o <> 0%R;
  lr_beta : (0 <= qi_beta o / qi_db o)%R;
  lr_small : (2 * Rabs (qi_db o) * coefficient_sum (qi_ham o) < 1)%R;
  lr_N : StepCount o N }.
Lemma count_unique o N M : StepCount o N -> StepCount o M -> N = M.
Proof. unfold StepCount. intros (A1 & A2) (B1 & B2). assert (H1 : (INR N < INR (S M))%R) by (rewrite S_INR; lra). assert (H2 : (INR M < INR (S N))%R) by (rewrite S_INR; lra). apply INR_lt in H1, H2. lia. Qed.
Lemma lanczos_front srt sort lstsq eig o strs N : LanczosRun srt sort lstsq o strs N -> exists st ps idx x gs ph, Trajectory o strs N st ps idx x gs ph /\
  qite_run srt sort lstsq eig o = (do l <- foreach (seq 0 (N / qi_gap o + 1)) (lstep eig st) (mzero, mzero, C0); Ok (st, Some l)) /\ length (qs_vecs st) = N / qi_gap o + 1 /\
  (forall a, a < N / qi_gap o + 1 -> exists v, nth_error (qs_vecs st) a = Some v /\ Amplitudes o v (ps (a * qi_gap o))) /\ (forall a, a < N / qi_gap o + 1 -> exists v, nth_error (qs_Hvecs st) a = Some v /\ Amplitudes o v (op_act (qi_ham o) (ps (a * qi_gap o)))).
Proof.
  intros [HR EP HL El Eg Hd Hb Hs SN]. destruct (step_count o Hd Hb) as (M & EN & SM). pose proof (count_unique o N M SN SM) as <-.
  destruct (steps_run lstsq o strs HR HL Hs (fun _ => Eg) N) as (st & ps & idx & x & gs & ph & E & T & F1 & F2 & _). exists st, ps, idx, x, gs, ph. split; [exact T|].
  unfold lanczos_steps in F1, F2. rewrite El, (multiples _ Eg) in F1, F2. assert (LL : length (qs_vecs st) = N / qi_gap o + 1) by (rewrite (forall2_len _ _ _ F1), map_length, seq_length; reflexivity).
  rewrite (run_front srt sort lstsq eig o strs HR EP N EN), E. cbn [bind]. rewrite El. split; [unfold do_qlanczos; rewrite LL; reflexivity|]. split; [exact LL|].
  assert (EX : forall a, a < N / qi_gap o + 1 -> nth a (map (fun a => a * qi_gap o) (seq 0 (N / qi_gap o + 1))) 0 = a * qi_gap o).
  { intros a Ha. rewrite (nth_indep _ 0 ((fun a => a * qi_gap o) 0)) by (now rewrite map_length, seq_length). rewrite (map_nth (fun a => a * qi_gap o)), seq_nth by exact Ha. reflexivity. }
  split; intros a Ha; [destruct (forall2_nth _ _ _ 0 F1 a) as (v & E1 & E2)|destruct (forall2_nth _ _ _ 0 F2 a) as (v & E1 & E2)]; try (now rewrite map_length, seq_length); rewrite (EX a Ha) in E2; exists v; split; assumption.
Qed.
(** a completed run: the QITE trajectory, the overlap and Hamiltonian matrices of the states after
    0, gap, 2 gap, ... steps, and the first eigenvalue of the last generalized problem *)
Theorem C76_matrices : forall srt sort lstsq eig o strs N st h s e, LanczosRun srt sort lstsq o strs N -> qite_run srt sort lstsq eig o = Ok (st, Some (h, s, e)) ->
  exists ps idx x gs ph, Trajectory o strs N st ps idx x gs ph /\
    (forall a b, a * qi_gap o <= N -> b * qi_gap o <= N -> s a b = inner (qi_nqb o) (ps (a * qi_gap o)) (ps (b * qi_gap o)) /\ h a b = inner (qi_nqb o) (ps (a * qi_gap o)) (op_act (qi_ham o) (ps (b * qi_gap o)))) /\
    exists es D, canonical_geig_solve eig (N / qi_gap o + 1) s h true = Ok (es, D) /\ nth_error es 0 = Some e.
Proof.
  intros srt sort lstsq eig o strs N st h s e HR E. destruct (lanczos_front srt sort lstsq eig o strs N HR) as (st' & ps & idx & x & gs & ph & T & ER & LL & HV & HHV). rewrite ER in E.
  destruct (foreach _ _ _) as [l|] eqn:EL in E; cbn [bind] in E; [|discriminate]. injection E as <- ->. exists ps, idx, x, gs, ph. split; [exact T|].
  destruct (lanczos_inv eig o st' (fun a => ps (a * qi_gap o)) (N / qi_gap o + 1) (qr_ham _ _ (lr_ready _ _ _ _ _ _ HR)) LL HV HHV _ (Nat.le_refl _) h s e EL) as ((I1 & I2) & HE). split.
  - intros a b Ha Hb. pose proof (lr_gap _ _ _ _ _ _ HR) as Hg. assert (a < N / qi_gap o + 1) by (assert (a <= N / qi_gap o) by (apply Nat.div_le_lower_bound; [exact Hg|lia]); lia). assert (b < N / qi_gap o + 1) by (assert (b <= N / qi_gap o) by (apply Nat.div_le_lower_bound; [exact Hg|lia]); lia). rewrite I1, I2 by assumption. split; reflexivity.
  - destruct (HE ltac:(lia)) as (es & D & EG & Ee). exists es, D. split; [exact EG|]. unfold py_get in Ee. destruct (nth_error es 0); [|discriminate]. injection Ee as ->. reflexivity.
Qed.
Print Assumptions C76_matrices.
(** the run completes: here when, for every leading block, the overlap eigenvalues that are
    dropped come last in the output of eig and at least one is kept *)
Theorem C76_completes_partial : forall srt sort lstsq eig o strs N (kept : nat -> nat), LanczosRun srt sort lstsq o strs N ->
  (forall k S (Phi : nat -> state), 1 <= k <= N / qi_gap o + 1 -> (forall a, a < k -> inner (qi_nqb o) (Phi a) (Phi a) = C1) -> (forall a b, a < k -> b < k -> S a b = inner (qi_nqb o) (Phi a) (Phi b)) -> GoodOverlap eig k S /\ KeptFirst eig k S (kept k) /\ 1 <= kept k /\ EigCorrect eig (kept k)) ->
  exists st h s e, qite_run srt sort lstsq eig o = Ok (st, Some (h, s, e)).
Proof.
  intros srt sort lstsq eig o strs N kp HR HG. destruct (lanczos_front srt sort lstsq eig o strs N HR) as (st & ps & idx & x & gs & ph & T & ER & LL & HV & HHV). rewrite ER. pose proof (lr_gap _ _ _ _ _ _ HR) as Hg.
  destruct (lanczos_total eig o st (fun a => ps (a * qi_gap o)) (N / qi_gap o + 1) (qr_ham _ _ (lr_ready _ _ _ _ _ _ HR)) LL HV HHV) with (k := N / qi_gap o + 1) as (h & s & e & E & _); [|lia|rewrite E; cbn [bind]; eauto].
  intros k Hk h s (I1 & I2). destruct (HG k s (fun a => ps (a * qi_gap o)) Hk) as (G1 & G2 & G3 & G4).
  - intros a Ha. assert (a * qi_gap o <= N) by (pose proof (Nat.mul_div_le N (qi_gap o) Hg); nia). destruct (a * qi_gap o) as [|j] eqn:Ej.
    + rewrite (tr_start _ _ _ _ _ _ _ _ _ T). destruct (lr_ready _ _ _ _ _ _ HR) as [(U1 & _ & U3) _ _ _ _]. rewrite circ_preserves_inner by assumption. apply ket_norm.
    + apply (sp_norm _ _ _ _ _ _ _ _ (tr_steps _ _ _ _ _ _ _ _ _ T j ltac:(lia))).
  - exact I2.
  - destruct (C48_kept_subspace_partial eig k s h (kp k) G1 G2 G4) as (es & D & E1 & L1 & _). destruct (C48_sorted_energies _ _ _ _ _ _ E1) as (e' & D' & E2 & HPm & _). pose proof (Permutation.Permutation_length HPm) as L2. destruct e' as [|e0 e']; [cbn in L2; lia|]. exists (e0 :: e'), D', e0. split; [exact E2|reflexivity].
Qed.
Print Assumptions C76_completes_partial.
(** the QLanczos energy is the energy of a combination of the QITE states, so it does not lie
    below a lower bound of H *)
Theorem C76_variational_partial : forall srt sort lstsq eig o strs N st h s e k, LanczosRun srt sort lstsq o strs N -> qite_run srt sort lstsq eig o = Ok (st, Some (h, s, e)) ->
  GoodOverlap eig (N / qi_gap o + 1) s -> KeptFirst eig (N / qi_gap o + 1) s k -> EigCorrect eig k -> NonzeroVectors eig k ->
  exists ps idx x gs ph c, Trajectory o strs N st ps idx x gs ph /\
    (let Phi := QkEig.combination (N / qi_gap o + 1) c (fun a => ps (a * qi_gap o)) in
     (0 < Re (inner (qi_nqb o) Phi Phi))%R /\ inner (qi_nqb o) Phi (op_act (qi_ham o) Phi) = (e * inner (qi_nqb o) Phi Phi)%C) /\
  forall L, (forall phi, L * Re (inner (qi_nqb o) phi phi) <= Re (inner (qi_nqb o) phi (op_act (qi_ham o) phi)))%R -> (L <= Re e)%R.
Proof.
  intros srt sort lstsq eig o strs N st h s e k HR E GO KF EC NZ. destruct (C76_matrices _ _ _ _ _ _ _ _ _ _ _ HR E) as (ps & idx & x & gs & ph & T & HM & es & D & EG & Ee). set (n := qi_nqb o) in *. pose proof (lr_gap _ _ _ _ _ _ HR) as Hg.
  assert (HM' : forall a b, a < N / qi_gap o + 1 -> b < N / qi_gap o + 1 -> s a b = inner n (ps (a * qi_gap o)) (ps (b * qi_gap o)) /\ h a b = inner n (ps (a * qi_gap o)) (op_act (qi_ham o) (ps (b * qi_gap o)))).
  { intros a b Ha Hb. pose proof (Nat.mul_div_le N (qi_gap o) Hg). apply HM; nia. }
  destruct (rayleigh eig _ _ _ k es D GO KF EC NZ EG) as (LE & HRy). destruct (HRy e (nth_error_In _ _ Ee)) as (c & y & H1 & H2 & H3). exists ps, idx, x, gs, ph, c. split; [exact T|]. cbv zeta. set (P := QkEig.combination _ _ _).
  assert (E1 : inner n P P = RtoC y) by (unfold P; rewrite (quad_S n _ c (fun a => ps (a * qi_gap o)) s) by (intros a b Ha Hb; apply HM'; assumption); exact H1).
  assert (E2 : inner n P (op_act (qi_ham o) P) = (e * RtoC y)%C) by (unfold P; rewrite (quad_H n _ c (fun a => ps (a * qi_gap o)) (op_act (qi_ham o)) h) by (try (apply C63_hamiltonian_self_adjoint, (qr_ham _ _ (lr_ready _ _ _ _ _ _ HR))); intros a b Ha Hb; apply HM'; assumption); exact H3).
  rewrite E1, E2. split; [split; [exact H2|reflexivity]|]. intros L HL. specialize (HL P). rewrite E1, E2 in HL. cbn [Cmul RtoC Re Im] in HL. apply Rmult_le_reg_r with y; [exact H2|]. lra.
Qed.
Print Assumptions C76_variational_partial.

(** ---- a case: the example of C75, four steps, gap 5 ---- *)
Definition diag_eig : eig_oracle := fun n A => (map (fun i => A i i) (seq 0 n), delta).
Definition lanczos_example : qite_options := mkQiteOptions 1 [] [(C1, [gX 0])] [0%Z] 1 None 1 (1/4) "cqoy" true 0 0 true 5.
Lemma lanczos_example_run : LanczosRun PropSQ.isort PropAnsatz.tsort lsq1 lanczos_example [[gY 0]] 4.
Proof.
  assert (A1 : Cabs C1 = 1%R) by (unfold Cabs, Cnorm2; cbn; replace (1 * 1 + 0 * 0)%R with 1%R by ring; apply sqrt_1). split.
  - destruct example_ready as [H1 H2 H3 H4 H5]. split; assumption.
  - reflexivity.
  - exact lsq1_ok.
  - reflexivity.
  - discriminate.
  - cbn. lra.
  - cbn. lra.
  - cbn [qi_db qi_ham lanczos_example]. unfold coefficient_sum, QpeProofs.Rsum. cbn [fold_right fst]. rewrite A1, Rabs_right; lra.
  - unfold StepCount. cbn [qi_beta qi_db lanczos_example]. replace (1 / (1 / 4))%R with (INR 4) by (cbn; field). lra.
Qed.
Example C76_nonvacuous : exists st h s e, qite_run PropSQ.isort PropAnsatz.tsort lsq1 diag_eig lanczos_example = Ok (st, Some (h, s, e)).
Proof.
  apply (C76_completes_partial _ _ _ _ _ _ 4 (fun _ => 1) lanczos_example_run). intros k S Phi Hk HN HS. change (4 / qi_gap lanczos_example + 1) with 1 in Hk. assert (k = 1) by lia. subst k.
  assert (E : S 0 0 = C1) by (rewrite HS by lia; apply HN; lia). assert (EC : EigCorrect diag_eig 1).
  { intros A. split; [reflexivity|]. intros i j Hi Hj. assert (i = 0) by lia. assert (j = 0) by lia. subst. cbn. apply C_ext; cbn; ring. }
  split; [|split; [|split; [lia|exact EC]]].
  - split; [|split; [apply EC|]].
    + intros i j Hi Hj. assert (i = 0) by lia. assert (j = 0) by lia. subst. rewrite E. apply C_ext; cbn; ring.
    + intros i j Hi Hj. assert (i = 0) by lia. assert (j = 0) by lia. subst. cbn. apply C_ext; cbn; ring.
  - split; [lia|]. intros j Hj. assert (j = 0) by lia. subst. cbn [diag_eig fst seq map nth]. rewrite E. cbn [C1 Re]. split; [lia|intros _; lra].
Qed.
