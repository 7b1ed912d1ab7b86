(** C75: quantum imaginary time evolution. *)
From Coq Require Import Reals String List Arith ZArith Bool Lia Lra.
From Verif Require Import CBase Result Bits Spec OpSpec GateModel ComputerModel SafeProofs LibProofs CleanProofs SimProofs CircuitModel CircuitProofs PauliProofs OperatorModel PoolProofs MeasureModel MeasureProofs PyModel PyApply ExpSpec ExpProofs ExpCircuit FermiProofs EigModel GradModel GradSpec GradProofs QkModel QkProofs PropOperator PropMeasure PropGrad PropRes SparseNorm QpeProofs QpeDist QiteModel QiteNorm QiteLin QiteProofs.
From Verif Require TrotterProofs PropPy SymmProofs SimplifyLoop PropAnsatz.
Import ListNotations.
Local Open Scope R_scope.

(** ---- vocabulary ---- *)
(** scipy.linalg.lstsq, for systems of at most K unknowns: it returns a vector of the right
    length that minimizes the sum of the squared residuals *)
Definition residual_sum (k : nat) (Sm : nat -> nat -> R) (b x : list R) : R :=
  Rsum (fun i => (Rsum (fun j => Sm i j * nth j x 0) (seq 0 k) - nth i b 0) ^ 2) (seq 0 k).
Definition LeastSquares (K : nat) (lstsq : lstsq_oracle) : Prop := forall k Sm b, (k <= K)%nat -> length b = k ->
  length (lstsq k Sm b) = k /\ forall y, length y = k -> residual_sum k Sm b (lstsq k Sm b) <= residual_sum k Sm b y.
(** a QITE object with the expansion strings strs: state preparation and Hamiltonian fit the
    register, and the Hamiltonian can be measured *)
Record QiteReady (o : qite_options) (strs : list (list gate)) : Prop := {
  qr_prep : Applicable (qi_nqb o) (qi_Uprep o);
  qr_ham : Hamiltonian (qi_nqb o) (qi_ham o);
  qr_eval : Evaluable (qi_nqb o) (qi_par o) (qi_ham o);
  qr_trot : (1 <= qi_trotter o)%nat;
  qr_strs : Forall (StringOn (qi_nqb o)) strs }.
(** <psi|H|psi> *)
Definition mean_energy (o : qite_options) (psi : state) : R := Re (inner (qi_nqb o) psi (op_act (qi_ham o) psi)).
(** 1 - 2 db E, the square of the norm of (1 - db H) psi to first order *)
Definition norm_estimate (o : qite_options) (psi : state) : R := 1 - 2 * qi_db o * mean_energy o psi.
(** H psi / sqrt(1 - 2 db E) *)
Definition target (o : qite_options) (psi : state) : state := sscale (RtoC (/ sqrt (norm_estimate o psi))) (op_act (qi_ham o) psi).
Definition str_at (strs : list (list gate)) (I : nat) : list gate := nth I strs [].
(** Im <sigma_I psi | H psi> / sqrt(1 - 2 db E) *)
Definition b_entry (o : qite_options) (strs : list (list gate)) (psi : state) (I : nat) : R := Im (inner (qi_nqb o) (circ_act (str_at strs I) psi) (target o psi)).
(** sum_i x_i sigma_(idx i) psi *)
Definition combination (strs : list (list gate)) (idx : list nat) (x : nat -> R) (psi : state) : state :=
  fun I => Csum (fun i => (RtoC (x i) * circ_act (str_at strs (nth i idx 0%nat)) psi I)%C) (seq 0 (length idx)).
Definition distance (o : qite_options) (a b : state) : R := norm (qi_nqb o) (ssub a b).
(** the terms -i db x_i sigma_(idx i) with |x_i| above the threshold *)
Definition big (o : qite_options) (idx : list nat) (x : nat -> R) : list nat := filter (fun i => Rltb (qi_xthr o) (Rabs (x i))) (seq 0 (length idx)).
Definition generator (o : qite_options) (strs : list (list gate)) (idx : list nat) (x : nat -> R) : qop :=
  map (fun i => (mkC 0 (- (qi_db o * x i)), str_at strs (nth i idx 0%nat))) (big o idx x).
(** one QITE step from psi to psi': the strings considered, the coefficients x, the circuit and
    the global phase *)
Record Step (o : qite_options) (strs : list (list gate)) (psi : state) (idx : list nat) (x : nat -> R) (gs : list gate) (ph : C) (psi' : state) : Prop := {
  sp_idx : idx = if qi_sparse o then filter (fun I => Rltb (qi_bthr o) (Rabs (b_entry o strs psi I))) (seq 0 (length strs)) else seq 0 (length strs);
  sp_best : forall y, distance o (target o psi) (sscale Ci (combination strs idx x psi)) <= distance o (target o psi) (sscale Ci (combination strs idx y psi));
  sp_exact : forall i, (i < length idx)%nat -> Re (inner (qi_nqb o) (circ_act (str_at strs (nth i idx 0%nat)) psi) (combination strs idx x psi)) = b_entry o strs psi (nth i idx 0%nat);
  sp_exp : exp_product (PropPy.trotter_factors C1 (qi_trotter o) (generator o strs idx x)) psi (sscale ph psi');
  sp_circ : psi' = circ_act gs psi;
  sp_norm : inner (qi_nqb o) psi' psi' = C1 }.

(** ---- least squares ---- *)
Lemma Rsum_single (f : nat -> R) i k : (i < k)%nat -> Rsum (fun j => f j * (if Nat.eqb j i then 1 else 0)) (seq 0 k) = f i.
Proof.
  intros H. induction k as [|k IH]; [lia|]. rewrite seq_S, Rsum_app, Rsum_cons. unfold Rsum at 2. cbn [fold_right Nat.add]. destruct (Nat.eqb_spec k i) as [->|Ne].
  - rewrite (Rsum_ext _ (fun j => 0 * f j)); [rewrite Rsum_scale; ring|]. intros j Hj. apply in_seq in Hj. destruct (Nat.eqb_spec j i); [lia|]. ring.
  - rewrite IH by lia. ring.
Qed.
Lemma normal_equations k Sm b x : length x = k -> length b = k -> (forall y, length y = k -> residual_sum k Sm b x <= residual_sum k Sm b y) ->
  forall i, (i < k)%nat -> Rsum (fun j => Sm j i * (Rsum (fun l => Sm j l * nth l x 0) (seq 0 k) - nth j b 0)) (seq 0 k) = 0.
Proof.
  intros Lx Lb H i Hi. set (r := fun j => Rsum (fun l => Sm j l * nth l x 0) (seq 0 k) - nth j b 0). set (g := Rsum (fun j => Sm j i * r j) (seq 0 k)). set (s := Rsum (fun j => Sm j i * Sm j i) (seq 0 k)).
  assert (HS : 0 <= s) by (apply Rsum_nonneg; intros; nra).
  assert (HT : forall t, 0 <= 2 * t * g + t * t * s).
  { intros t. specialize (H (map (fun j => nth j x 0 + t * (if Nat.eqb j i then 1 else 0)) (seq 0 k)) ltac:(now rewrite map_length, seq_length)).
    unfold residual_sum in H. rewrite (Rsum_ext (fun i0 => (Rsum (fun j => Sm i0 j * nth j (map _ _) 0) (seq 0 k) - nth i0 b 0) ^ 2) (fun j => (r j + t * Sm j i) ^ 2)) in H.
    - rewrite (Rsum_ext (fun j => (r j + t * Sm j i) ^ 2) (fun j => r j ^ 2 + (2 * t) * (Sm j i * r j) + (t * t) * (Sm j i * Sm j i))) in H by (intros; ring). rewrite !Rsum_add, !Rsum_scale in H. fold g s in H. change (Rsum (fun i0 => (Rsum (fun j => Sm i0 j * nth j x 0) (seq 0 k) - nth i0 b 0) ^ 2) (seq 0 k)) with (Rsum (fun j => r j ^ 2) (seq 0 k)) in H. lra.
    - intros j _. f_equal. unfold r. rewrite (Rsum_ext (fun j0 => Sm j j0 * nth j0 (map _ _) 0) (fun l => Sm j l * nth l x 0 + t * (Sm j l * (if Nat.eqb l i then 1 else 0)))).
      + rewrite Rsum_add, Rsum_scale, Rsum_single by exact Hi. ring.
      + intros l Hl. apply in_seq in Hl. rewrite (nth_indep _ 0 ((fun j0 => nth j0 x 0 + t * (if Nat.eqb j0 i then 1 else 0)) 0%nat)) by (rewrite map_length, seq_length; lia). rewrite (map_nth (fun j0 => nth j0 x 0 + t * (if Nat.eqb j0 i then 1 else 0))), seq_nth by lia. cbn [Nat.add]. ring. }
  destruct (Req_dec g 0) as [|N]; [assumption|exfalso]. pose proof (HT (- g / (s + 1))) as H1. assert (E : 2 * (- g / (s + 1)) * g + - g / (s + 1) * (- g / (s + 1)) * s = - (g * g) * (s + 2) / ((s + 1) * (s + 1))) by (field; lra). rewrite E in H1.
  assert (H2 : 0 < g * g) by nra. assert (H3 : 0 < (g * g) * (s + 2) / ((s + 1) * (s + 1))) by (apply Rdiv_lt_0_compat; nra). unfold Rdiv in *. rewrite Ropp_mult_distr_l_reverse, Ropp_mult_distr_l_reverse in H1. lra.
Qed.

(** ---- one step ---- *)
Lemma b_entry_eq o strs psi I : b_entry o strs psi I = Im (inner (qi_nqb o) (circ_act (str_at strs I) psi) (op_act (qi_ham o) psi)) / sqrt (norm_estimate o psi).
Proof. unfold b_entry, target. rewrite inner_scale_r. cbn [RtoC Cmul Re Im]. unfold Rdiv. ring. Qed.
Lemma generator_kept o strs idx (x : list R) : generator o strs idx (fun i => nth i x 0) = TrotterProofs.opened (kept o strs idx x).
Proof. unfold generator, kept, TrotterProofs.opened, big. rewrite map_map. reflexivity. Qed.
(** the state of a QITE object between two steps: the simulator holds psi, of norm 1, and the
    last recorded energy is the energy of psi *)
Definition Holds (o : qite_options) (st : qite_state) (psi : state) : Prop :=
  wf_computer (qs_qc st) /\ nqubit (qs_qc st) = qi_nqb o /\ psi_of (qs_qc st) = psi /\ inner (qi_nqb o) psi psi = C1 /\ last (qs_Ekb st) 0 = mean_energy o psi.
Theorem C75_step : forall lstsq o strs st psi, QiteReady o strs -> LeastSquares (length strs) lstsq -> Holds o st psi -> 0 < norm_estimate o psi ->
  exists st' psi' idx x gs ph, do_qite_step lstsq o (map (fun s => (C1, [(C1, s)])) strs) st = Ok st' /\ Step o strs psi idx x gs ph psi' /\ Holds o st' psi' /\
    qs_Ekb st' = (qs_Ekb st ++ [mean_energy o psi'])%list /\ qs_U st' = (qs_U st ++ gs)%list /\ qs_phase st' = (qs_phase st * ph)%C /\
    qs_params st' = (qs_params st + length (generator o strs idx x))%nat /\ qs_cnot st' = (qs_cnot st + get_num_cnots gs)%nat /\
    qs_meas st' = (qs_meas st + length (qi_ham o) * length strs + length idx * (length idx + 1) / 2)%nat /\ qs_vecs st' = qs_vecs st /\ qs_Hvecs st' = qs_Hvecs st.
Proof.
  intros lstsq o strs st psi [HU HH HE Hr HS] HL (W & N & EP & H1 & EE) Hd. fold (pool_of strs). assert (HQ : st_on o (qs_qc st)) by (split; assumption). set (n := qi_nqb o) in *.
  unfold do_qite_step. assert (Hd' : 0 < 1 - 2 * qi_db o * last (qs_Ekb st) 0) by (rewrite EE; exact Hd). rewrite (build_b_ok o strs st HQ HH HS Hd'). cbn [bind]. cbv zeta. rewrite EP.
  set (b := map _ strs). assert (Lb : length b = length strs) by (unfold b; now rewrite map_length).
  assert (Hb : forall I, (I < length strs)%nat -> nth I b 0 = b_entry o strs psi I).
  { intros I HI. rewrite b_entry_eq. unfold b. set (f := fun gs : list gate => _). rewrite (nth_indep _ 0 (f [])) by (now rewrite map_length). rewrite (map_nth f). unfold f, norm_estimate. rewrite EE. reflexivity. }
  set (idx := if qi_sparse o then filter (fun I => Rltb (qi_bthr o) (Rabs (b_entry o strs psi I))) (seq 0 (length strs)) else seq 0 (length strs)).
  assert (HI : Forall (fun I => (I < length strs)%nat) idx). { apply Forall_forall. intros I HI. unfold idx in HI. destruct (qi_sparse o); [apply filter_In in HI; destruct HI as (HI & _)|]; apply in_seq in HI; lia. }
  assert (LI : (length idx <= length strs)%nat). { unfold idx. destruct (qi_sparse o); [eapply Nat.le_trans; [apply SimplifyLoop.filter_length_le|rewrite seq_length; lia]|rewrite seq_length; lia]. }
  destruct (overlap_ok o strs (qs_qc st) idx HQ HS HI) as (Sm & ES & HM). rewrite <- EP in H1. pose proof (overlap_real o strs (qs_qc st) idx HS HI Sm H1 HM) as HR. rewrite EP in H1, HR. fold n in HR.
  assert (EIdx : idx = if qi_sparse o then filter (fun I => Rltb (qi_bthr o) (Rabs (b_entry o strs psi I))) (seq 0 (length strs)) else seq 0 (length strs)) by reflexivity. clearbody idx.
  set (bs := map (fun I => nth I b 0) idx).
  assert (SYS : (if qi_sparse o then do Sm0 <- overlap_loop o (pool_of strs) (qs_qc st) (fst (sparse_b o b)); Ok (fst (sparse_b o b), Sm0, snd (sparse_b o b)) else do Sm0 <- overlap_loop o (pool_of strs) (qs_qc st) (seq 0 (length (pool_of strs))); Ok (seq 0 (length (pool_of strs)), Sm0, b)) = Ok (idx, Sm, bs)).
  { unfold bs. destruct (qi_sparse o).
    - rewrite (sparse_b_ok o b). cbn [fst snd]. rewrite Lb. assert (EF : filter (fun I => Rltb (qi_bthr o) (Rabs (nth I b 0))) (seq 0 (length strs)) = filter (fun I => Rltb (qi_bthr o) (Rabs (b_entry o strs psi I))) (seq 0 (length strs))).
      { apply filter_ext_in. intros I Hx. apply in_seq in Hx. rewrite Hb by lia. reflexivity. }
      rewrite EF, <- EIdx, ES. reflexivity.
    - replace (length (pool_of strs)) with (length strs) by (unfold pool_of; now rewrite map_length). rewrite <- EIdx, ES. cbn [bind]. rewrite EIdx, <- Lb. f_equal. f_equal. clear. apply (nth_ext _ _ 0 0); [now rewrite map_length, seq_length|]. intros i Hi. rewrite (nth_indep (map _ _) 0 ((fun I => nth I b 0) 0%nat)) by (now rewrite map_length, seq_length). rewrite (map_nth (fun I => nth I b 0)), seq_nth by exact Hi. reflexivity. }
  rewrite SYS. cbn [bind fst snd]. clear SYS.
  destruct (HL (length idx) (mreal Sm) bs LI ltac:(unfold bs; now rewrite map_length)) as (Lx & Hmin). set (x := lstsq (length idx) (mreal Sm) bs) in *.
  pose proof (normal_equations _ _ _ _ Lx ltac:(unfold bs; now rewrite map_length) Hmin) as HN. set (v := fun i => circ_act (str_at strs (nth i idx 0%nat)) psi).
  assert (Hbs : forall i, (i < length idx)%nat -> nth i bs 0 = b_entry o strs psi (nth i idx 0%nat)).
  { intros i Hi. unfold bs. rewrite (nth_indep _ 0 ((fun I => nth I b 0) 0%nat)) by (now rewrite map_length). rewrite (map_nth (fun I => nth I b 0)). apply Hb. rewrite Forall_forall in HI. apply HI, nth_In, Hi. }
  assert (HX : forall i, (i < length idx)%nat -> Rsum (fun l => Re (inner n (v i) (v l)) * nth l x 0) (seq 0 (length idx)) = Im (inner n (v i) (target o psi))).
  { intros i Hi. apply (normal_solves n (length idx) v (target o psi) (fun l => nth l x 0)); [|exact Hi]. intros k Hk. etransitivity; [|exact (HN k Hk)]. fold bs. apply Rsum_ext. intros j Hj. apply in_seq in Hj. unfold str_at in v. rewrite (HR j k) by lia. f_equal. f_equal; [|rewrite Hbs by lia; reflexivity]. apply Rsum_ext. intros l Hl. apply in_seq in Hl. rewrite (HR j l) by lia. reflexivity. }
  rewrite build_A_ok by assumption. cbn [bind fst snd]. destruct (trotterize_A n (kept o strs idx x) (qi_trotter o) (kept_strings o strs idx x n HS HI) Hr) as (gs & ph & ET & HA & HX'). rewrite ET. cbn [bind fst snd].
  destruct (sim_apply (qs_qc st) gs W) as (qc' & EC & WC & NC & AC); [rewrite N; exact HA|]. rewrite EC. cbn [bind]. fold (psi_of qc') (psi_of (qs_qc st)) in AC. rewrite EP in AC. apply seq_eq in AC. rewrite N in NC.
  destruct (SymmProofs.evaluate n (qi_par o) (qi_ham o) qc' HE WC NC) as (qc2 & EV & (U1 & U2 & U3)). rewrite EV. cbn [bind fst snd].
  assert (P2 : psi_of qc2 = circ_act gs psi) by (unfold psi_of in *; rewrite U2; exact AC). rewrite AC.
  assert (N2 : inner n (circ_act gs psi) (circ_act gs psi) = C1). { destruct HA as (A1 & _ & A3). rewrite circ_preserves_inner by assumption. exact H1. }
  eexists _, (circ_act gs psi), idx, (fun i => nth i x 0), gs, ph. split; [reflexivity|]. rewrite generator_kept. cbn [qs_qc qs_Ekb qs_U qs_phase qs_params qs_cnot qs_meas qs_vecs qs_Hvecs].
  split; [|split; [|split; [reflexivity|split; [reflexivity|split; [reflexivity|split; [|split; [reflexivity|split; [|split; reflexivity]]]]]]]].
  - split; [exact EIdx| | | |reflexivity|exact N2].
    + intros y. unfold distance, norm. apply sqrt_le_1; [apply normsq_nonneg|apply normsq_nonneg|]. apply (best n (length idx) v (target o psi) (fun l => nth l x 0) y HX).
    + intros i Hi. etransitivity; [apply (row n (length idx) v (fun l => nth l x 0) i)|]. apply (HX i Hi).
    + rewrite generator_kept, PropPy.factors_acting. assert (E : TrotterProofs.scaled C1 (qi_trotter o) (TrotterProofs.opened (kept o strs idx x)) = TrotterProofs.opened (repeated (kept o strs idx x) (qi_trotter o))).
      { unfold TrotterProofs.scaled, repeated, TrotterProofs.opened. rewrite concat_repeat_map, !map_map. do 2 f_equal. apply map_ext. intros u. cbn [fst snd]. f_equal. apply C_ext; cbn; ring. }
      rewrite E. apply TrotterProofs.eulers_product; [|apply HX']. eapply Forall_impl; [|exact (repeated_strings n _ (qi_trotter o) (kept_strings o strs idx x n HS HI))]. intros t Ht. exact (string_word n _ Ht).
  - split; [exact U3|]. split; [exact (eq_trans U1 NC)|]. split; [exact P2|]. split; [exact N2|]. cbn [qs_Ekb]. rewrite last_last. reflexivity.
  - unfold TrotterProofs.opened. rewrite map_length. reflexivity.
  - unfold triangle. unfold pool_of. rewrite map_length. reflexivity.
Qed.
Print Assumptions C75_step.

(** ---- the energy of a step ---- *)
(** sum of the absolute values of the coefficients of the Hamiltonian *)
Definition coefficient_sum (h : qop) : R := Rsum (fun t => Cabs (fst t)) h.
(** sum of the |x_i| above the threshold, and of their contributions to the slope *)
Definition kept_size (o : qite_options) (idx : list nat) (x : nat -> R) : R := Rsum (fun i => Rabs (x i)) (big o idx x).
Definition kept_slope (o : qite_options) (strs : list (list gate)) (psi : state) (idx : list nat) (x : nat -> R) : R := Rsum (fun i => x i * b_entry o strs psi (nth i idx 0%nat)) (big o idx x).
Definition angles (o : qite_options) (strs : list (list gate)) (idx : list nat) (x : nat -> R) : list (R * list gate) :=
  map (fun i => (- (qi_db o * x i), str_at strs (nth i idx 0%nat))) (big o idx x).
Lemma idx_range o strs psi idx x gs ph psi' : Step o strs psi idx x gs ph psi' -> Forall (fun I => (I < length strs)%nat) idx.
Proof. intros H. rewrite (sp_idx _ _ _ _ _ _ _ _ H). apply Forall_forall. intros I HI. destruct (qi_sparse o); [apply filter_In in HI; destruct HI as (HI & _)|]; apply in_seq in HI; lia. Qed.
Lemma angles_strings o strs idx x n : Forall (StringOn n) strs -> Forall (fun I => (I < length strs)%nat) idx -> Forall (fun u => StringOn n (snd u)) (angles o strs idx x).
Proof.
  intros HS HI. apply Forall_forall. intros u Hu. unfold angles in Hu. apply in_map_iff in Hu. destruct Hu as (i & <- & Hi). unfold big in Hi. apply filter_In in Hi. destruct Hi as (Hi & _). apply in_seq in Hi. cbn [snd]. rewrite Forall_forall in HS, HI. apply HS, nth_In, HI, nth_In. lia.
Qed.
Lemma step_eulers o strs psi idx x gs ph psi' : QiteReady o strs -> Step o strs psi idx x gs ph psi' ->
  sscale ph psi' = TrotterProofs.eulers (repeated (angles o strs idx x) (qi_trotter o)) psi.
Proof.
  intros [_ _ _ Hr HS] H. pose proof (angles_strings o strs idx x _ HS (idx_range _ _ _ _ _ _ _ _ H)) as HA. apply seq_eq. refine (PropAnsatz.exp_product_unique _ _ _ _ (sp_exp _ _ _ _ _ _ _ _ H) _).
  assert (E : PropPy.trotter_factors C1 (qi_trotter o) (generator o strs idx x) = TrotterProofs.acting (TrotterProofs.opened (repeated (angles o strs idx x) (qi_trotter o)))).
  { rewrite PropPy.factors_acting. f_equal. unfold generator, angles, TrotterProofs.scaled, repeated, TrotterProofs.opened. rewrite concat_repeat_map, !map_map. do 2 f_equal. apply map_ext. intros u. cbn [fst snd]. f_equal. apply C_ext; cbn; ring. }
  rewrite E. apply TrotterProofs.eulers_product; [|apply seq_refl]. eapply Forall_impl; [|exact (repeated_strings _ _ (qi_trotter o) HA)]. intros t Ht. exact (string_word _ _ Ht).
Qed.
Lemma mean_scale o k psi : Cnorm2 k = 1 -> mean_energy o (sscale k psi) = mean_energy o psi.
Proof.
  intros H. unfold mean_energy. rewrite (inner_ext (qi_nqb o) (sscale k psi) (sscale k psi) (op_act (qi_ham o) (sscale k psi)) (sscale k (op_act (qi_ham o) psi)) (seq_refl _)).
  - rewrite inner_scale_l, inner_scale_r. unfold Cnorm2 in H. cbn. set (a := Re (inner _ _ _)). set (b := Im (inner _ _ _)). replace (Re k * (Re k * a - Im k * b) - - Im k * (Re k * b + Im k * a)) with ((Re k * Re k + Im k * Im k) * a) by ring. rewrite H. ring.
  - intros I. unfold op_act. rewrite (Csum_ext _ (fun t => (k * (fst t * circ_act (snd t) psi I))%C)) by (intros t _; rewrite (circ_act_scale (snd t) k psi I); unfold sscale; ring). rewrite Csum_mul_l. reflexivity.
Qed.
Theorem C75_energy_change : forall o strs psi idx x gs ph psi', QiteReady o strs -> inner (qi_nqb o) psi psi = C1 -> 0 < norm_estimate o psi -> Step o strs psi idx x gs ph psi' ->
  Rabs (mean_energy o psi' - (mean_energy o psi - 2 * qi_db o * sqrt (norm_estimate o psi) * kept_slope o strs psi idx x)) <= 2 * coefficient_sum (qi_ham o) * (qi_db o * kept_size o idx x) ^ 2.
Proof.
  intros o strs psi idx x gs ph psi' HR H1 Hc H. pose proof (step_eulers _ _ _ _ _ _ _ _ HR H) as EE. destruct HR as [_ HH _ Hr HS]. set (n := qi_nqb o) in *.
  pose proof (angles_strings o strs idx x _ HS (idx_range _ _ _ _ _ _ _ _ H)) as HA. set (L := angles o strs idx x) in *. pose proof (repeated_strings n L (qi_trotter o) HA) as HA'.
  assert (HP : Cnorm2 ph = 1).
  { pose proof (eulers_norm n _ psi HA') as HN. rewrite <- EE, norm_scale in HN. unfold norm, normsq in HN. rewrite H1, (sp_norm _ _ _ _ _ _ _ _ H : inner n psi' psi' = C1) in HN. cbn [C1 Re] in HN. rewrite sqrt_1, Rmult_1_r in HN. unfold Cabs in HN. rewrite <- (sqrt_sqrt (Cnorm2 ph)) by apply Cnorm2_nonneg. rewrite HN. ring. }
  pose proof (energy_change n (qi_ham o) _ psi HH HA' H1) as HC. rewrite <- EE in HC. rewrite (repeated_angle L) in HC by exact Hr. fold (mean_energy o (sscale ph psi')) in HC. change (energy n (qi_ham o) (sscale ph psi')) with (mean_energy o (sscale ph psi')) in HC. rewrite mean_scale in HC by exact HP. change (energy n (qi_ham o) psi) with (mean_energy o psi) in HC.
  rewrite (repeated_linear (fun s => Im (inner n (circ_act s psi) (op_act (qi_ham o) psi))) L) in HC by exact Hr.
  assert (E1 : Rsum (fun u => fst u * Im (inner n (circ_act (snd u) psi) (op_act (qi_ham o) psi))) L = - (qi_db o * sqrt (norm_estimate o psi) * kept_slope o strs psi idx x)).
  { unfold L, angles, kept_slope. rewrite Rsum_map. rewrite (Rsum_ext _ (fun i => - (qi_db o * sqrt (norm_estimate o psi)) * (x i * b_entry o strs psi (nth i idx 0%nat)))); [rewrite Rsum_scale; ring|]. intros i _. cbn [fst snd]. rewrite b_entry_eq. fold n. field. apply Rgt_not_eq, sqrt_lt_R0, Hc. }
  assert (E2 : total_angle L * total_angle L = (qi_db o * kept_size o idx x) ^ 2).
  { assert (E : total_angle L = Rabs (qi_db o) * kept_size o idx x). { unfold total_angle, L, angles, kept_size. rewrite Rsum_map, <- Rsum_scale. apply Rsum_ext. intros i _. cbn [fst]. rewrite Rabs_Ropp. apply Rabs_mult. }
    rewrite E. rewrite <- (pow2_abs (qi_db o * kept_size o idx x)), Rabs_mult. rewrite (Rabs_right (kept_size o idx x)); [ring|]. apply Rle_ge. apply Rsum_nonneg. intros. apply Rabs_pos. }
  rewrite E1, E2 in HC. change (weight (qi_ham o)) with (coefficient_sum (qi_ham o)) in HC. eapply Rle_trans; [|exact HC]. right. f_equal. ring.
Qed.
Print Assumptions C75_energy_change.
(** if the threshold drops only zero coefficients, the slope is the squared norm of the change of
    direction: the energy decreases up to terms of second order in db *)
Definition NothingDropped (o : qite_options) (idx : list nat) (x : nat -> R) : Prop := forall i, (i < length idx)%nat -> Rabs (x i) <= qi_xthr o -> x i = 0.
Lemma Rsum_filter_zero {A} (f : A -> R) p (l : list A) : (forall a, In a l -> p a = false -> f a = 0) -> Rsum f (filter p l) = Rsum f l.
Proof.
  induction l as [|a l IH]; intros H; [reflexivity|]. cbn [filter]. destruct (p a) eqn:E; rewrite ?Rsum_cons, IH by (intros; apply H; [now right|assumption]); rewrite ?Rsum_cons; [reflexivity|]. rewrite (H a (or_introl eq_refl) E). ring.
Qed.
Theorem C75_energy_decrease : forall o strs psi idx x gs ph psi', QiteReady o strs -> inner (qi_nqb o) psi psi = C1 -> 0 < norm_estimate o psi -> Step o strs psi idx x gs ph psi' -> NothingDropped o idx x ->
  mean_energy o psi' <= mean_energy o psi - 2 * qi_db o * sqrt (norm_estimate o psi) * (norm (qi_nqb o) (combination strs idx x psi)) ^ 2 + 2 * coefficient_sum (qi_ham o) * (qi_db o * kept_size o idx x) ^ 2.
Proof.
  intros o strs psi idx x gs ph psi' HR H1 Hc H HD. pose proof (C75_energy_change _ _ _ _ _ _ _ _ HR H1 Hc H) as HE.
  assert (E : kept_slope o strs psi idx x = norm (qi_nqb o) (combination strs idx x psi) ^ 2).
  { set (n := qi_nqb o). replace (norm n (combination strs idx x psi) ^ 2) with (normsq n (combination strs idx x psi)) by (rewrite <- norm_sq; ring). unfold kept_slope, big. rewrite Rsum_filter_zero.
    - symmetry. etransitivity; [apply (comb_normsq n (length idx) (fun i => circ_act (str_at strs (nth i idx 0%nat)) psi) x)|]. apply Rsum_ext. intros i Hi. apply in_seq in Hi. f_equal. rewrite <- (sp_exact _ _ _ _ _ _ _ _ H i ltac:(lia)). symmetry. apply (row n (length idx) (fun i => circ_act (str_at strs (nth i idx 0%nat)) psi) x i).
    - intros i Hi Ef. apply in_seq in Hi. rewrite (HD i); [ring|lia|]. destruct (Rltb_spec (qi_xthr o) (Rabs (x i))); [discriminate|lra]. }
  rewrite E in HE. unfold Rabs in HE. destruct (Rcase_abs _) in HE; lra.
Qed.
Print Assumptions C75_energy_decrease.
