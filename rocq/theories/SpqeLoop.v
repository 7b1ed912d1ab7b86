(** The SPQE macro-iterations. *)
From Coq Require Import Reals String List Arith NArith ZArith Bool Lia Lra Permutation Sorted.
From Verif Require Import CBase Result Bits Spec SQSpec GateModel LibProofs OperatorModel SQModel SQPhase SQProofs SQPoolSpec SQPoolModel SQPoolProofs SQPoolOps SelectModel SelectSpec SelectProofs SpqeProofs.
Import ListNotations.
Local Open Scope R_scope.

(** ---- running sums over any candidates ---- *)
Fixpoint rsel {A} (w : A -> R) (T acc : R) (l : list A) : list A :=
  match l with [] => [] | x :: r => if Rltb T (acc + w x) then x :: rsel w T (acc + w x) r else rsel w T (acc + w x) r end.
Lemma rsel_all {A} (w : A -> R) T l : forall acc, (forall x, 0 <= w x) -> T < acc -> rsel w T acc l = l.
Proof. induction l as [|x l IH]; intros acc Hw HT; cbn [rsel]; [reflexivity|]. pose proof (Hw x). destruct (Rltb_spec T (acc + w x)); [|lra]. f_equal. apply IH; [assumption|lra]. Qed.
Lemma rsel_spec {A} (w : A -> R) T l : forall acc, (forall x, 0 <= w x) -> acc <= T ->
  exists pre, l = (pre ++ rsel w T acc l)%list /\ acc + total w pre <= T /\ match rsel w T acc l with [] => True | x :: _ => T < acc + total w pre + w x end.
Proof.
  induction l as [|x l IH]; intros acc Hw HT; cbn [rsel].
  - exists []. split; [reflexivity|]. unfold total; cbn. split; [lra|exact I].
  - destruct (Rltb_spec T (acc + w x)) as [L|L].
    + exists []. unfold total; cbn [fold_right app]. split; [|split; [lra|lra]]. f_equal. symmetry. apply rsel_all; assumption.
    + destruct (IH (acc + w x) Hw) as (pre & E & H1 & H2); [lra|]. exists (x :: pre). split; [cbn [app]; f_equal; exact E|]. unfold total in *. cbn [fold_right]. split; [lra|].
      destruct (rsel w T (acc + w x) l); [exact I|lra].
Qed.
Lemma rsel_above {A} (w : A -> R) T (l c : list A) : 0 <= T -> (forall x, 0 <= w x) -> Ascending w l -> Permutation l c -> AboveCumulative w T c (rsel w T 0 l) /\ Ascending w (rsel w T 0 l).
Proof.
  intros HT Hw HS HP. destruct (rsel_spec w T l 0 Hw HT) as (pre & E & H1 & H2). set (sel := rsel w T 0 l) in *. clearbody sel. subst l. destruct (sorted_app_le _ _ _ HS) as [S1 S2]. split; [|exact S1].
  exists pre. split; [exact HP|]. split; [exact S2|]. split; [lra|]. intros b Hb. destruct sel as [|x sel]; [destruct Hb|].
  assert (w x <= w b) by (destruct Hb as [<-|Hb]; [lra|]; inversion S1 as [|? ? _ HF]; subst; rewrite Forall_forall in HF; apply HF, Hb). lra.
Qed.
Lemma rsel_in {A} (w : A -> R) T l x : forall acc, In x (rsel w T acc l) -> In x l.
Proof. induction l as [|y l IH]; intros acc; cbn [rsel]; [intros []|]. destruct (Rltb T (acc + w y)); [intros [<-|H]; [left; reflexivity|right; eapply IH, H]|intros H; right; eapply IH, H]. Qed.
Lemma rsel_nodup {A} (w : A -> R) T l : forall acc, NoDup l -> NoDup (rsel w T acc l).
Proof. induction l as [|y l IH]; intros acc HN; cbn [rsel]; [constructor|]. inversion HN; subst. destruct (Rltb T (acc + w y)); [constructor; [intros H; apply rsel_in in H; contradiction|]|]; apply IH; assumption. Qed.

(** ---- the pool as used by the loop ---- *)
Definition det (pool : spqe_pool) (p : nat) : N := nth p (map fst pool) 0%N.
Definition pool_ok (nel : nat) (rank : nat -> nat) (pool : spqe_pool) : Prop :=
  NoDup (map fst pool) /\ forall p, (p < length pool)%nat -> (1 <= rank p <= nel)%nat /\ exists t r, snd (nth p pool (0%N, [])) = t :: r /\ length (fcre t) = rank p.
Definition counts (nel : nat) (rank : nat -> nat) (nb tops : list nat) : Prop :=
  length nb = nel /\ forall r, (r < nel)%nat -> nth r nb 0%nat = length (filter (fun p => Nat.eqb (rank p) (S r)) tops).
Lemma counts_perm nel rank nb a b : Permutation a b -> counts nel rank nb a -> counts nel rank nb b.
Proof.
  intros HP [HL H]. split; [exact HL|]. intros r Hr. rewrite (H r Hr). clear - HP. induction HP; cbn [filter]; try congruence; repeat destruct (Nat.eqb _ _); cbn [length]; congruence.
Qed.

Section Pool.
Variables (nel : nat) (rank : nat -> nat) (pool : spqe_pool).
Hypothesis HP : pool_ok nel rank pool.
Let size := length pool.

Lemma det_inj p q : (p < size)%nat -> (q < size)%nat -> det pool p = det pool q -> p = q.
Proof. intros H1 H2 E. destruct HP as [HN _]. apply (proj1 (NoDup_nth (map fst pool) 0%N) HN); rewrite ?map_length; assumption. Qed.
Lemma pool_idx_det p : (p < size)%nat -> pool_idx (det pool p) pool = Ok p.
Proof.
  assert (HN : NoDup (map fst pool)) by apply HP. unfold size, det. clear HP size. revert p. induction pool as [|e l IH]; intros p H; [cbn in H; lia|]. cbn [map] in *. inversion HN as [|? ? HI HN']; subst. cbn [pool_idx]. destruct p as [|p]; cbn [nth].
  - rewrite N.eqb_refl. reflexivity.
  - cbn [length] in H. destruct (N.eqb_spec (nth p (map fst l) 0%N) (fst e)) as [E|_]; [exfalso; apply HI; rewrite <- E; apply nth_In; rewrite map_length; lia|]. rewrite IH by (assumption || lia). reflexivity.
Qed.
Lemma coeff_idx_det p : (p < size)%nat -> coeff_idx pool p = Ok (det pool p).
Proof.
  intros H. unfold coeff_idx, det. rewrite (nth_error_nth' pool (0%N, []) H). rewrite (nth_indep _ 0%N (fst (0%N, @nil fterm))) by (rewrite map_length; exact H). rewrite map_nth. reflexivity.
Qed.
Lemma used_dets tops : Forall (fun p => (p < size)%nat) tops -> mapM (coeff_idx pool) tops = Ok (map (det pool) tops).
Proof. induction 1 as [|p l Hp _ IH]; [reflexivity|]. cbn [mapM map]. rewrite (coeff_idx_det p Hp). cbn [bind]. rewrite IH. reflexivity. Qed.
Lemma unused_dets tops : Forall (fun p => (p < size)%nat) tops ->
  filter (fun I => negb (existsb (N.eqb I) (map (det pool) tops))) (map fst pool) = map (det pool) (unused size tops).
Proof.
  intros HF. unfold unused. assert (E : map fst pool = map (det pool) (seq 0 size)).
  { apply (list_ext 0%N); [rewrite !map_length, seq_length; reflexivity|]. intros i Hi. rewrite map_length in Hi. rewrite (nth_indep (map (det pool) _) 0%N (det pool 0)) by (rewrite map_length, seq_length; exact Hi). rewrite map_nth, seq_nth by exact Hi. reflexivity. }
  rewrite E. assert (HS : forall p, In p (seq 0 size) -> (p < size)%nat) by (intros p Hp; apply in_seq in Hp; lia). clear E. induction (seq 0 size) as [|p l IH]; [reflexivity|]. cbn [map filter].
  assert (EE : existsb (N.eqb (det pool p)) (map (det pool) tops) = existsb (Nat.eqb p) tops).
  { clear IH. assert (Hp : (p < size)%nat) by (apply HS; left; reflexivity). induction HF as [|q t Hq _ IHt]; [reflexivity|]. cbn [map existsb]. rewrite IHt. f_equal.
    destruct (N.eqb_spec (det pool p) (det pool q)) as [e|n]; [symmetry; apply Nat.eqb_eq, det_inj; assumption|symmetry; apply Nat.eqb_neq; congruence]. }
  rewrite EE. destruct (existsb (Nat.eqb p) tops); cbn [negb map]; rewrite IH by (intros; apply HS; right; assumption); reflexivity.
Qed.
Lemma mem_spec p l : mem p l = true <-> In p l.
Proof. unfold mem. rewrite existsb_exists. split; [intros (x & Hx & E); apply Nat.eqb_eq in E; subst; exact Hx|intros H; exists p; split; [exact H|apply Nat.eqb_refl]]. Qed.
Lemma unused_in tops p : In p (unused size tops) <-> (p < size)%nat /\ ~ In p tops.
Proof.
  unfold unused. rewrite filter_In, in_seq, negb_true_iff. fold (mem p tops). rewrite <- (mem_spec p tops). destruct (mem p tops); split; intros [H1 H2]; split; try lia; try discriminate; try reflexivity; congruence.
Qed.
Lemma unused_nodup tops : NoDup (unused size tops).
Proof. apply NoDup_filter, seq_NoDup. Qed.
(** the sorted residual list, by position *)
Lemma residuals_spec coeff tops : Forall (fun p => (p < size)%nat) tops ->
  exists P, residuals pool coeff tops = Ok (map (fun p => (abs_sq (coeff (det pool p)), det pool p)) P) /\ Permutation P (unused size tops) /\ Ascending (fun p => abs_sq (coeff (det pool p))) P.
Proof.
  intros HF. unfold residuals. rewrite (used_dets tops HF). cbn [bind]. rewrite (unused_dets tops HF). rewrite map_map. set (F := fun p => (abs_sq (coeff (det pool p)), det pool p)).
  destruct (Permutation_map_inv F _ (tuple_sort_perm (map F (unused size tops)))) as (P & E & HPm). exists P. rewrite E. split; [reflexivity|]. split; [symmetry; exact HPm|].
  pose proof (tuple_sort_sorted (map F (unused size tops))) as HS. rewrite E in HS. clear - HS. induction P as [|p P IH]; [constructor|]. cbn [map] in HS. inversion HS as [|? ? H1 H2]; subst. constructor; [apply IH, H1|].
  rewrite Forall_map in H2. exact H2.
Qed.
Lemma count_rank_ok p nb tops : (p < size)%nat -> counts nel rank nb tops -> exists nb', count_rank pool p nb = Ok nb' /\ counts nel rank nb' (p :: tops).
Proof.
  intros Hp [HL HC]. destruct HP as [_ HR]. destruct (HR p Hp) as (Hr & t & r & Et & Ert). unfold count_rank. rewrite (nth_error_nth' pool (0%N, []) Hp). rewrite Et, Ert. destruct (rank p) as [|k] eqn:ER; [lia|].
  rewrite (nth_error_nth' nb 0%nat) by lia. eexists. split; [reflexivity|]. split; [rewrite list_set_length; exact HL|]. intros i Hi. rewrite nth_list_set by lia. cbn [filter]. rewrite ER. cbn [Nat.eqb]. rewrite (Nat.eqb_sym k i). destruct (Nat.eqb_spec i k) as [->|n]; cbn [length]; [rewrite (HC k Hi)|rewrite (HC i Hi)]; reflexivity.
Qed.
(** the cumulative loop *)
Lemma cumulative_loop o coeff tops : sp_dt o <> 0 -> forall P acc tmp nb, Forall (fun p => (p < size)%nat /\ ~ In p tops) P -> counts nel rank nb (tmp ++ tops) ->
  let w := fun p => abs_sq (coeff (det pool p)) / (sp_dt o * sp_dt o) in let T := spqe_thresh o * spqe_thresh o in
  exists nb' acc', foreach (map (fun p => (abs_sq (coeff (det pool p)), det pool p)) P) (cumulative_body o pool tops) (acc, tmp, nb) = Ok (acc', (tmp ++ rsel w T acc P)%list, nb') /\ counts nel rank nb' ((tmp ++ rsel w T acc P) ++ tops).
Proof.
  intros Hdt P. induction P as [|p P IH]; intros acc tmp nb HF HC w T.
  - exists nb, acc. cbn [map foreach rsel]. rewrite app_nil_r. split; [reflexivity|exact HC].
  - inversion HF as [|? ? [Hp Hn] HF']; subst. cbn [map foreach rsel]. unfold cumulative_body at 1. cbn [fst snd]. fold T. fold (w p). destruct (Rltb T (acc + w p)).
    + rewrite (pool_idx_det p Hp). cbn [bind]. destruct (mem p tops) eqn:EM; [apply mem_spec in EM; contradiction|]. destruct (count_rank_ok p nb _ Hp HC) as (nb1 & -> & HC1). cbn [bind].
      assert (HC2 : counts nel rank nb1 ((tmp ++ [p]) ++ tops)) by (eapply counts_perm; [|exact HC1]; rewrite <- app_assoc; cbn [app]; apply Permutation_middle).
      destruct (IH (acc + w p) (tmp ++ [p])%list nb1 HF' HC2) as (nb' & acc' & E & HC'). exists nb', acc'. assert (EA : forall x, ((tmp ++ [p]) ++ x)%list = (tmp ++ p :: x)%list) by (intros x; rewrite <- app_assoc; reflexivity). rewrite !EA in HC'. rewrite EA in E. split; [exact E|exact HC'].
    + cbn [bind]. apply IH; assumption.
Qed.
Lemma insert_all_spec l : forall t a, insert_all l (t, a) = ((rev l ++ t)%list, (repeat 0 (length l) ++ a)%list).
Proof.
  unfold insert_all. induction l as [|x l IH]; intros t a; [reflexivity|]. cbn [fold_left fst snd rev length repeat]. rewrite IH. rewrite <- app_assoc. cbn [app]. f_equal. generalize (length l). intros n. induction n as [|n IHn]; [reflexivity|]. cbn [repeat app]. rewrite IHn. reflexivity.
Qed.
(** ---- what one iteration may add ---- *)
Definition Chosen (o : spqe_opts) (w : nat -> R) (tops new : list nat) : Prop :=
  if sp_cumulative o then AboveCumulative w (spqe_thresh o * spqe_thresh o) (unused size tops) new /\ Ascending w new
  else (unused size tops = [] /\ new = []) \/ exists p, new = [p] /\ In p (unused size tops) /\ forall q, In q (unused size tops) -> w q <= w p.
Lemma abs_sq_nonneg c : 0 <= abs_sq c.
Proof. unfold abs_sq, Cmul, Cconj. destruct c as [x y]. cbn [Re Im]. pose proof (Rle_0_sqr x) as H1. pose proof (Rle_0_sqr y) as H2. unfold Rsqr in *. lra. Qed.
Lemma sq_pos x : x <> 0 -> 0 < x * x.
Proof. intros H. destruct (Rtotal_order x 0) as [L|[L|L]]; [|contradiction|]; nra. Qed.
Lemma chosen_subset o w tops new : Chosen o w tops new -> forall p, In p new -> In p (unused size tops).
Proof.
  unfold Chosen. destruct (sp_cumulative o).
  - intros [(rest & HPm & _) _] p Hp. eapply Permutation_in; [exact HPm|]. apply in_or_app. right. exact Hp.
  - intros [[_ ->]|(q & -> & Hq & _)] p Hp; [destruct Hp|]. destruct Hp as [<-|[]]. exact Hq.
Qed.
Lemma chosen_nodup o w tops new : Chosen o w tops new -> NoDup new.
Proof.
  unfold Chosen. destruct (sp_cumulative o).
  - intros [(rest & HPm & _) _]. assert (HN : NoDup (rest ++ new)) by (eapply Permutation_NoDup; [symmetry; exact HPm|apply unused_nodup]). clear - HN. induction rest as [|x r IH]; [exact HN|]. inversion HN; subst. apply IH; assumption.
  - intros [[_ ->]|(q & -> & _)]; repeat constructor. intros [].
Qed.
Definition inv (s : sstate) : Prop := NoDup (s_tops s) /\ Forall (fun p => (p < size)%nat) (s_tops s) /\ counts nel rank (s_nbody s) (s_tops s).
Definition weight_of (o : spqe_opts) (coeff : N -> C) (p : nat) : R := abs_sq (coeff (det pool p)) / (sp_dt o * sp_dt o).
Lemma weight_nonneg o coeff p : sp_dt o <> 0 -> 0 <= weight_of o coeff p.
Proof. intros H. apply sq_pos in H. unfold weight_of. apply Rmult_le_pos; [apply abs_sq_nonneg|]. left. apply Rinv_0_lt_compat, H. Qed.
Lemma update_spec o coeff iter s : sp_dt o <> 0 -> inv s ->
  let cs := spqe_conv o pool (total (weight_of o coeff) (unused size (s_tops s))) iter s in
  exists s', spqe_update o pool coeff iter s = Ok s' /\ s_conv s' = fst cs /\ s_stop s' = snd cs /\ s_energies s' = s_energies s /\ s_ncnot s' = s_ncnot s /\
    if fst cs then s_tops s' = s_tops s /\ s_tamps s' = s_tamps s /\ s_nbody s' = s_nbody s /\ s_nparams s' = s_nparams s
    else exists new, Chosen o (weight_of o coeff) (s_tops s) new /\ s_tops s' = (new ++ s_tops s)%list /\ s_tamps s' = (repeat 0 (length new) ++ s_tamps s)%list /\
      counts nel rank (s_nbody s') (s_tops s') /\ s_nparams s' = (s_nparams s ++ [length (s_tops s')])%list.
Proof.
  intros Hdt (HN & HF & HC). cbv zeta. unfold spqe_update. destruct (residuals_spec coeff (s_tops s) HF) as (P & -> & HPm & HA). cbn [bind].
  assert (EN : fold_left (fun a (r : R * N) => a + fst r) (map (fun p => (abs_sq (coeff (det pool p)), det pool p)) P) 0 / (sp_dt o * sp_dt o) = total (weight_of o coeff) (unused size (s_tops s))).
  { rewrite <- (total_perm _ _ _ HPm). assert (G : forall l a, fold_left (fun a (r : R * N) => a + fst r) (map (fun p => (abs_sq (coeff (det pool p)), det pool p)) l) a / (sp_dt o * sp_dt o) = a / (sp_dt o * sp_dt o) + total (weight_of o coeff) l).
    { induction l as [|p l IH]; intros a; cbn [map fold_left]; [unfold total; cbn [fold_right]; lra|]. rewrite IH. unfold total. cbn [fold_right]. unfold weight_of at 2. cbn [fst]. unfold Rdiv. lra. }
    rewrite G. unfold Rdiv. lra. }
  rewrite EN. set (cs := spqe_conv o pool _ iter s). destruct (fst cs) eqn:EC.
  - eexists. split; [reflexivity|]. cbn. rewrite ?EC. repeat split.
  - assert (HU : Forall (fun p => (p < size)%nat /\ ~ In p (s_tops s)) P).
    { apply Forall_forall. intros p Hp. apply unused_in. eapply Permutation_in; eassumption. }
    assert (HAw : Ascending (weight_of o coeff) P).
    { clear - HA Hdt. unfold Ascending in *. apply sq_pos in Hdt. induction HA as [|p l HS IH HFl]; constructor; [exact IH|]. eapply Forall_impl; [|exact HFl]. intros q Hq. cbn beta in Hq. unfold weight_of, Rdiv. apply Rmult_le_compat_r; [|exact Hq]. left. apply Rinv_0_lt_compat, Hdt. }
    destruct (sp_cumulative o) eqn:ECum.
    + destruct (cumulative_loop o coeff (s_tops s) Hdt P 0 [] (s_nbody s) HU HC) as (nb' & acc' & -> & HC'). cbn [bind fst snd app] in *. rewrite insert_all_spec, rev_involutive, rev_length. cbn [fst snd].
      eexists. split; [reflexivity|]. cbn [s_conv s_stop s_energies s_ncnot s_tops s_tamps s_nbody s_nparams]. rewrite ?EC. repeat (split; [reflexivity|]).
      eexists. split; [|split; [reflexivity|split; [reflexivity|split; [exact HC'|reflexivity]]]]. unfold Chosen. rewrite ECum. apply (rsel_above _ _ P); [apply Rle_0_sqr|intros; apply weight_nonneg, Hdt|exact HAw|exact HPm].
    + destruct P as [|p0 P0] eqn:EP.
      * cbn [map rev single_loop bind fst snd]. eexists. split; [reflexivity|]. cbn [s_conv s_stop s_energies s_ncnot s_tops s_tamps s_nbody s_nparams]. rewrite ?EC. repeat (split; [reflexivity|]).
        exists []. cbn [app length repeat]. split; [unfold Chosen; rewrite ECum; left; split; [apply Permutation_nil; exact HPm|reflexivity]|]. repeat split; try reflexivity; apply HC.
      * assert (HE : P <> []) by (rewrite EP; discriminate). rewrite <- EP in *. clear EP p0 P0. destruct (exists_last HE) as (P' & p & E). rewrite E, map_app, rev_app_distr. cbn [map rev app single_loop fst snd].
        assert (Hp : In p P) by (rewrite E; apply in_or_app; right; left; reflexivity). rewrite Forall_forall in HU. destruct (HU p Hp) as [Hlt Hnin]. rewrite (pool_idx_det p Hlt). cbn [bind].
        destruct (mem p (s_tops s)) eqn:EM; [apply mem_spec in EM; contradiction|]. destruct (count_rank_ok p _ _ Hlt HC) as (nb1 & -> & HC1). cbn [bind fst snd]. eexists. split; [reflexivity|].
        cbn [s_conv s_stop s_energies s_ncnot s_tops s_tamps s_nbody s_nparams]. rewrite ?EC. repeat (split; [reflexivity|]). exists [p]. split.
        -- unfold Chosen. rewrite ECum. right. exists p. split; [reflexivity|]. split; [eapply Permutation_in; eassumption|]. intros q Hq. apply (Permutation_in q (Permutation_sym HPm)) in Hq.
           rewrite E in HAw, Hq. unfold Ascending in HAw. destruct (sorted_app_le _ _ _ HAw) as [_ HS]. apply in_app_or in Hq. destruct Hq as [Hq|[<-|[]]]; [apply HS; [exact Hq|left; reflexivity]|lra].
        -- cbn [app length repeat]. repeat split; try reflexivity; apply HC1.
Qed.
End Pool.

(** ---- the whole loop ---- *)
Section Loop.
Variables (nel : nat) (rank : nat -> nat) (pool : spqe_pool) (o : spqe_opts) (coeff : nat -> list nat -> list R -> N -> C) (solve : spqe_solver).
Hypotheses (HP : pool_ok nel rank pool) (Hdt : sp_dt o <> 0).
Notation size := (length pool).
Definition weights (k : nat) (tops : list nat) (tamps : list R) : nat -> R := weight_of pool o (coeff k tops tamps).
Definition keeps : Prop := forall k tops t, length (snd (fst (solve k tops t))) = length t.
Definition linv (k : nat) (s : sstate) : Prop :=
  Selected weights solve (Chosen pool o) k (s_tops s) (s_tamps s) (s_energies s) /\ inv nel rank pool s /\
  length (s_energies s) = k /\ length (s_nparams s) = k /\ length (s_ncnot s) = k /\ last (s_nparams s) 0%nat = length (s_tops s) /\ (keeps -> length (s_tamps s) = length (s_tops s)).
Definition limit : nat := S (Z.to_nat (spqe_maxiter o)).
Definition stopped (k : nat) (s : sstate) : Prop :=
  total (weights (S k) (s_tops s) (s_tamps s)) (unused size (s_tops s)) < spqe_thresh o * spqe_thresh o \/ length (s_tops s) = size \/ k = limit.
Lemma spqe_loop_spec : forall fuel k s, linv k s -> s_conv s = false -> (s_stop s = true -> k = limit) -> (s_stop s = false -> k < limit)%nat -> (limit - k < fuel)%nat ->
  exists s' k', spqe_loop o pool coeff solve fuel (S k) s = Ok s' /\ linv k' s' /\ (k <= k' <= limit)%nat /\ stopped k' s' /\
    (k' = k -> s_stop s = false -> total (weights (S k) (s_tops s) (s_tamps s)) (unused size (s_tops s)) < spqe_thresh o * spqe_thresh o \/ length (s_tops s) = size).
Proof.
  induction fuel as [|fuel IH]; intros k s HI HC HS1 HS2 Hf; [lia|]. cbn [spqe_loop]. destruct (s_stop s) eqn:ES.
  - exists s, k. split; [reflexivity|]. split; [exact HI|]. split; [specialize (HS1 eq_refl); lia|]. split; [right; right; apply HS1; reflexivity|discriminate].
  - specialize (HS2 eq_refl). destruct HI as (I1 & I2 & I3 & I4 & I5 & I6 & I7).
    destruct (update_spec nel rank pool HP o (coeff (S k) (s_tops s) (s_tamps s)) (S k) s Hdt I2) as (s1 & -> & U1 & U2 & U3 & U4 & U5). cbn [bind].
    fold (weights (S k) (s_tops s) (s_tamps s)) in *. unfold spqe_conv in *. set (tot := total _ _) in *.
    assert (Htot : 0 <= tot) by (apply total_pos; intros p; apply weight_nonneg, Hdt). rewrite (Rabs_right tot) in * by lra. rewrite (Rabs_right (spqe_thresh o * spqe_thresh o)) in * by (apply Rle_ge, Rle_0_sqr).
    assert (HDone : fst (s_conv s1, s_stop s1) = true -> s_tops s1 = s_tops s /\ s_tamps s1 = s_tamps s /\ s_nbody s1 = s_nbody s /\ s_nparams s1 = s_nparams s -> linv k s1).
    { intros _ (T1 & T2 & T3 & T4). unfold linv, inv. rewrite T1, T2, T3, T4, U3, U4. split; [exact I1|]. split; [exact I2|]. auto. }
    assert (HStep : (exists new, Chosen pool o (weights (S k) (s_tops s) (s_tamps s)) (s_tops s) new /\ s_tops s1 = (new ++ s_tops s)%list /\ s_tamps s1 = (repeat 0 (length new) ++ s_tamps s)%list /\
      counts nel rank (s_nbody s1) (s_tops s1) /\ s_nparams s1 = (s_nparams s ++ [length (s_tops s1)])%list) -> linv (S k) (spqe_solve solve (S k) s1)).
    { intros (new & C1' & T1 & T2 & T3 & T4). unfold linv, inv, spqe_solve. cbn [s_tops s_tamps s_energies s_nbody s_nparams s_ncnot]. rewrite T1, T2, U3, U4, T4. destruct I2 as (N1 & N2 & N3). split; [|split; [split; [|split]|split; [|split; [|split; [|split]]]]].
      - apply (selected_step weights solve (Chosen pool o) k (s_tops s) (s_tamps s) (s_energies s) new I1 C1').
      - pose proof (chosen_nodup pool _ _ _ _ C1') as ND. pose proof (chosen_subset pool _ _ _ _ C1') as HSub. clear - N1 ND HSub.
        induction ND as [|x l Hx ND IH]; [exact N1|]. cbn [app]. constructor; [|apply IH; intros; apply HSub; right; assumption]. intros H. apply in_app_or in H. destruct H as [H|H]; [contradiction|]. specialize (HSub x (or_introl eq_refl)). apply unused_in in HSub. destruct HSub. contradiction.
      - apply Forall_app. split; [|exact N2]. apply Forall_forall. intros p Hp. apply (chosen_subset pool _ _ _ _ C1') in Hp. apply unused_in in Hp. apply Hp.
      - rewrite <- T1. exact T3.
      - rewrite app_length. cbn [length]. lia.
      - rewrite app_length. cbn [length]. lia.
      - rewrite app_length. cbn [length]. lia.
      - rewrite last_last, T1. reflexivity.
      - intros HK. rewrite HK, !app_length, repeat_length, I7 by exact HK. reflexivity. }
    destruct (Rltb_spec tot (spqe_thresh o * spqe_thresh o)) as [L|L].
    + cbn [fst snd] in *. rewrite U1. exists s1, k. split; [reflexivity|]. split; [apply HDone; [exact U1|exact U5]|]. split; [lia|]. destruct U5 as (T1 & T2 & _). split; [left; rewrite T1, T2; exact L|]. intros _ _. left. exact L.
    + destruct (Z.ltb_spec (spqe_maxiter o) (Z.of_nat (S k))) as [LZ|LZ].
      * cbn [fst snd] in *. rewrite U1. assert (EL : S k = limit) by (unfold limit in *; lia). destruct fuel as [|fuel]; [lia|]. cbn [spqe_loop].
        assert (ESt : s_stop (spqe_solve solve (S k) s1) = true) by exact U2. rewrite ESt. eexists. exists (S k). split; [reflexivity|]. split; [apply HStep, U5|]. split; [lia|]. split; [right; right; exact EL|]. intros; lia.
      * destruct (Nat.eqb_spec (length (s_tops s)) size) as [LD|LD].
        -- cbn [fst snd] in *. rewrite U1. exists s1, k. split; [reflexivity|]. split; [apply HDone; [exact U1|exact U5]|]. split; [lia|]. destruct U5 as (T1 & _). split; [right; left; rewrite T1; exact LD|]. intros _ _. right. exact LD.
        -- cbn [fst snd] in *. rewrite HC in *. rewrite U1. rewrite ES in *. destruct (IH (S k) (spqe_solve solve (S k) s1)) as (s' & k' & E & R1 & R2 & R3 & R4).
           ++ apply HStep, U5.
           ++ exact U1.
           ++ intros E. unfold spqe_solve in E. cbn in E. congruence.
           ++ intros _. unfold limit in *. lia.
           ++ lia.
           ++ exists s', k'. split; [exact E|]. split; [exact R1|]. split; [lia|]. split; [exact R3|]. intros; lia.
Qed.
End Loop.
