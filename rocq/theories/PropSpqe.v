(** Property theorems C46 (SPQE operator pool and selection). *)
From Coq Require Import Reals String List Arith NArith ZArith Bool Lia Lra Permutation Sorted.
From Verif Require Import CBase Result Bits Spec SQSpec GateModel LibProofs OperatorModel SQModel SQPhase SQProofs SQPoolSpec SQPoolModel SQPoolProofs SQPoolOps SelectModel SelectSpec SelectProofs SpqeProofs SpqeLoop.
From Verif Require PropAdapt PropSQ.
Import ListNotations.
Local Open Scope R_scope.

(** the occupation list [ref] of 2m <= 64 spin orbitals as a determinant *)
Definition RefOf (m : nat) (ref : list bool) (R : N) : Prop := length ref = (2 * m)%nat /\ (2 * m <= 64)%nat /\ (R < 2 ^ N.of_nat (2 * m))%N /\ forall p, occ R p = nth p ref false.
Definition nelectrons (m : nat) (R : N) : nat := (electrons 0 m R + electrons 1 m R)%nat.
(** the highest excitation rank: as requested, but not more than there are electrons *)
Definition rank_limit (req : option Z) (nel : nat) : nat := match req with None => nel | Some r => Nat.min nel (Z.to_nat r) end.
(** D: same numbers of alpha and beta electrons as R, of the target irrep, and 1 .. max moved *)
Definition Target (m : nat) (irreps : list N) (irrep : N) (max : nat) (R D : N) : Prop :=
  (D < 2 ^ N.of_nat (2 * m))%N /\ (forall s, (s < 2)%nat -> electrons s m D = electrons s m R) /\
  total_irrep irreps (orbitals (occ D) (2 * m)) = irrep /\ (1 <= length (holes R D (2 * m)) <= max)%nat.
(** the pool: one T - T^dagger for each target determinant, in increasing order *)
Definition PoolOf (m : nat) (irreps : list N) (irrep : N) (max : nat) (R : N) (pool : list (N * list fterm)) : Prop :=
  StronglySorted N.lt (map fst pool) /\ (forall D, In D (map fst pool) <-> Target m irreps irrep max R D) /\
  Forall (fun e => Permutation (snd e) (excitation R (fst e) (2 * m))) pool.

Lemma ref_unique m ref R : RefOf m ref R -> R = spqe_ref ref.
Proof. intros (_ & _ & _ & HB). apply N.bits_inj. intros q. rewrite <- (N2Nat.id q). fold (occ R (N.to_nat q)). fold (occ (spqe_ref ref) (N.to_nat q)). rewrite HB, spqe_ref_bit. reflexivity. Qed.
Lemma in_pool_spec m irreps irrep max R D : (D < 2 ^ N.of_nat (2 * m))%N -> (in_pool m irreps irrep max R D = true <-> Target m irreps irrep max R D).
Proof.
  intros HD. unfold in_pool, Target. rewrite !andb_true_iff, !Nat.eqb_eq, N.eqb_eq, negb_true_iff, Nat.eqb_neq, Nat.leb_le. split.
  - intros [[[H0 H1] H2] [H3 H4]]. split; [exact HD|]. split; [intros [|[|s]] Hs; [exact H0|exact H1|lia]|]. split; [exact H2|lia].
  - intros (_ & HE & HI & HR). rewrite (HE 0%nat), (HE 1%nat) by lia. repeat split; auto; lia.
Qed.
Theorem C46_pool : forall srt m ref R irreps irrep req, legal_sort srt -> RefOf m ref R -> (m <= length irreps)%nat ->
  (forall r, req = Some r -> (0 < r)%Z) ->
  exists pool, build_pool srt ref irreps irrep req = Ok pool /\ PoolOf m irreps irrep (rank_limit req (nelectrons m R)) R pool.
Proof.
  intros srt m ref R irreps irrep req HS HR HI HQ. pose proof (ref_unique m ref R HR) as ER. destruct HR as (HL & H64 & HlR & HB). unfold build_pool. destruct (count_every_spec m ref HL) as [-> ->]. rewrite <- ER. fold (nelectrons m R).
  assert (E : spqe_rank req (nelectrons m R) = Ok (rank_limit req (nelectrons m R))).
  { unfold spqe_rank, rank_limit. destruct req as [r|]; [|reflexivity]. specialize (HQ r eq_refl). destruct (Z.leb_spec r 0); [lia|]. f_equal. destruct (Z.ltb_spec (Z.of_nat (nelectrons m R)) r); lia. }
  rewrite E. cbn [bind]. set (max := rank_limit _ _). rewrite HL.
  destruct (pool_entries srt ref m irreps irrep max HS HL H64 HI (all_dets (2 * m)) []) as (pool & EF & EM & HF); [intros D HD; apply all_dets_in; exact HD|]. rewrite <- ER in *. exists pool. split; [exact EF|]. unfold PoolOf. rewrite EM. split; [|split].
  - apply filter_sorted, all_dets_sorted.
  - intros D. rewrite filter_In, all_dets_in. split; [intros [HD HM]; apply in_pool_spec; assumption|]. intros HT. assert (HD : (D < 2 ^ N.of_nat (2 * m))%N) by apply HT. split; [exact HD|]. apply in_pool_spec; assumption.
  - exact HF.
Qed.
Print Assumptions C46_pool.
Theorem C46_rank_request_rejected : forall srt ref irreps irrep r, (r <= 0)%Z -> build_pool srt ref irreps irrep (Some r) = Throw (PyError "TypeError").
Proof. intros srt ref irreps irrep r H. unfold build_pool, spqe_rank. destruct (Z.leb_spec r 0); [reflexivity|lia]. Qed.
Print Assumptions C46_rank_request_rejected.

(** ---- a run ---- *)
(** rank of the pool operator at position p *)
Definition pool_rank (m : nat) (R : N) (pool : list (N * list fterm)) (p : nat) : nat := length (holes R (nth p (map fst pool) 0%N) (2 * m)).
(** squared residual of the determinant at pool position p *)
Definition residual (dt : R) (pool : list (N * list fterm)) (coeff : nat -> list nat -> list R -> N -> C) (k : nat) (tops : list nat) (tamps : list R) (p : nat) : R :=
  let c := coeff k tops tamps (nth p (map fst pool) 0%N) in (Re c * Re c + Im c * Im c) / (dt * dt).
(** cumulative mode: the unused operators above the cumulative threshold, smallest first *)
Definition CumulativeChoice (size : nat) (thresh : R) (w : nat -> R) (tops new : list nat) : Prop :=
  AboveCumulative w (thresh * thresh) (unused size tops) new /\ Ascending w new.
(** single mode: an unused operator of largest residual (none when all are used) *)
Definition SingleChoice (size : nat) (w : nat -> R) (tops new : list nat) : Prop :=
  (unused size tops = [] /\ new = []) \/ exists p, new = [p] /\ In p (unused size tops) /\ forall q, In q (unused size tops) -> w q <= w p.
Definition Choice (o : spqe_opts) (size : nat) : (nat -> R) -> list nat -> list nat -> Prop :=
  if sp_cumulative o then CumulativeChoice size (spqe_thresh o) else SingleChoice size.
Record SpqeResult (m : nat) (R0 : N) (o : spqe_opts) coeff solve (pool : list (N * list fterm)) (s : sstate) (E : R) (k : nat) : Prop := {
  res_history : Selected (residual (sp_dt o) pool coeff) solve (Choice o (length pool)) k (s_tops s) (s_tamps s) (s_energies s);
  res_once : NoDup (s_tops s);
  res_pool : Forall (fun p => (p < length pool)%nat) (s_tops s);
  res_lengths : length (s_tamps s) = length (s_tops s) /\ length (s_energies s) = k /\ length (s_nparams s) = k /\ length (s_ncnot s) = k /\ last (s_nparams s) 0%nat = length (s_tops s);
  (* the n-body counts count the operators in the ansatz *)
  res_nbody : length (s_nbody s) = nelectrons m R0 /\ forall r, (1 <= r <= nelectrons m R0)%nat -> nth (r - 1) (s_nbody s) 0%nat = length (filter (fun p => Nat.eqb (pool_rank m R0 pool p) r) (s_tops s));
  res_iterations : (1 <= k <= S (Z.to_nat (spqe_maxiter o)))%nat;
  res_stop : total (residual (sp_dt o) pool coeff (S k) (s_tops s) (s_tamps s)) (unused (length pool) (s_tops s)) < spqe_thresh o * spqe_thresh o \/
    length (s_tops s) = length pool \/ k = S (Z.to_nat (spqe_maxiter o));
  res_energy : E = last (s_energies s) 0 }.

Lemma residual_weight o pool coeff : weights pool o coeff = residual (sp_dt o) pool coeff.
Proof.
  apply FunctionalExtensionality.functional_extensionality. intros k. apply FunctionalExtensionality.functional_extensionality. intros tops. apply FunctionalExtensionality.functional_extensionality. intros tamps. apply FunctionalExtensionality.functional_extensionality. intros p.
  unfold weights, weight_of, residual, det, abs_sq. destruct (coeff k tops tamps _) as [x y]. unfold Cmul, Cconj; cbn [Re Im]. f_equal. lra.
Qed.
Lemma choice_chosen o pool : Chosen pool o = Choice o (length pool).
Proof. unfold Chosen, Choice. destruct (sp_cumulative o); reflexivity. Qed.
Lemma pool_is_ok m irreps irrep max R pool : (max <= nelectrons m R)%nat -> PoolOf m irreps irrep max R pool -> pool_ok (nelectrons m R) (pool_rank m R pool) pool.
Proof.
  intros HM (H1 & H2 & H3). split.
  - clear - H1. induction H1 as [|x l HS IH HF]; constructor; [|exact IH]. intros HIn. rewrite Forall_forall in HF. specialize (HF x HIn). lia.
  - intros p Hp. assert (HIn : In (nth p (map fst pool) 0%N) (map fst pool)) by (apply nth_In; rewrite map_length; exact Hp). apply H2 in HIn. destruct HIn as (HD & HE & HI & HR). unfold pool_rank. split; [lia|].
    rewrite Forall_forall in H3. specialize (H3 (nth p pool (0%N, [])) (nth_In pool _ Hp)).
    rewrite (nth_indep _ 0%N (fst (0%N, @nil fterm))) in * by (rewrite map_length; exact Hp). rewrite map_nth in *. set (D := fst (nth p pool (0%N, []))) in *.
    assert (HLen : length (particles R D (2 * m)) = length (holes R D (2 * m))).
    { pose proof (hole_count R D (2 * m)) as H. rewrite !electron_count in H. rewrite (HE 0%nat), (HE 1%nat) in H by lia. lia. }
    destruct (snd (nth p pool (0%N, []))) as [|t r] eqn:Es; [apply Permutation_nil_cons in H3; destruct H3|]. exists t, r. split; [reflexivity|].
    assert (Ht : In t (excitation R D (2 * m))) by (eapply Permutation_in; [exact H3|left; reflexivity]). unfold excitation in Ht. destruct Ht as [<-|[<-|[]]]; unfold fcre; cbn [fst snd]; lia.
Qed.
Lemma rank_limit_le req n : (rank_limit req n <= n)%nat.
Proof. unfold rank_limit. destruct req; lia. Qed.
Lemma count_zero n rank : counts n rank (repeat 0%nat n) [].
Proof. split; [apply repeat_length|]. intros r Hr. cbn. apply nth_repeat. Qed.

(** every residual history and every optimiser, M_omega = 'inf' *)
Theorem C46_run_partial : forall srt m ref R irreps irrep req o coeff solve, legal_sort srt -> RefOf m ref R -> (m <= length irreps)%nat -> (forall r, req = Some r -> (0 < r)%Z) ->
  sp_dt o <> 0 -> PropAdapt.KeepsLength solve ->
  exists pool, PoolOf m irreps irrep (rank_limit req (nelectrons m R)) R pool /\
  (* unless there is nothing to do at the start *)
  (pool <> [] -> spqe_thresh o * spqe_thresh o <= total (residual (sp_dt o) pool coeff 1 [] []) (seq 0 (length pool)) ->
   exists s E k, spqe_run srt o ref irreps irrep req coeff solve = Ok (pool, s, E) /\ SpqeResult m R o coeff solve pool s E k).
Proof.
  intros srt m ref R irreps irrep req o coeff solve HS HR HI HQ Hdt HK. destruct (C46_pool srt m ref R irreps irrep req HS HR HI HQ) as (pool & EP & HPool). exists pool. split; [exact HPool|]. intros Hne H0.
  unfold spqe_run. rewrite EP. cbn [bind]. pose proof (pool_is_ok _ _ _ _ _ _ (rank_limit_le req _) HPool) as HOK.
  assert (Hun : unused (length pool) [] = seq 0 (length pool)) by (unfold unused; cbn [existsb negb]; clear; induction (seq 0 (length pool)) as [|x l IH]; [reflexivity|]; cbn [filter]; rewrite IH; reflexivity).
  destruct (spqe_loop_spec (nelectrons m R) (pool_rank m R pool) pool o coeff solve HOK Hdt (S (S (S (Z.to_nat (spqe_maxiter o))))) 0 (spqe_init ref)) as (s & k & EL & HLv & Hk & HSt & HZ).
  - unfold linv, inv, spqe_init. cbn [s_tops s_tamps s_energies s_nbody s_nparams s_ncnot length last]. split; [constructor|]. split; [split; [constructor|]; split; [constructor|]|repeat split].
    pose proof (ref_unique m ref R HR) as ER. destruct HR as (HL & _). destruct (count_every_spec m ref HL) as [-> ->]. rewrite <- ER. apply count_zero.
  - reflexivity.
  - discriminate.
  - intros _. unfold limit. lia.
  - unfold limit. lia.
  - rewrite EL. cbn [bind]. assert (Hk1 : (1 <= k)%nat).
    { destruct (Nat.eq_dec k 0) as [->|nk]; [|lia]. exfalso. destruct (HZ eq_refl eq_refl) as [HZ'|HZ'].
      - rewrite residual_weight in HZ'. cbn [spqe_init s_tops s_tamps] in HZ'. rewrite Hun in HZ'. lra.
      - cbn in HZ'. destruct pool; [apply Hne; reflexivity|discriminate]. }
    destruct HLv as (L1 & (L2 & L3 & L4) & L5 & L6 & L7 & L8 & L9). assert (He : s_energies s <> []) by (intros e; rewrite e in L5; cbn in L5; lia). rewrite (PropAdapt.py_last_ok _ 0 He). cbn [bind]. exists s. eexists. exists k. split; [reflexivity|].
    rewrite residual_weight, choice_chosen in L1. constructor.
    + exact L1.
    + exact L2.
    + exact L3.
    + split; [apply L9, HK|]. auto.
    + destruct L4 as [L4a L4b]. split; [exact L4a|]. intros r Hr. rewrite L4b by lia. replace (S (r - 1)) with r by lia. reflexivity.
    + unfold limit in Hk. lia.
    + unfold stopped in HSt. rewrite residual_weight in HSt. exact HSt.
    + reflexivity.
Qed.
Print Assumptions C46_run_partial.

(** exactly what happens when there is nothing to do: no energy was ever computed *)
Theorem C46_converged_reference_refuted : forall srt m ref R irreps irrep req o coeff solve, legal_sort srt -> RefOf m ref R -> (m <= length irreps)%nat -> (forall r, req = Some r -> (0 < r)%Z) -> sp_dt o <> 0 ->
  (forall pool, PoolOf m irreps irrep (rank_limit req (nelectrons m R)) R pool -> total (residual (sp_dt o) pool coeff 1 [] []) (seq 0 (length pool)) < spqe_thresh o * spqe_thresh o) ->
  spqe_run srt o ref irreps irrep req coeff solve = Throw (PyError "IndexError").
Proof.
  intros srt m ref R irreps irrep req o coeff solve HS HR HI HQ Hdt HT. destruct (C46_pool srt m ref R irreps irrep req HS HR HI HQ) as (pool & EP & HPool). specialize (HT pool HPool). unfold spqe_run. rewrite EP. cbn [bind].
  pose proof (pool_is_ok _ _ _ _ _ _ (rank_limit_le req _) HPool) as HOK. cbn [spqe_loop spqe_init s_stop s_tops s_tamps].
  assert (Hun : unused (length pool) [] = seq 0 (length pool)) by (unfold unused; cbn [existsb negb]; clear; induction (seq 0 (length pool)) as [|x l IH]; [reflexivity|]; cbn [filter]; rewrite IH; reflexivity).
  destruct (update_spec (nelectrons m R) (pool_rank m R pool) pool HOK o (coeff 1%nat [] []) 1 (spqe_init ref) Hdt) as (s1 & -> & U1 & _ & U3 & _).
  - split; [constructor|]. split; [constructor|]. cbn [spqe_init s_nbody s_tops]. pose proof (ref_unique m ref R HR) as ER. destruct HR as (HL & _). destruct (count_every_spec m ref HL) as [-> ->]. rewrite <- ER. apply count_zero.
  - cbn [spqe_init s_tops] in U1. rewrite Hun in U1. fold (weights pool o coeff 1 [] []) in U1. rewrite residual_weight in U1. unfold spqe_conv in U1.
    assert (Hp : 0 <= total (residual (sp_dt o) pool coeff 1 [] []) (seq 0 (length pool))) by (apply total_pos; intros p; rewrite <- residual_weight; apply weight_nonneg, Hdt).
    rewrite (Rabs_right (total _ _)) in U1 by lra. rewrite (Rabs_right (spqe_thresh o * spqe_thresh o)) in U1 by (apply Rle_ge, Rle_0_sqr).
    destruct (Rltb_spec (total (residual (sp_dt o) pool coeff 1 [] []) (seq 0 (length pool))) (spqe_thresh o * spqe_thresh o)) as [_|L]; [|contradiction]. cbn [bind]. cbn [fst] in U1. rewrite U1. cbn [bind]. rewrite U3. reflexivity.
Qed.
Print Assumptions C46_converged_reference_refuted.
Lemma single_growth weight solve size k tops tamps es : Selected weight solve (SingleChoice size) k tops tamps es -> (length tops <= k)%nat.
Proof. induction 1 as [|k tops tamps es new _ IH [[_ ->]|(p & -> & _)]]; [cbn; lia|cbn [app]; lia|cbn [app length]; lia]. Qed.
(** spqe_maxiter is exceeded by one: while the residual stays above the threshold and the pool
    is not used up, spqe_maxiter + 1 macro-iterations add operators and are optimised *)
Theorem C46_iteration_limit_refuted : forall m R0 o coeff solve pool s E k, sp_cumulative o = false -> SpqeResult m R0 o coeff solve pool s E k -> (S (Z.to_nat (spqe_maxiter o)) < length pool)%nat ->
  (forall j tops tamps, spqe_thresh o * spqe_thresh o <= total (residual (sp_dt o) pool coeff j tops tamps) (unused (length pool) tops)) ->
  length (s_energies s) = S (Z.to_nat (spqe_maxiter o)).
Proof.
  intros m R0 o coeff solve pool s E k HC [H1 _ _ (_ & H3 & _) _ H4 H5 _] HL HW. rewrite H3. unfold Choice in H1. rewrite HC in H1. apply single_growth in H1. destruct H5 as [H5|[H5|H5]]; [specialize (HW (S k) (s_tops s) (s_tamps s)); lra|lia|exact H5].
Qed.
Print Assumptions C46_iteration_limit_refuted.
(** an iteration adds something unless the residual norm equals the threshold *)
Theorem C46_progress : forall size thresh w tops new, CumulativeChoice size thresh w tops new -> thresh * thresh < total w (unused size tops) -> new <> [].
Proof. intros size T w tops new [(rest & HP & _ & HT & _) _] HN ->. rewrite app_nil_r in HP. rewrite (total_perm _ _ _ HP) in HT. lra. Qed.
Print Assumptions C46_progress.

(** ---- the sampled variant (M_omega finite) ---- *)
Lemma h2_ref : RefOf 2 [true; true; false; false] 3.
Proof. split; [reflexivity|]. split; [lia|]. split; [reflexivity|]. intros p. do 4 (destruct p as [|p]; [reflexivity|]). cbn [nth]. rewrite (occ_above 3 4) by (reflexivity || lia). destruct p; reflexivity. Qed.
Lemma h2_pool srt : legal_sort srt -> exists t1 t2 t3, build_pool srt [true; true; false; false] [0; 0]%N 0 None = Ok [(6%N, t1); (9%N, t2); (12%N, t3)] /\ exists t r, t1 = t :: r /\ length (fcre t) = 1%nat.
Proof.
  intros HS. destruct (C46_pool srt 2 [true; true; false; false] 3 [0; 0]%N 0 None HS h2_ref ltac:(cbn; lia) ltac:(discriminate)) as (pool & E & HS1 & HI & HF).
  assert (HD : map fst pool = [6; 9; 12]%N).
  { assert (HF2 : forall D, In D (map fst pool) <-> In D (filter (in_pool 2 [0; 0]%N 0 (rank_limit None (nelectrons 2 3)) 3) (all_dets 4))).
    { intros D. rewrite HI, filter_In, all_dets_in. split; [intros HT; split; [apply HT|apply in_pool_spec; [apply HT|exact HT]]|intros [H1 H2]; apply in_pool_spec; assumption]. }
    replace (filter _ (all_dets 4)) with [6; 9; 12]%N in HF2 by reflexivity.
    clear - HS1 HF2. assert (G : forall a b : list N, StronglySorted N.lt a -> StronglySorted N.lt b -> (forall x, In x a <-> In x b) -> a = b).
    { induction a as [|x a IH]; intros b Ha Hb H. destruct b as [|y b]; [reflexivity|]; exfalso; apply (H y); left; reflexivity. destruct b as [|y b]; [exfalso; apply (H x); left; reflexivity|].
      inversion Ha as [|? ? A1 A2]; subst. inversion Hb as [|? ? B1 B2]; subst. rewrite Forall_forall in A2, B2. assert (x = y).
      { pose proof (proj1 (H x) (or_introl eq_refl)) as Hx. pose proof (proj2 (H y) (or_introl eq_refl)) as Hy. destruct Hx as [Hx|Hx]; [auto|]. destruct Hy as [Hy|Hy]; [auto|]. specialize (A2 y Hy). specialize (B2 x Hx). lia. }
      subst y. f_equal. apply IH; [assumption|assumption|]. intros z. split; intros Hz.
      - destruct (proj1 (H z) (or_intror Hz)) as [->|Hz']; [specialize (A2 z Hz); lia|exact Hz'].
      - destruct (proj2 (H z) (or_intror Hz)) as [->|Hz']; [specialize (B2 z Hz); lia|exact Hz']. }
    apply G; [exact HS1| |exact HF2]. repeat constructor. }
  destruct pool as [|[D1 t1] [|[D2 t2] [|[D3 t3] [|]]]]; try discriminate HD. cbn [map fst] in HD. injection HD as -> -> ->. exists t1, t2, t3. split; [exact E|].
  inversion HF as [|? ? H1 _]; subst. cbn [fst snd] in H1. destruct t1 as [|t r]; [apply Permutation_nil_cons in H1; destruct H1|]. exists t, r. split; [reflexivity|].
  assert (Ht : In t (excitation 3 6 (2 * 2))) by (eapply Permutation_in; [exact H1|left; reflexivity]). destruct Ht as [<-|[<-|[]]]; reflexivity.
Qed.
Lemma sort2 a b x y : a < b -> tuple_sort [(a, x); (b, y)] = [(a, x); (b, y)] /\ tuple_sort [(b, y); (a, x)] = [(a, x); (b, y)].
Proof.
  intros H. unfold tuple_sort. cbn [fold_right tuple_ins]. unfold tuple_ltb. cbn [fst snd]. split.
  - destruct (Rltb_spec b a); [lra|]. destruct (Rltb_spec a b); [|lra]. reflexivity.
  - destruct (Rltb_spec a b); [|lra]. reflexivity.
Qed.
(** H2: the ansatz already holds pool operator 0 (determinant 6); one draw of determinant 6 and
    nine of the reference put the same operator in a second time *)
Theorem C46_sampled_duplicate_refuted : forall srt, legal_sort srt -> exists pool s', build_pool srt [true; true; false; false] [0; 0]%N 0 None = Ok pool /\
  spqe_update_sampled pool 16 (fun mu => if N.eqb mu 6 then 1 else if N.eqb mu 3 then 9 else 0)%nat 1 (mkS [0%nat] [1/10] [1%nat; 0%nat] [1%nat] [-1] [2%nat] false false) = Ok s' /\ s_tops s' = [0; 0]%nat.
Proof.
  intros srt HS. destruct (h2_pool srt HS) as (t1 & t2 & t3 & E & t & r & -> & Ht). eexists. eexists. split; [exact E|]. unfold spqe_update_sampled.
  set (l := filter _ _). assert (El : l = [3%N; 6%N]) by reflexivity. rewrite El. cbn [map]. change ((if (3 =? 6)%N then 1 else if (3 =? 3)%N then 9 else 0)%nat) with 9%nat. change ((if (6 =? 6)%N then 1 else if (6 =? 3)%N then 9 else 0)%nat) with 1%nat.
  rewrite (proj2 (sort2 (INR 1) (INR 9) 6%N 3%N ltac:(apply lt_INR; lia))). cbn [length Nat.eqb removelast foreach s_tops s_tamps s_nbody fst snd existsb]. change (N.eqb 6 (N.of_nat 0)) with false. cbn [orb pool_idx fst]. change (N.eqb 6 6) with true. cbn [bind].
  unfold count_rank. cbn [nth_error snd]. rewrite Ht. cbn [nth_error bind list_set fst snd]. split; reflexivity.
Qed.
Print Assumptions C46_sampled_duplicate_refuted.
(** when the reference is not the determinant drawn most often the selection raises *)
Theorem C46_sampled_key_error_refuted : forall srt, legal_sort srt -> exists pool, build_pool srt [true; true; false; false] [0; 0]%N 0 None = Ok pool /\
  spqe_update_sampled pool 16 (fun mu => if N.eqb mu 6 then 9 else if N.eqb mu 3 then 1 else 0)%nat 1 (mkS [0%nat] [1/10] [1%nat; 0%nat] [1%nat] [-1] [2%nat] false false) = Throw (PyError "KeyError").
Proof.
  intros srt HS. destruct (h2_pool srt HS) as (t1 & t2 & t3 & E & t & r & -> & Ht). eexists. split; [exact E|]. unfold spqe_update_sampled.
  set (l := filter _ _). assert (El : l = [3%N; 6%N]) by reflexivity. rewrite El. cbn [map]. change ((if (3 =? 6)%N then 9 else if (3 =? 3)%N then 1 else 0)%nat) with 1%nat. change ((if (6 =? 6)%N then 9 else if (6 =? 3)%N then 1 else 0)%nat) with 9%nat.
  rewrite (proj1 (sort2 (INR 1) (INR 9) 3%N 6%N ltac:(apply lt_INR; lia))). reflexivity.
Qed.
Print Assumptions C46_sampled_key_error_refuted.
Example C46_nonvacuous : RefOf 2 [true; true; false; false] 3 /\ Target 2 [0; 0]%N 0 2 3 12 /\ Target 2 [0; 0]%N 0 2 3 6 /\ ~ Target 2 [0; 0]%N 0 1 3 12 /\ ~ Target 2 [0; 0]%N 0 2 3 5 /\ ~ Target 2 [0; 0]%N 0 2 3 3 /\
  CumulativeChoice 3 1 (fun p => INR p) [] [2%nat] /\ SingleChoice 3 (fun p => INR p) [2%nat] [1%nat].
Proof.
  split; [apply h2_ref|]. assert (HB : forall max D, (D < 2 ^ N.of_nat (2 * 2))%N -> forall b, in_pool 2 [0; 0]%N 0 max 3 D = b -> if b then Target 2 [0; 0]%N 0 max 3 D else ~ Target 2 [0; 0]%N 0 max 3 D).
  { intros max D HD b <-. destruct (in_pool 2 [0; 0]%N 0 max 3 D) eqn:E; [apply in_pool_spec; assumption|]. intros HT. apply in_pool_spec in HT; [congruence|assumption]. }
  split; [apply (HB 2%nat 12%N eq_refl true eq_refl)|]. split; [apply (HB 2%nat 6%N eq_refl true eq_refl)|]. split; [apply (HB 1%nat 12%N eq_refl false eq_refl)|]. split; [apply (HB 2%nat 5%N eq_refl false eq_refl)|]. split; [apply (HB 2%nat 3%N eq_refl false eq_refl)|].
  assert (E2 : INR 2 = 2) by (cbn; lra). split.
  - split; [|repeat constructor]. exists [0; 1]%nat. split; [reflexivity|]. split; [|split].
    + intros a b Ha [<-|[]]. apply le_INR. destruct Ha as [<-|[<-|[]]]; lia.
    + unfold total. cbn [fold_right INR]. lra.
    + intros b [<-|[]]. unfold total. cbn [fold_right]. rewrite E2. cbn [INR]. lra.
  - right. exists 1%nat. split; [reflexivity|]. split; [right; left; reflexivity|]. intros q Hq. apply le_INR. destruct Hq as [<-|[<-|[]]]; lia.
Qed.
