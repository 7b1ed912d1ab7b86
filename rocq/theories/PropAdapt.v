(** Property theorems C47 (ADAPT-VQE ansatz growth). *)
From Coq Require Import Reals String List Arith NArith ZArith Bool Lia Lra Permutation Sorted.
From Verif Require Import CBase Result Spec SQSpec GateModel LibProofs OperatorModel SQModel SQPoolModel SelectModel SelectSpec SelectProofs.
Import ListNotations.
Local Open Scope R_scope.

(** the optimiser returns as many amplitudes as it is given *)
Definition KeepsLength {I} (solve : nat -> list I -> list R -> R * list R * nat) : Prop :=
  forall k tops t, length (snd (fst (solve k tops t))) = length t.
(** one operator: the first one of largest gradient magnitude *)
Definition LargestOnly (g : list R) (new : list N) : Prop := exists m, new = [m] /\ Largest g m.
(** cumulative mode: the operators whose squared gradients exceed the threshold, largest first *)
Definition CumulativeSet (thresh : R) (g : list R) (new : list N) : Prop :=
  let w := fun m : N => nth (N.to_nat m) g 0 * nth (N.to_nat m) g 0 in
  AboveCumulative w (thresh * thresh) (map N.of_nat (seq 0 (length g))) new /\ Descending w new.
Definition last_iteration (maxiter : Z) : nat := Nat.max 1 (Z.to_nat maxiter).

Definition SelectOf (o : adapt_opts) : list R -> list N -> Prop := if cumulative o then CumulativeSet (avqe_thresh o) else LargestOnly.
Definition inv (o : adapt_opts) grad solve (k : nat) (s : astate) : Prop :=
  Adapted (avqe_thresh o) grad solve (SelectOf o) k (a_tops s) (a_tamps s) (a_energies s) /\
  length (a_energies s) = k /\ length (a_nparams s) = k /\ length (a_ncnot s) = k /\ (is_jacobi o = false -> n_results s = k) /\
  last (a_nparams s) 0%nat = length (a_tops s) /\ (KeepsLength solve -> length (a_tamps s) = length (a_tops s)).
Lemma py_last_ok {A} (l : list A) d : l <> [] -> py_last l = Ok (last l d).
Proof.
  intros H. unfold py_last. destruct (exists_last H) as (r & x & ->). rewrite rev_app_distr, last_last. reflexivity.
Qed.
Lemma py_last_nil {A} : py_last (@nil A) = IndexError.
Proof. reflexivity. Qed.
Lemma norm_nonneg g : 0 <= norm g.
Proof. apply sqrt_pos. Qed.

Lemma adapted_0 T g sv sl k t a e : Adapted T g sv sl k t a e -> k = 0%nat -> t = [] /\ a = [].
Proof. destruct 1; [auto|discriminate]. Qed.

(** one macro-iteration *)
Lemma update_ok o g s : (cumulative o = true \/ add_equiv o = false) ->
  if Rltb (norm g) (Rabs (avqe_thresh o)) then
    (a_energies s <> [] -> (is_jacobi o = false -> n_results s <> 0%nat) -> exists s', update_ansatz o g s = Ok s' /\ a_conv s' = true /\ a_tops s' = a_tops s /\ a_tamps s' = a_tamps s /\ a_energies s' = a_energies s /\
      a_nparams s' = a_nparams s /\ a_ncnot s' = a_ncnot s /\ n_results s' = n_results s /\ a_final s' = Some (last (a_energies s) 0)) /\ (a_energies s = [] -> update_ansatz o g s = IndexError)
  else (cumulative o = true \/ ~ Forall (eq 0) g ->
    exists s' new, update_ansatz o g s = Ok s' /\ a_conv s' = false /\ SelectOf o g new /\ a_tops s' = (a_tops s ++ new)%list /\ a_tamps s' = (a_tamps s ++ repeat 0 (length new))%list /\
    a_energies s' = a_energies s /\ a_nparams s' = (a_nparams s ++ [length (a_tops s')])%list /\ a_ncnot s' = a_ncnot s /\ n_results s' = n_results s) /\
    (cumulative o = false -> Forall (eq 0) g -> update_ansatz o g s = Throw (PyError "UnboundLocalError")).
Proof.
  intros HM. unfold update_ansatz. destruct (scan_spec g [] (0, None, None)) as (sc & E & HI); [cbn; auto|]. cbn [length app] in *. unfold enumerate. rewrite E. cbn [bind].
  unfold adapt_conv. rewrite sum_sq_total. fold (norm g). rewrite (Rabs_right (norm g)) by (apply Rle_ge, norm_nonneg). destruct (Rltb_spec (norm g) (Rabs (avqe_thresh o))) as [L|L].
  - split.
    + intros He Hr. rewrite (py_last_ok _ 0 He). cbn [bind]. destruct (is_jacobi o).
      * cbn [bind fst snd]. eexists. split; [reflexivity|]. cbn. repeat split.
      * destruct (Nat.eqb_spec (n_results s) 0) as [e|_]; [exfalso; apply Hr; auto|]. cbn [bind fst snd]. eexists. split; [reflexivity|]. cbn. repeat split.
    + intros ->. reflexivity.
  - cbn [bind fst snd]. unfold SelectOf. destruct (cumulative o).
    + split; [|discriminate]. intros _. destruct (adapt_cumulative_spec (avqe_thresh o) g (a_tamps s)) as (H1 & H2 & H3). cbn [bind fst snd]. eexists. eexists.
      split; [reflexivity|]. cbn [a_conv a_tops a_tamps a_energies a_nparams a_ncnot n_results]. split; [reflexivity|]. split; [split; [exact H1|exact H2]|]. split; [reflexivity|]. split; [exact H3|]. repeat split.
    + destruct HM as [HM|HM]; [discriminate|]. rewrite HM. destruct sc as [[gm im] sec]. unfold scan_inv in HI. cbn [fst snd] in *. destruct im as [m|].
      * destruct HI as (HL & HG & H0). split.
        -- intros _. eexists. exists [m]. split; [reflexivity|]. cbn [a_conv a_tops a_tamps a_energies a_nparams a_ncnot n_results fst snd]. split; [reflexivity|]. split; [exists m; auto|]. repeat split.
        -- intros _ HF. exfalso. apply H0. rewrite HG. destruct HL as (i & -> & Hi & _). rewrite Nat2N.id. rewrite Forall_forall in HF. symmetry. apply HF, nth_In, Hi.
      * destruct HI as (_ & _ & HF). split; [|reflexivity]. intros [HC|HC]; [discriminate HC|contradiction].
Qed.

(** what is known when the loop ends *)
Definition finished (o : adapt_opts) grad solve (s : astate) (hit : bool) : Prop :=
  exists k, (1 <= k <= last_iteration (adapt_maxiter o))%nat /\ inv o grad solve k s /\
    if hit then k = last_iteration (adapt_maxiter o) else norm (grad k (a_tops s) (a_tamps s)) < Rabs (avqe_thresh o) /\ a_final s = Some (last (a_energies s) 0).
Definition Unstuck (o : adapt_opts) (grad : nat -> list N -> list R -> list R) : Prop := avqe_thresh o <> 0 \/ forall k a b, ~ Forall (eq 0) (grad k a b).

Lemma loop_spec o grad solve : (cumulative o = true \/ add_equiv o = false) -> Unstuck o grad ->
  forall fuel k s, inv o grad solve k s -> a_conv s = false -> (k = 0%nat -> Rabs (avqe_thresh o) <= norm (grad O [] [])) -> (k < last_iteration (adapt_maxiter o))%nat -> (last_iteration (adapt_maxiter o) <= k + fuel)%nat ->
  exists s' hit, adapt_loop o grad solve fuel k s = Ok (s', hit) /\ finished o grad solve s' hit.
Proof.
  intros HM HU. induction fuel as [|fuel IH]; intros k s HI HC H0 Hk Hf; [lia|]. cbn [adapt_loop]. rewrite HC.
  pose proof (update_ok o (grad k (a_tops s) (a_tamps s)) s HM) as HX. destruct HI as (HA & L1 & L2 & L3 & L4 & L5 & L6).
  destruct (Rltb_spec (norm (grad k (a_tops s) (a_tamps s))) (Rabs (avqe_thresh o))) as [L|L].
  - destruct (Nat.eq_dec k 0) as [->|nk].
    { exfalso. destruct (adapted_0 _ _ _ _ _ _ _ _ HA eq_refl) as [HT HP]. rewrite HT, HP in L. specialize (H0 eq_refl). lra. }
    destruct HX as [HX _]. destruct HX as (s' & -> & C1 & C2 & C3 & C4 & C5 & C6 & C7 & C8); [intros e; rewrite e in L1; cbn in L1; lia|intros HJ; rewrite L4 by exact HJ; exact nk|].
    cbn [bind]. rewrite C1. exists s', false. split; [reflexivity|]. exists k. split; [lia|]. split.
    + unfold inv. rewrite C2, C3, C4, C5, C6, C7. repeat (split; [assumption|]). assumption.
    + rewrite C2, C3, C4. split; [exact L|exact C8].
  - destruct HX as [HX _]. destruct HX as (s1 & new & -> & C1 & C2 & C3 & C4 & C5 & C6 & C7 & C8).
    { right. intros HF. destruct HU as [HU|HU]; [|exact (HU _ _ _ HF)]. rewrite (zero_norm _ HF) in L. apply Rabs_pos_lt in HU. lra. }
    cbn [bind]. rewrite C1. set (s2 := adapt_solve o solve k s1).
    assert (HI2 : inv o grad solve (S k) s2).
    { unfold inv, s2, adapt_solve. cbn [a_tops a_tamps a_energies a_nparams a_ncnot n_results]. rewrite C3, C4, C5, C6, C7, C8. split; [|split; [|split; [|split; [|split; [|split]]]]].
      - apply (adapted_step _ _ _ _ k (a_tops s) (a_tamps s) (a_energies s) new HA); [lra|exact C2].
      - rewrite app_length. cbn. lia.
      - rewrite app_length. cbn. lia.
      - rewrite app_length. cbn. lia.
      - intros HJ. rewrite HJ. rewrite L4 by exact HJ. reflexivity.
      - rewrite last_last, C3. reflexivity.
      - intros HS. rewrite HS, !app_length, repeat_length, L6 by exact HS. reflexivity. }
    destruct (Z.ltb_spec (adapt_maxiter o - 1) (Z.of_nat (S k))) as [LZ|LZ].
    + exists s2, true. split; [reflexivity|]. exists (S k). unfold last_iteration in *. split; [lia|]. split; [exact HI2|]. lia.
    + apply IH; [exact HI2|exact C1|intros e; discriminate e| |]; unfold last_iteration in *; lia.
Qed.
Lemma run_spec o grad solve : (cumulative o = true \/ add_equiv o = false) -> Unstuck o grad -> Rabs (avqe_thresh o) <= norm (grad O [] []) ->
  exists s hit, adapt_run o grad solve = Ok (s, last (a_energies s) 0) /\ finished o grad solve s hit.
Proof.
  intros HM HU H0. unfold adapt_run.
  destruct (loop_spec o grad solve HM HU (S (Z.to_nat (adapt_maxiter o))) 0 adapt_init) as (s & hit & -> & HF).
  - unfold inv, adapt_init; cbn. split; [constructor|]. repeat (split; [reflexivity|]). reflexivity.
  - reflexivity.
  - intros _. exact H0.
  - unfold last_iteration. lia.
  - unfold last_iteration. lia.
  - cbn [bind fst snd]. exists s, hit. split; [|exact HF]. destruct HF as (k & Hk & (_ & L1 & L2 & L3 & L4 & _) & HH).
    assert (He : a_energies s <> []) by (intros e; rewrite e in L1; cbn in L1; lia). assert (Hc : a_ncnot s <> []) by (intros e; rewrite e in L3; cbn in L3; lia).
    rewrite (py_last_ok _ 0 He), (py_last_ok _ 0%nat Hc). cbn [bind]. destruct hit.
    + destruct (is_jacobi o); cbn [negb andb]; [reflexivity|]. destruct (Nat.eqb_spec (n_results s) 0) as [e|_]; [rewrite L4 in e by reflexivity; lia|]. reflexivity.
    + destruct HH as [_ ->]. reflexivity.
Qed.

(** the result of a run: k >= 1 macro-iterations, each adding what [select] says, in order;
    amplitudes, energies and recorded counts of matching lengths; the reported energy is the
    optimiser's last one; the run stopped at convergence or at the iteration limit *)
Definition AdaptResult (o : adapt_opts) grad solve (select : list R -> list N -> Prop) (s : astate) (E : R) : Prop :=
  exists k, (1 <= k <= last_iteration (adapt_maxiter o))%nat /\ Adapted (avqe_thresh o) grad solve select k (a_tops s) (a_tamps s) (a_energies s) /\
    length (a_tamps s) = length (a_tops s) /\ length (a_energies s) = k /\ length (a_nparams s) = k /\ length (a_ncnot s) = k /\
    last (a_nparams s) 0%nat = length (a_tops s) /\ E = last (a_energies s) 0 /\
    (norm (grad k (a_tops s) (a_tamps s)) < Rabs (avqe_thresh o) \/ k = last_iteration (adapt_maxiter o)).
Lemma finished_result o grad solve s hit : KeepsLength solve -> finished o grad solve s hit -> AdaptResult o grad solve (SelectOf o) s (last (a_energies s) 0).
Proof.
  intros HK (k & Hk & (H1 & H2 & H3 & H4 & H5 & H6 & H7) & HH). exists k. split; [exact Hk|]. split; [exact H1|]. split; [apply H7, HK|]. repeat (split; [assumption|]). split; [reflexivity|].
  destruct hit; [right; exact HH|left; apply HH].
Qed.
(** default mode, for every gradient and optimiser history *)
Theorem C47_run_partial : forall o grad solve, cumulative o = false -> add_equiv o = false -> KeepsLength solve ->
  (* some gradient is not zero whenever the threshold is zero *)
  Unstuck o grad -> (* the reference is not already converged *) Rabs (avqe_thresh o) <= norm (grad O [] []) ->
  exists s E, adapt_run o grad solve = Ok (s, E) /\ AdaptResult o grad solve LargestOnly s E.
Proof.
  intros o grad solve HC HQ HK HU H0. destruct (run_spec o grad solve (or_intror HQ) HU H0) as (s & hit & E & HF). exists s. eexists. split; [exact E|].
  pose proof (finished_result _ _ _ _ _ HK HF) as HR. unfold SelectOf in HR. rewrite HC in HR. exact HR.
Qed.
Print Assumptions C47_run_partial.
(** cumulative-threshold mode *)
Theorem C47_cumulative_run_partial : forall o grad solve, cumulative o = true -> KeepsLength solve -> Unstuck o grad -> Rabs (avqe_thresh o) <= norm (grad O [] []) ->
  exists s E, adapt_run o grad solve = Ok (s, E) /\ AdaptResult o grad solve (CumulativeSet (avqe_thresh o)) s E.
Proof.
  intros o grad solve HC HK HU H0. destruct (run_spec o grad solve (or_introl HC) HU H0) as (s & hit & E & HF). exists s. eexists. split; [exact E|].
  pose proof (finished_result _ _ _ _ _ HK HF) as HR. unfold SelectOf in HR. rewrite HC in HR. exact HR.
Qed.
Print Assumptions C47_cumulative_run_partial.
(** in the default mode exactly one operator is added per iteration *)
Theorem C47_one_per_iteration : forall thresh grad solve k tops tamps es, Adapted thresh grad solve LargestOnly k tops tamps es -> length tops = k.
Proof. induction 1 as [|k tops tamps es new _ IH _ (m & -> & _)]; [reflexivity|]. rewrite app_length, IH. cbn. lia. Qed.
Print Assumptions C47_one_per_iteration.
(** a cumulative iteration adds at least one operator unless the gradient norm equals the
    threshold exactly *)
Theorem C47_cumulative_progress : forall thresh g new, CumulativeSet thresh g new -> Rabs thresh < norm g -> new <> [].
Proof.
  intros T g new [(rest & HP & _ & HT & _) _] HN ->. rewrite app_nil_r in HP. rewrite (total_perm _ _ _ HP), total_map in HT.
  assert (E : total (fun a => nth (N.to_nat (N.of_nat a)) g 0 * nth (N.to_nat (N.of_nat a)) g 0) (seq 0 (length g)) = total (fun x => x * x) g).
  { assert (G : forall l k, (forall i, (i < length l)%nat -> nth i l 0 = nth (k + i) g 0) -> total (fun a => nth (N.to_nat (N.of_nat a)) g 0 * nth (N.to_nat (N.of_nat a)) g 0) (seq k (length l)) = total (fun x => x * x) l).
    { induction l as [|x l IH]; intros k H; [reflexivity|]. cbn [length seq]. unfold total in *. cbn [fold_right]. rewrite Nat2N.id. pose proof (H O ltac:(cbn; lia)) as E0. rewrite Nat.add_0_r in E0. cbn in E0. rewrite <- E0.
      rewrite IH; [reflexivity|]. intros i Hi. specialize (H (S i) ltac:(cbn; lia)). cbn [nth] in H. rewrite H. f_equal. lia. }
    apply G. reflexivity. }
  rewrite E in HT. unfold norm in HN. apply sqrt_le_1_alt in HT. rewrite (sqrt_Rsqr_abs T : sqrt (T * T) = Rabs T) in HT. lra.
Qed.
Print Assumptions C47_cumulative_progress.
(** a run whose reference already satisfies the threshold does not stop, it raises *)
Theorem C47_converged_reference_refuted : forall o grad solve, (cumulative o = true \/ add_equiv o = false) -> norm (grad O [] []) < Rabs (avqe_thresh o) ->
  adapt_run o grad solve = Throw (PyError "IndexError").
Proof.
  intros o grad solve HM HN. unfold adapt_run. cbn [adapt_loop]. cbn [a_conv adapt_init a_tops a_tamps]. pose proof (update_ok o (grad O [] []) adapt_init HM) as HX.
  destruct (Rltb_spec (norm (grad O [] [])) (Rabs (avqe_thresh o))) as [L|L]; [|contradiction]. destruct HX as [_ HX]. unfold adapt_init in *. rewrite (HX eq_refl). reflexivity.
Qed.
Print Assumptions C47_converged_reference_refuted.
(** with threshold zero and a vanishing gradient it raises as well *)
Theorem C47_zero_gradient_refuted : forall o grad solve, cumulative o = false -> add_equiv o = false -> avqe_thresh o = 0 -> Forall (eq 0) (grad O [] []) ->
  adapt_run o grad solve = Throw (PyError "UnboundLocalError").
Proof.
  intros o grad solve HC HQ HT HF. unfold adapt_run. cbn [adapt_loop]. cbn [a_conv adapt_init a_tops a_tamps]. pose proof (update_ok o (grad O [] []) adapt_init (or_intror HQ)) as HX.
  rewrite HT, Rabs_R0 in HX. destruct (Rltb_spec (norm (grad O [] [])) 0) as [L|L]; [pose proof (norm_nonneg (grad O [] [])); lra|]. destruct HX as [_ HX]. unfold adapt_init in *. rewrite (HX HC HF). reflexivity.
Qed.
Print Assumptions C47_zero_gradient_refuted.
(** add_equiv_ops is meant to add a second operator of equal gradient; exactly then it fails *)
Theorem C47_equivalent_operators_refuted : forall o solve g, cumulative o = false -> add_equiv o = true -> Rabs (avqe_thresh o) <= Rabs g -> g <> 0 ->
  adapt_run o (fun _ _ _ => [g; g]) solve = Throw (PyError "UnboundLocalError").
Proof.
  intros o solve g HC HQ HT H0. apply Rabs_pos_lt in H0. unfold adapt_run. cbn [adapt_loop]. cbn [a_conv adapt_init a_tops a_tamps]. unfold update_ansatz. unfold enumerate. cbn [length seq map combine foreach].
  unfold scan_grad at 1. cbn [fst snd]. rewrite Rabs_R0. destruct (Rltb_spec 0 (Rabs g)); [|lra]. destruct (Rltb_spec 0 0) as [L|_]; [lra|]. cbn [bind]. unfold scan_grad. cbn [fst snd]. destruct (Rltb_spec (Rabs g) (Rabs g)) as [L|_]; [lra|]. cbn [bind].
  unfold adapt_conv. rewrite sum_sq_total. fold (norm [g; g]). rewrite (Rabs_right (norm _)) by (apply Rle_ge, norm_nonneg).
  assert (HN : Rabs g <= norm [g; g]).
  { unfold norm. rewrite <- (sqrt_Rsqr_abs g). apply sqrt_le_1_alt. unfold total, Rsqr. cbn [fold_right]. pose proof (Rle_0_sqr g) as H1. unfold Rsqr in H1. lra. }
  destruct (Rltb_spec (norm [g; g]) (Rabs (avqe_thresh o))) as [L|_]; [lra|]. cbn [bind fst snd]. rewrite HC, HQ. reflexivity.
Qed.
Print Assumptions C47_equivalent_operators_refuted.
Example C47_nonvacuous : let o := mkAO (1/2) 5 false false false in let grad := fun k (_ : list N) (_ : list R) => if Nat.ltb k 2 then [1; -2; 2] else [0; 0; 0] in
  let solve := fun (k : nat) (_ : list N) t => (INR k, t, 3%nat) in
  KeepsLength solve /\ Unstuck o grad /\ Rabs (avqe_thresh o) <= norm (grad O [] []) /\ Largest [1; -2; 2] 1 /\ CumulativeSet 1 [1; -2; 2] [2; 1]%N.
Proof.
  cbv zeta. split; [intros k a t; reflexivity|]. split; [left; cbn; lra|]. split; [|split].
  - cbn [avqe_thresh Nat.ltb Nat.leb]. unfold norm, total. cbn [fold_right]. replace (1 * 1 + (-2 * -2 + (2 * 2 + 0))) with (3 * 3) by lra. rewrite sqrt_square by lra. rewrite Rabs_right; lra.
  - exists 1%nat. split; [reflexivity|]. split; [cbn; lia|]. assert (E : Rabs (-2) = 2) by (rewrite Rabs_left; lra). assert (E2 : Rabs 2 = 2) by (rewrite Rabs_right; lra). split.
    + intros j Hj. do 3 (destruct j as [|j]; [cbn [nth]; rewrite ?Rabs_R1, ?E, ?E2; lra|]). cbn in Hj; lia.
    + intros j Hj. destruct j; [cbn [nth]; rewrite Rabs_R1, E; lra|lia].
  - split.
    + exists [0%N]. split; [cbn; constructor; apply perm_swap|]. split; [|split].
      * intros a b [<-|[]] Hb. cbv beta. change (N.to_nat 0) with 0%nat. destruct Hb as [<-|[<-|[]]]; [change (N.to_nat 2) with 2%nat|change (N.to_nat 1) with 1%nat]; cbn [nth]; lra.
      * unfold total; cbn [fold_right]. change (N.to_nat 0) with 0%nat. cbn [nth]. lra.
      * intros b Hb. unfold total; cbn [fold_right]. change (N.to_nat 0) with 0%nat. destruct Hb as [<-|[<-|[]]]; [change (N.to_nat 2) with 2%nat|change (N.to_nat 1) with 1%nat]; cbn [nth]; lra.
    + constructor; [constructor; constructor|]. constructor; [|constructor]. change (N.to_nat 2) with 2%nat; change (N.to_nat 1) with 1%nat; cbn [nth]. lra.
Qed.
