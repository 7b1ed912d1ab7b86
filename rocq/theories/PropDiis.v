(** Property theorems C45: Jacobi iteration with DIIS (optimizer.py). *)
From Coq Require Import Reals String List Arith Lia Bool Lra.
From Verif Require Import CBase Result DiisModel.
Import ListNotations.
Local Open Scope R_scope.

(** [Run s0 ks sk]: passes of the solver from s0, without exception; the list records
    (amplitudes at the start of the pass, amplitudes after the plain quasi-Newton update) *)
Inductive Run (lstsq : lstsq_oracle) (max_dim : nat) (update : rvec -> rvec) : jstate -> list (rvec * rvec) -> jstate -> Prop :=
| run_nil s : Run lstsq max_dim update s [] s
| run_snoc s h s1 s2 : Run lstsq max_dim update s h s1 -> jacobi_step lstsq max_dim update s1 = Ok s2 ->
    Run lstsq max_dim update s (h ++ [(tamps s1, vzip Rplus (tamps s1) (update (tamps s1)))]) s2.
(** the last n elements *)
Definition lastn {A} (n : nat) (l : list A) : list A := skipn (length l - n) l.
Definition difference (p : rvec * rvec) : rvec := vzip Rminus (snd p) (fst p).

Lemma lastn_snoc {A} n (l : list A) x : (n <= length l)%nat -> lastn n l ++ [x] = lastn (S n) (l ++ [x]).
Proof. intros H. unfold lastn. rewrite app_length. cbn [length]. replace (length l + 1 - S n)%nat with (length l - n)%nat by lia. rewrite skipn_app. replace (length l - n - length l)%nat with 0%nat by lia. reflexivity. Qed.
Lemma tl_skipn {A} k (l : list A) : tl (skipn k l) = skipn (S k) l.
Proof. revert l. induction k as [|k IH]; intros [|x l]; try reflexivity. cbn [skipn]. apply IH. Qed.
Lemma lastn_tl {A} n (l : list A) : (n < length l)%nat -> tl (lastn (S n) l) = lastn n l.
Proof. intros H. unfold lastn. rewrite tl_skipn. f_equal. lia. Qed.
Lemma lastn_length {A} n (l : list A) : (n <= length l)%nat -> length (lastn n l) = n.
Proof. intros H. unfold lastn. rewrite skipn_length. lia. Qed.
Lemma diis_hist lstsq max_dim t e r : diis lstsq max_dim t e = Ok r -> snd (fst r) = trim max_dim t t /\ snd r = trim max_dim t e.
Proof. unfold diis. cbv zeta. repeat (destruct (_ : bool); [try discriminate|]; try discriminate); intros H; injection H as <-; split; reflexivity. Qed.
Lemma run_hist lstsq max_dim update t0 h s : Run lstsq max_dim update (jacobi_init t0) h s ->
  let n := if Nat.leb 2 max_dim then Nat.min (S (length h)) max_dim else S (length h) in
  t_hist s = lastn n (t0 :: map snd h) /\ e_hist s = lastn (n - 1) (map difference h).
Proof.
  intros R. remember (jacobi_init t0) as s0 eqn:E0. induction R as [s|s h s1 s2 R IH ST]; subst.
  - cbv zeta. cbn [length map]. replace (if Nat.leb 2 max_dim then Nat.min 1 max_dim else 1%nat) with 1%nat by (destruct (Nat.leb_spec 2 max_dim); lia). split; reflexivity.
  - specialize (IH eq_refl). cbv zeta in *. set (t1 := vzip Rplus (tamps s1) (update (tamps s1))) in *. set (p := (tamps s1, t1)).
    rewrite !map_app, app_length. cbn [map length]. change (snd p) with t1. rewrite Nat.add_1_r.
    destruct IH as [HT HE]. unfold jacobi_step in ST. cbv zeta in ST. fold t1 in ST. rewrite HT, HE in ST. clear HT HE.
    change (vzip Rminus t1 (tamps s1)) with (difference p) in ST.
    destruct (Nat.leb_spec 2 max_dim) as [H2|H2].
    + destruct (diis _ _ _ _) as [r|] eqn:ED; [|discriminate]. cbn [bind] in ST. injection ST as <-. cbn [t_hist e_hist]. apply diis_hist in ED. destruct ED as [-> ->]. unfold trim.
      set (k := Nat.min (S (length h)) max_dim). assert (HK : (1 <= k <= S (length h))%nat) by (unfold k; lia).
      rewrite (lastn_snoc k (t0 :: map snd h)) by (cbn [length]; rewrite map_length; lia). rewrite (lastn_snoc (k - 1) (map difference h)) by (rewrite map_length; lia).
      change ((t0 :: map snd h) ++ [t1])%list with (t0 :: map snd h ++ [t1])%list.
      rewrite lastn_length by (cbn [length]; rewrite app_length, map_length; cbn [length]; lia).
      destruct (Nat.ltb_spec max_dim (S k)) as [HL|HL].
      * assert (k = max_dim) by (unfold k in *; lia). replace (Nat.min (S (S (length h))) max_dim) with k by lia.
        rewrite lastn_tl by (cbn [length]; rewrite app_length, map_length; cbn [length]; lia). replace (S (k - 1))%nat with (S (k - 1)) by lia. rewrite lastn_tl by (rewrite app_length, map_length; cbn [length]; lia). split; reflexivity.
      * replace (Nat.min (S (S (length h))) max_dim) with (S k) by (unfold k in *; lia). replace (S k - 1)%nat with (S (k - 1)) by lia. split; reflexivity.
    + injection ST as <-. cbn [t_hist e_hist]. rewrite (lastn_snoc _ (t0 :: map snd h)) by (cbn [length]; rewrite map_length; lia). rewrite (lastn_snoc _ (map difference h)) by (rewrite map_length; lia).
      split; [reflexivity|]. f_equal. lia.
Qed.
(** after any number of passes the histories hold the most recent vectors, at most
    diis_max_dim of them, and e_hist[l] is the update that produced t_hist[l+1] *)
Theorem C45_history_bounded_and_aligned : forall lstsq max_dim update t0 h s, (2 <= max_dim)%nat -> Run lstsq max_dim update (jacobi_init t0) h s ->
  length (t_hist s) = Nat.min (S (length h)) max_dim /\ length (e_hist s) = (length (t_hist s) - 1)%nat /\
  t_hist s = lastn (length (t_hist s)) (t0 :: map snd h) /\ e_hist s = lastn (length (e_hist s)) (map difference h).
Proof.
  intros lstsq max_dim update t0 h s H2 HR. destruct (run_hist _ _ _ _ _ _ HR) as [HT HE]. cbv zeta in HT, HE. rewrite (proj2 (Nat.leb_le 2 max_dim) H2) in HT, HE.
  set (n := Nat.min (S (length h)) max_dim) in *. assert (Hn : (1 <= n <= S (length h))%nat) by (unfold n; lia).
  assert (LT : length (t_hist s) = n) by (rewrite HT; apply lastn_length; cbn [length]; rewrite map_length; lia).
  assert (LE : length (e_hist s) = (n - 1)%nat) by (rewrite HE; apply lastn_length; rewrite map_length; lia).
  rewrite LT, LE. repeat split; assumption.
Qed.
(** full statement: bounded for every setting.  With diis_max_dim < 2 DIIS is switched off,
    the iteration is the plain update, but the histories grow by one vector per pass *)
Theorem C45_switched_off_grows_refuted : forall lstsq max_dim update t0 h s, (max_dim < 2)%nat -> Run lstsq max_dim update (jacobi_init t0) h s ->
  length (t_hist s) = S (length h) /\ length (e_hist s) = length h /\ tamps s = match rev h with [] => t0 | p :: _ => snd p end.
Proof.
  intros lstsq max_dim update t0 h s H2 HR. destruct (run_hist _ _ _ _ _ _ HR) as [HT HE]. cbv zeta in HT, HE. rewrite (proj2 (Nat.leb_gt 2 max_dim) H2) in HT, HE.
  rewrite HT, HE, !lastn_length by (cbn [length]; rewrite map_length; lia). split; [reflexivity|]. split; [lia|].
  clear HT HE. remember (jacobi_init t0) as s0 eqn:E0. destruct HR as [s|s h s1 s2 HR ST]; subst; [reflexivity|]. rewrite rev_app_distr. cbn [rev app snd].
  unfold jacobi_step in ST. rewrite (proj2 (Nat.leb_gt 2 max_dim) H2) in ST. injection ST as <-. reflexivity.
Qed.

(** ---- the extrapolation ---- *)
Fixpoint rsum (n : nat) (f : nat -> R) : R := match n with O => 0 | S k => rsum k f + f k end.
(** y solves the n x n system M y = b *)
Definition Solves (n : nat) (M : nat -> nat -> R) (b y : nat -> R) : Prop := forall i, (i < n)%nat -> rsum n (fun j => M i j * y j) = b i.
(** squared norm of the combination sum_l x_l e_l through scalar products *)
Definition combined_norm (x : nat -> R) (e : list rvec) : R :=
  rsum (length e) (fun i => rsum (length e) (fun j => x i * x j * dot (nth i e []) (nth j e []))).
Lemma rsum_ext n f g : (forall i, (i < n)%nat -> f i = g i) -> rsum n f = rsum n g.
Proof. induction n as [|n IH]; intros H; [reflexivity|]. cbn. rewrite IH, H by (intros; try apply H; lia). reflexivity. Qed.
Lemma rsum_plus n f g : rsum n (fun i => f i + g i) = rsum n f + rsum n g.
Proof. induction n as [|n IH]; cbn; [lra|]. rewrite IH. lra. Qed.
Lemma rsum_scal n c f : rsum n (fun i => c * f i) = c * rsum n f.
Proof. induction n as [|n IH]; cbn; [lra|]. rewrite IH. lra. Qed.
Lemma rsum_swap n m f : rsum n (fun i => rsum m (fun j => f i j)) = rsum m (fun j => rsum n (fun i => f i j)).
Proof. induction n as [|n IH]; cbn; [induction m; cbn; [reflexivity|rewrite <- IHm; lra]|]. rewrite IH, <- rsum_plus. reflexivity. Qed.
Lemma dot_sym a b : dot a b = dot b a.
Proof. unfold dot. revert b. induction a as [|x a IH]; intros [|y b]; cbn; try reflexivity. rewrite (IH b). ring. Qed.
(** entry of a linear combination of vectors, for vectors of the same length d *)
Definition comb_entry (x : nat -> R) (e : list rvec) (q : nat) : R := rsum (length e) (fun l => x l * nth q (nth l e []) 0).
Lemma dot_sum d a b : length a = d -> length b = d -> dot a b = rsum d (fun q => nth q a 0 * nth q b 0).
Proof.
  revert a b. induction d as [|d IH]; intros [|x a] [|y b] Ha Hb; cbn in Ha, Hb; try discriminate; [reflexivity|].
  unfold dot. cbn [vzip fold_right]. fold (dot a b). rewrite (IH a b) by lia.
  assert (HS : forall n f, rsum (S n) f = f 0%nat + rsum n (fun i => f (S i))) by (intros n f; induction n as [|n IHn]; [cbn; lra|]; cbn [rsum] in *; rewrite IHn; cbn; lra).
  rewrite HS. reflexivity.
Qed.
Lemma combined_norm_sq d x e : Forall (fun v => length v = d) e -> combined_norm x e = rsum d (fun q => comb_entry x e q * comb_entry x e q).
Proof.
  intros HF. unfold combined_norm, comb_entry. 
  transitivity (rsum (length e) (fun i => rsum (length e) (fun j => rsum d (fun q => (x i * nth q (nth i e []) 0) * (x j * nth q (nth j e []) 0))))).
  - apply rsum_ext. intros i Hi. apply rsum_ext. intros j Hj. rewrite (dot_sum d) by (apply (proj1 (Forall_forall _ _) HF), nth_In; assumption). rewrite <- rsum_scal. apply rsum_ext. intros q _. ring.
  - transitivity (rsum (length e) (fun i => rsum d (fun q => rsum (length e) (fun j => (x i * nth q (nth i e []) 0) * (x j * nth q (nth j e []) 0))))).
    + apply rsum_ext. intros i _. apply rsum_swap.
    + rewrite rsum_swap. apply rsum_ext. intros q _. transitivity (rsum (length e) (fun i => comb_entry x e q * (x i * nth q (nth i e []) 0))).
      * apply rsum_ext. intros i _. rewrite rsum_scal. unfold comb_entry. ring.
      * rewrite rsum_scal. reflexivity.
Qed.
Lemma rsum_nonneg n f : (forall i, (i < n)%nat -> 0 <= f i) -> 0 <= rsum n f.
Proof. induction n as [|n IH]; intros H; cbn; [lra|]. pose proof (H n ltac:(lia)). specialize (IH ltac:(intros; apply H; lia)). lra. Qed.
(** when lstsq solves the DIIS equations, the weights sum to one, and no other weights with
    sum one give a combined error of smaller norm *)
Theorem C45_diis_optimal : forall (d : nat) (e : list rvec) (y : nat -> R), (0 < length e)%nat -> Forall (fun v => length v = d) e -> 0 < B_max (length e) e ->
  Solves (S (length e)) (B_mat (length e) e) (bsol (length e)) y ->
  rsum (length e) y = 1 /\
  forall z, rsum (length e) z = 1 -> rsum d (fun q => comb_entry y e q * comb_entry y e q) <= rsum d (fun q => comb_entry z e q * comb_entry z e q).
Proof.
  intros d e y H0 HF HB HS. set (n := length e) in *.
  assert (SUM : rsum n y = 1).
  { specialize (HS n ltac:(lia)). unfold bsol in HS. rewrite Nat.eqb_refl in HS. cbn [rsum] in HS.
    assert (E1 : B_mat n e n n = 0). { unfold B_mat, B_raw. fold n. rewrite Nat.ltb_irrefl, Nat.eqb_refl. reflexivity. }
    assert (E2 : rsum n (fun j => B_mat n e n j * y j) = -1 * rsum n y).
    { rewrite <- rsum_scal. apply rsum_ext. intros j Hj. f_equal. unfold B_mat, B_raw. fold n. rewrite Nat.ltb_irrefl. cbn [andb]. rewrite Nat.eqb_refl. destruct (Nat.eqb_spec j n); [lia|reflexivity]. }
    rewrite E1, E2 in HS. lra. }
  split; [exact SUM|]. intros z SZ. rewrite <- !(combined_norm_sq d) by assumption.
  set (G := fun i j => dot (nth i e []) (nth j e [])).
  assert (ROW : forall i, (i < n)%nat -> rsum n (fun j => G i j * y j) = B_max n e * y n).
  { intros i Hi. specialize (HS i ltac:(lia)). unfold bsol in HS. destruct (Nat.eqb_spec i n) as [|_]; [lia|]. cbn [rsum] in HS.
    assert (E1 : B_mat n e i n = -1). { unfold B_mat, B_raw. fold n. rewrite Nat.ltb_irrefl, !andb_false_r. destruct (Nat.eqb_spec i n); [lia|reflexivity]. }
    assert (E2 : rsum n (fun j => B_mat n e i j * y j) = / B_max n e * rsum n (fun j => G i j * y j)).
    { rewrite <- rsum_scal. apply rsum_ext. intros j Hj. unfold B_mat, B_raw, G. fold n. rewrite (proj2 (Nat.ltb_lt _ _) Hi), (proj2 (Nat.ltb_lt _ _) Hj). cbn [andb]. unfold Rdiv. ring. }
    rewrite E1, E2 in HS. apply (Rmult_eq_reg_l (/ B_max n e)); [|apply Rinv_neq_0_compat; lra]. rewrite <- Rmult_assoc, Rinv_l by lra. lra. }
  assert (Q : combined_norm z e = combined_norm y e + 2 * rsum n (fun i => (z i - y i) * rsum n (fun j => G i j * y j)) + combined_norm (fun i => z i - y i) e).
  { unfold combined_norm. fold n.
    assert (SYM : rsum n (fun i => rsum n (fun j => (z i - y i) * y j * G i j)) = rsum n (fun i => rsum n (fun j => y i * (z j - y j) * G i j))).
    { rewrite rsum_swap. apply rsum_ext. intros i _. apply rsum_ext. intros j _. unfold G. rewrite (dot_sym (nth j e [])). ring. }
    assert (E1 : rsum n (fun i => (z i - y i) * rsum n (fun j => G i j * y j)) = rsum n (fun i => rsum n (fun j => (z i - y i) * y j * G i j))).
    { apply rsum_ext. intros i _. rewrite <- rsum_scal. apply rsum_ext. intros; ring. }
    rewrite E1. replace (2 * rsum n (fun i => rsum n (fun j => (z i - y i) * y j * G i j))) with (rsum n (fun i => rsum n (fun j => (z i - y i) * y j * G i j)) + rsum n (fun i => rsum n (fun j => y i * (z j - y j) * G i j))) by (rewrite <- SYM; lra).
    rewrite <- !rsum_plus. apply rsum_ext. intros i _. rewrite <- !rsum_plus. apply rsum_ext. intros j _. unfold G. ring. }
  assert (CROSS : rsum n (fun i => (z i - y i) * rsum n (fun j => G i j * y j)) = 0).
  { transitivity (rsum n (fun i => (B_max n e * y n) * (z i + -1 * y i))); [apply rsum_ext; intros i Hi; rewrite ROW by exact Hi; ring|].
    rewrite rsum_scal, rsum_plus, rsum_scal, SZ, SUM. ring. }
  rewrite Q, CROSS. assert (0 <= combined_norm (fun i => z i - y i) e); [|lra]. rewrite (combined_norm_sq d) by assumption. apply rsum_nonneg. intros i _. apply Rle_0_sqr.
Qed.
(** the new amplitudes are that combination of the stored amplitude vectors: entry by entry *)
Lemma vzip_nth f a b q : length a = length b -> (q < length a)%nat -> nth q (vzip f a b) 0 = f (nth q a 0) (nth q b 0).
Proof. revert b q. induction a as [|x a IH]; intros [|y b] [|q] HL Hq; cbn in *; try lia; [reflexivity|]. apply IH; lia. Qed.
Lemma vzip_len f a b : length a = length b -> length (vzip f a b) = length a.
Proof. revert b. induction a as [|x a IH]; intros [|y b] H; cbn in *; try lia. rewrite IH; lia. Qed.
Theorem C45_combination : forall d x (t : list rvec), Forall (fun v => length v = d) t -> (0 < length t)%nat ->
  length (combination x t) = d /\ forall q, (q < d)%nat -> nth q (combination x t) 0 = rsum (length t - 1) (fun l => x l * nth q (nth (S l) t []) 0).
Proof.
  intros d x t HF H0. unfold combination. assert (HN : forall l, (l < length t)%nat -> length (nth l t []) = d) by (intros l Hl; apply (proj1 (Forall_forall _ _) HF), nth_In, Hl).
  rewrite (HN 0%nat H0).
  assert (G : forall m, (m <= length t - 1)%nat -> let v := fold_left (fun acc l => vzip Rplus acc (map (fun y => x l * y) (nth (S l) t []))) (seq 0 m) (repeat 0 d) in
     length v = d /\ forall q, (q < d)%nat -> nth q v 0 = rsum m (fun l => x l * nth q (nth (S l) t []) 0)).
  { induction m as [|m IH]; intros Hm; cbv zeta.
    - cbn. split; [apply repeat_length|]. intros q Hq. apply nth_repeat.
    - rewrite seq_S, fold_left_app. cbn [plus fold_left]. destruct (IH ltac:(lia)) as [L A]. cbv zeta in L, A.
      assert (LM : length (map (fun y => x m * y) (nth (S m) t [])) = d) by (rewrite map_length; apply HN; lia).
      split; [rewrite vzip_len; lia|]. intros q Hq. rewrite vzip_nth by lia. rewrite A by exact Hq. cbn [rsum]. f_equal.
      rewrite (nth_indep _ 0 (x m * 0)) by lia. apply (map_nth (fun y => x m * y)). }
  apply G. lia.
Qed.
(** a pass with zero update and no earlier pass raises: B is 0/0 *)
Theorem C45_zero_update_refuted : forall lstsq max_dim update t0, (2 <= max_dim)%nat -> length (update t0) = length t0 -> Forall (fun x => x = 0) (update t0) ->
  jacobi_step lstsq max_dim update (jacobi_init t0) = Throw (PyError "LinAlgError").
Proof.
  intros lstsq max_dim update t0 H2 HL HZ. unfold jacobi_step. rewrite (proj2 (Nat.leb_le _ _) H2). unfold jacobi_init, diis, trim. cbn [t_hist e_hist tamps app length].
  rewrite (proj2 (Nat.ltb_ge max_dim 2) H2). cbn [length Nat.sub Nat.ltb Nat.leb Nat.eqb]. cbv zeta.
  assert (E : B_max 1 [vzip Rminus (vzip Rplus t0 (update t0)) t0] = 0).
  { unfold B_max, B_raw. cbn [seq flat_map map app length Nat.ltb Nat.leb andb nth rmax_list fold_right].
    assert (ED : dot (vzip Rminus (vzip Rplus t0 (update t0)) t0) (vzip Rminus (vzip Rplus t0 (update t0)) t0) = 0).
    { revert HL HZ. generalize (update t0). induction t0 as [|a t0 IH]; intros [|b u] HL HZ; cbn in HL; try discriminate; [reflexivity|]. inversion HZ; subst. unfold dot. cbn [vzip fold_right].
      fold (dot (vzip Rminus (vzip Rplus t0 u) t0) (vzip Rminus (vzip Rplus t0 u) t0)). rewrite IH by (auto; lia). ring. }
    rewrite ED, Rabs_R0. apply Rmax_left. lra. }
  rewrite E. unfold Rltb. destruct (Rlt_dec 0 0); [lra|reflexivity].
Qed.
(** ---- the solver ---- *)
(** it stops after at most maxiter passes, earlier only if the residual at the start of the
    last pass was small, and returns the energy of the returned amplitudes *)
Theorem C45_solver : forall lstsq max_dim update small energy maxiter t0 E t k, jacobi_solver lstsq max_dim update small energy maxiter t0 = Ok (E, t, k) ->
  E = energy t /\ (1 <= k <= maxiter)%nat /\ exists h s, Run lstsq max_dim update (jacobi_init t0) h s /\ length h = k /\ tamps s = t /\
    ((k < maxiter)%nat -> exists t_old u h', h = h' ++ [(t_old, u)] /\ small t_old = true).
Proof.
  intros lstsq max_dim update small energy maxiter t0 E t k H. unfold jacobi_solver in H.
  assert (G : forall fuel k0 s0 h0 r, Run lstsq max_dim update (jacobi_init t0) h0 s0 -> length h0 = k0 -> jacobi_loop lstsq max_dim update small fuel k0 s0 = Ok r ->
    (k0 <= snd r <= k0 + fuel)%nat /\ exists h, Run lstsq max_dim update (jacobi_init t0) h (fst r) /\ length h = snd r /\
     ((snd r < k0 + fuel)%nat -> exists t_old u h', h = h' ++ [(t_old, u)] /\ small t_old = true)).
  { induction fuel as [|f IH]; intros k0 s0 h0 r HR HL HJ; cbn [jacobi_loop] in HJ.
    - injection HJ as <-. cbn [fst snd]. split; [lia|]. exists h0. split; [exact HR|]. split; [exact HL|]. lia.
    - destruct (jacobi_step _ _ _ s0) as [s1|] eqn:ES; [|discriminate]. cbn [bind] in HJ. pose proof (run_snoc _ _ _ _ _ _ _ HR ES) as HR1.
      destruct (small (tamps s0)) eqn:EM.
      + injection HJ as <-. cbn [fst snd]. split; [lia|]. eexists. split; [exact HR1|]. split; [rewrite app_length; cbn; lia|]. intros _. do 3 eexists. split; [reflexivity|exact EM].
      + destruct (IH (S k0) s1 _ r HR1 ltac:(rewrite app_length; cbn; lia) HJ) as (B & h & R1 & L1 & P). split; [lia|]. exists h. split; [exact R1|]. split; [exact L1|]. intros HK. apply P. lia. }
  destruct (jacobi_loop _ _ _ _ maxiter 0 _) as [r|] eqn:EJ; [|discriminate]. cbn [bind] in H. destruct (Nat.eqb_spec (snd r) 0) as [|NZ]; [discriminate|]. injection H as <- <- <-.
  destruct (G maxiter 0%nat _ [] r (run_nil _ _ _ _) eq_refl EJ) as (B & h & R1 & L1 & P). split; [reflexivity|]. split; [lia|]. exists h, (fst r). repeat split; auto.
Qed.
(** opt_maxiter = 0 raises instead of returning the initial energy *)
Theorem C45_zero_iterations_refuted : forall lstsq max_dim update small energy t0, jacobi_solver lstsq max_dim update small energy 0 t0 = Throw (PyError "UnboundLocalError").
Proof. reflexivity. Qed.
(** two passes with max_dim 2 in one dimension, residual -t/2: a run exists *)
Example C45_nonvacuous : exists h s, Run (fun _ _ _ i => if Nat.eqb i 0 then 1 else 0) 2 (map (fun x => - x / 2)) (jacobi_init [8]) h s /\ length h = 2%nat /\ length (t_hist s) = 2%nat.
Proof.
  set (ls := fun (_ : nat) (_ : nat -> nat -> R) (_ : nat -> R) (i : nat) => if Nat.eqb i 0 then 1 else 0).
  assert (S1 : exists s1, jacobi_step ls 2 (map (fun x => - x / 2)) (jacobi_init [8]) = Ok s1 /\ tamps s1 = [0 + 1 * (8 + - 8 / 2)] /\ t_hist s1 = [[8]; [8 + - 8 / 2]] /\ e_hist s1 = [[8 + - 8 / 2 - 8]]).
  { unfold jacobi_step, jacobi_init, diis, trim. cbn [tamps t_hist e_hist Nat.leb map vzip app length Nat.ltb Nat.sub Nat.eqb]. cbv zeta.
    rewrite Rltb_true; [eexists; split; [reflexivity|]; split; [reflexivity|]; split; reflexivity|]. unfold B_max, B_raw. cbn. apply Rlt_le_trans with (Rabs ((8 + - 8 / 2 - 8) * (8 + - 8 / 2 - 8) + 0)); [|apply Rmax_l]. rewrite Rabs_pos_eq; lra. }
  destruct S1 as (s1 & E1 & T1 & H1 & G1).
  assert (S2 : exists s2, jacobi_step ls 2 (map (fun x => - x / 2)) s1 = Ok s2 /\ length (t_hist s2) = 2%nat).
  { unfold jacobi_step, diis, trim. rewrite T1, H1, G1. cbn [Nat.leb map vzip app length Nat.ltb Nat.sub Nat.eqb tl]. cbv zeta.
    rewrite Rltb_true; [eexists; split; [reflexivity|]; reflexivity|]. unfold B_max, B_raw. cbn.
    match goal with |- 0 < Rmax (Rabs ?v) 0 => apply Rlt_le_trans with (Rabs v); [|apply Rmax_l]; rewrite Rabs_pos_eq; lra end. }
  destruct S2 as (s2 & E2 & L2). do 2 eexists. split; [eapply run_snoc; [eapply run_snoc; [apply run_nil|exact E1]|exact E2]|]. split; [reflexivity|exact L2].
Qed.

Print Assumptions C45_history_bounded_and_aligned. Print Assumptions C45_switched_off_grows_refuted. Print Assumptions C45_diis_optimal. Print Assumptions C45_combination.
Print Assumptions C45_zero_update_refuted. Print Assumptions C45_solver. Print Assumptions C45_zero_iterations_refuted.
