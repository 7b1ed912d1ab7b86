(** Proofs: QubitOpPool::fill_pool (C33). *)
From Coq Require Import Reals String List Arith Lia Bool Lra Permutation PeanoNat.
From Verif Require Import CBase Result Bits Spec GateModel OpSpec ComputerModel SafeProofs GateProofs LibProofs SimProofs InteractProofs CircuitModel SimplifyProofs SimplifyLoop CircuitProofs CompareProofs PauliProofs OperatorModel OperatorProofs OrderProofs.
Import ListNotations.

Fixpoint digits (n I : nat) : list nat :=
  match n with O => [] | S m => (digits m (I / 4) ++ [I mod 4])%list end.
Lemma digits_length n : forall I, length (digits n I) = n.
Proof. induction n; intros I; cbn [digits]; [reflexivity|]. rewrite app_length, IHn. cbn; lia. Qed.
Lemma digits_zero n : digits n 0 = repeat 0 n.
Proof.
  induction n; cbn [digits]; [reflexivity|]. change (0 / 4) with 0. change (0 mod 4) with 0. rewrite IHn.
  rewrite <- repeat_cons. reflexivity.
Qed.
Lemma div4_lt n I : I < 4 ^ S n -> I / 4 < 4 ^ n.
Proof. intros H. apply Nat.div_lt_upper_bound; [lia|]. rewrite Nat.pow_succ_r' in H. exact H. Qed.
Lemma base4_digits n : forall fuel I, I < fuel -> I < 4 ^ n -> 1 <= n ->
  length (to_base4 fuel I) <= n /\ (repeat 0 (n - length (to_base4 fuel I)) ++ to_base4 fuel I)%list = digits n I.
Proof.
  induction n as [|n IH]; intros fuel I Hf HI Hn; [lia|]. destruct fuel as [|f]; [lia|]. cbn [to_base4].
  destruct (Nat.ltb_spec I 4).
  - split; [cbn; lia|]. cbn [length digits]. rewrite (Nat.div_small I 4), (Nat.mod_small I 4) by lia. rewrite digits_zero.
    replace (S n - 1) with n by lia. reflexivity.
  - assert (1 <= n). { destruct n; [cbn in HI; lia|lia]. }
    assert (I / 4 < I) by (apply Nat.div_lt; lia).
    destruct (IH f (I / 4)) as [K1 K2]; [lia|apply div4_lt, HI|assumption|].
    rewrite app_length. cbn [length]. split; [lia|]. cbn [digits]. rewrite <- K2.
    replace (S n - (length (to_base4 f (I / 4)) + 1)) with (n - length (to_base4 f (I / 4))) by lia. rewrite app_assoc. reflexivity.
Qed.
Lemma idx_str_digits n I : 1 <= n -> I < 4 ^ n -> pauli_idx_str (to_base4 (S I) I) n = Ok (digits n I).
Proof.
  intros Hn HI. destruct (base4_digits n (S I) I) as [H1 H2]; [lia|exact HI|exact Hn|]. unfold pauli_idx_str.
  destruct (Nat.ltb_spec n (length (to_base4 (S I) I))); [lia|]. rewrite H2. reflexivity.
Qed.
Lemma digits_lt n : forall I, Forall (fun d => d < 4) (digits n I).
Proof.
  induction n; intros I; cbn [digits]; [constructor|]. apply Forall_app; split; [auto|]. constructor; [|constructor]. apply Nat.mod_upper_bound; lia.
Qed.
Lemma digits_inj n : forall I J, I < 4 ^ n -> J < 4 ^ n -> digits n I = digits n J -> I = J.
Proof.
  induction n; intros I J HI HJ E; [cbn in *; lia|]. cbn [digits] in E. apply app_inj_tail in E. destruct E as [E1 E2].
  apply IHn in E1; [|apply div4_lt, HI|apply div4_lt, HJ].
  rewrite (Nat.div_mod I 4), (Nat.div_mod J 4) by lia. congruence.
Qed.
Lemma digits_surj n : forall ds, length ds = n -> Forall (fun d => d < 4) ds -> exists I, I < 4 ^ n /\ digits n I = ds.
Proof.
  induction n as [|n IH]; intros ds HL HF.
  - destruct ds; [|discriminate]. exists 0. cbn; auto.
  - destruct (exists_last (l := ds)) as (ds' & d & E); [destruct ds; [discriminate|congruence]|]. subst ds.
    rewrite app_length in HL. cbn in HL. apply Forall_app in HF. destruct HF as [HF1 HF2]. inversion HF2; subst.
    destruct (IH ds' ltac:(lia) HF1) as (I & HI & E). exists (4 * I + d). split.
    + rewrite Nat.pow_succ_r'. lia.
    + cbn [digits]. rewrite Nat.mul_comm, Nat.div_add_l, Nat.div_small, Nat.add_0_r, E by lia.
      rewrite Nat.add_comm, Nat.mod_add, Nat.mod_small by lia. reflexivity.
Qed.

Definition pg (d k : nat) : gate := match d with 1 => gX k | 2 => gY k | _ => gZ k end.
Fixpoint pgates (k : nat) (ds : list nat) : list gate :=
  match ds with
  | [] => []
  | d :: r => ((if d =? 0 then [] else [pg d k]) ++ pgates (S k) r)%list
  end.
Lemma pauli_gates_ok ds : forall k, Forall (fun d => d < 4) ds -> pauli_gates k ds = Ok (pgates k ds).
Proof.
  induction ds as [|d r IH]; intros k H; [reflexivity|]. inversion H; subst. cbn [pauli_gates pgates].
  rewrite IH by assumption. destruct d as [|[|[|[|d]]]]; try lia; cbn [Nat.eqb bind pauli_of_digit pg]; try reflexivity;
    unfold make_gate; rewrite Nat.eqb_refl; reflexivity.
Qed.
Lemma pg_pauli d k : pauli_gate (pg d k).
Proof. destruct d as [|[|[|d]]]; cbn; [apply gZ_pauli|apply gX_pauli|apply gY_pauli|apply gZ_pauli]. Qed.
Lemma pg_target d k : gtarget (pg d k) = k.
Proof. destruct d as [|[|[|d]]]; reflexivity. Qed.
Lemma pgates_targets ds : forall k g, In g (pgates k ds) -> k <= gtarget g < k + length ds.
Proof.
  induction ds as [|d r IH]; intros k g H; [destruct H|]. cbn [pgates] in H. apply in_app_or in H. destruct H as [H|H].
  - destruct (d =? 0); [destruct H|]. destruct H as [<-|[]]. rewrite pg_target. cbn; lia.
  - apply IH in H. cbn; lia.
Qed.
Lemma pgates_canonical ds : forall k, canonical_pauli (pgates k ds).
Proof.
  induction ds as [|d r IH]; intros k; cbn [pgates]; [split; constructor|]. destruct (IH (S k)) as [H1 H2].
  destruct (d =? 0); cbn [app]; [split; assumption|]. split.
  - constructor; [apply pg_pauli|assumption].
  - cbn [map increasing]. split; [|assumption]. intros y Hy. apply in_map_iff in Hy. destruct Hy as (g & <- & Hg).
    apply pgates_targets in Hg. rewrite pg_target. lia.
Qed.
Lemma pg_inj d e k : d < 4 -> e < 4 -> d <> 0 -> e <> 0 -> pg d k = pg e k -> d = e.
Proof.
  intros Hd He N1 N2 E. apply (f_equal glabel) in E.
  destruct d as [|[|[|[|d]]]]; destruct e as [|[|[|[|e]]]]; try lia; try congruence; cbn in E; try discriminate E; reflexivity.
Qed.
Lemma pgates_inj ds : forall es k, length ds = length es -> Forall (fun d => d < 4) ds -> Forall (fun d => d < 4) es ->
  pgates k ds = pgates k es -> ds = es.
Proof.
  induction ds as [|d r IH]; intros [|e s] k HL Hd He E; try discriminate HL; [reflexivity|].
  inversion Hd; subst. inversion He; subst. cbn [pgates] in E. cbn in HL.
  assert (HNE : forall d' (x : nat) l l', gtarget (pg d' k) = k -> pg d' k :: l = pgates (S k) l' -> x = x -> False).
  { intros d' x l l' Ht EE _. assert (HI : In (pg d' k) (pgates (S k) l')) by (rewrite <- EE; left; reflexivity).
    apply pgates_targets in HI. lia. }
  destruct (Nat.eqb_spec d 0); destruct (Nat.eqb_spec e 0); subst; cbn [app] in E.
  - f_equal. apply (IH s (S k)); auto.
  - exfalso. symmetry in E. exact (HNE e 0 _ _ (pg_target e k) E eq_refl).
  - exfalso. exact (HNE d 0 _ _ (pg_target d k) E eq_refl).
  - inversion E. f_equal; [apply (pg_inj d e k); auto|]. apply (IH s (S k)); auto.
Qed.
Lemma pg_of_pauli g : pauli_gate g -> exists d, d < 4 /\ d <> 0 /\ g = pg d (gtarget g).
Proof.
  intros H. destruct (pauli_label_cases _ (proj1 H)) as [E|[E|E]]; [exists 1|exists 2|exists 3];
    (split; [lia|split; [lia|]]); apply pauli_gate_det; try assumption; try apply pg_pauli; try (rewrite pg_target; reflexivity); rewrite E; reflexivity.
Qed.
Lemma pgates_surj n : forall k gs, canonical_pauli gs -> Forall (fun g => k <= gtarget g < k + n) gs ->
  exists ds, length ds = n /\ Forall (fun d => d < 4) ds /\ pgates k ds = gs.
Proof.
  induction n as [|n IH]; intros k gs [HP HI] HF.
  - destruct gs as [|g r]; [exists []; auto|]. inversion HF; subst. lia.
  - destruct gs as [|g r].
    + destruct (IH (S k) []) as (ds & H1 & H2 & H3); [split; constructor|constructor|]. exists (0 :: ds).
      split; [cbn; lia|]. split; [constructor; [lia|assumption]|exact H3].
    + inversion HP; subst. inversion HF as [|? ? HFg HFr]; subst. cbn [map increasing] in HI. destruct HI as [HI1 HI2].
      destruct (Nat.eq_dec (gtarget g) k) as [E|N].
      * destruct (IH (S k) r) as (ds & L1 & L2 & L3); [split; assumption| |].
        { apply Forall_forall. intros h Hh. rewrite Forall_forall in HFr. specialize (HFr h Hh).
          specialize (HI1 (gtarget h) (in_map _ _ _ Hh)). lia. }
        destruct (pg_of_pauli g H1) as (d & Hd1 & Hd2 & Hd3). exists (d :: ds). split; [cbn; lia|]. split; [constructor; assumption|].
        cbn [pgates]. destruct (Nat.eqb_spec d 0); [contradiction|]. cbn [app]. rewrite L3. rewrite E in Hd3. rewrite <- Hd3. reflexivity.
      * destruct (IH (S k) (g :: r)) as (ds & L1 & L2 & L3); [split; [assumption|cbn [map increasing]; auto]| |].
        { constructor; [lia|]. apply Forall_forall. intros h Hh. rewrite Forall_forall in HFr. specialize (HFr h Hh).
          specialize (HI1 (gtarget h) (in_map _ _ _ Hh)). lia. }
        exists (0 :: ds). split; [cbn; lia|]. split; [constructor; [lia|assumption]|exact L3].
Qed.

(** the Pauli strings of an n-qubit register in pool order *)
Definition strings (n : nat) : list (list gate) := map (fun I => pgates 0 (digits n I)) (seq 0 (4 ^ n)).
Lemma strings_length n : length (strings n) = 4 ^ n.
Proof. unfold strings. rewrite map_length, seq_length. reflexivity. Qed.
Lemma NoDup_map_inj {A B} (f : A -> B) l : (forall x y, In x l -> In y l -> f x = f y -> x = y) -> NoDup l -> NoDup (map f l).
Proof.
  induction l as [|x r IH]; intros Hf H; cbn; constructor; inversion H; subst.
  - intros HI. apply in_map_iff in HI. destruct HI as (y & E & HI). apply Hf in E; [subst; contradiction|right; assumption|left; reflexivity].
  - apply IH; [|assumption]. intros; apply Hf; auto; right; assumption.
Qed.
Lemma strings_nodup n : NoDup (strings n).
Proof.
  apply NoDup_map_inj; [|apply seq_NoDup]. intros I J HI HJ E. apply in_seq in HI, HJ.
  apply (digits_inj n); [lia|lia|]. apply (pgates_inj _ _ 0); [rewrite !digits_length; reflexivity|apply digits_lt|apply digits_lt|exact E].
Qed.
Lemma strings_all n gs : In gs (strings n) <-> canonical_pauli gs /\ Forall (fun g => gtarget g < n) gs.
Proof.
  unfold strings. rewrite in_map_iff. split.
  - intros (I & <- & _). split; [apply pgates_canonical|]. apply Forall_forall. intros g Hg. apply pgates_targets in Hg. rewrite digits_length in Hg. lia.
  - intros [HC HF]. destruct (pgates_surj n 0 gs HC) as (ds & H1 & H2 & H3).
    { eapply Forall_impl; [|exact HF]. intros g Hg; cbv beta in *; lia. }
    destruct (digits_surj n ds H1 H2) as (I & HI & E). exists I. rewrite E. split; [exact H3|]. apply in_seq. lia.
Qed.
Definition pool_of (l : list (list gate)) : qpool := map (fun gs => (C1, [(C1, gs)])) l.
Lemma fill_complete p n : 1 <= n -> fill_pool p "complete_qubit" n = Ok (p ++ pool_of (strings n)).
Proof.
  intros Hn. unfold fill_pool. cbn [String.eqb Ascii.eqb Bool.eqb]. unfold strings, pool_of. rewrite map_map.
  assert (HG : forall l, (forall I, In I l -> I < 4 ^ n) -> forall q, foreach l (fun I p =>
      do ds <- pauli_idx_str (to_base4 (S I) I) n;
      if negb (Nat.eqb (length ds) n) then Throw InvalidArg
      else do gs <- pauli_gates 0 ds; Ok (pool_add_term p C1 [(C1, gs)])) q = Ok (q ++ map (fun I => (C1, [(C1, pgates 0 (digits n I))])) l)).
  { induction l as [|I r IH]; intros HL q; cbn [foreach map]; [rewrite app_nil_r; reflexivity|].
    rewrite idx_str_digits by (auto; apply HL; left; reflexivity). cbn [bind]. rewrite digits_length, Nat.eqb_refl. cbn [negb].
    rewrite pauli_gates_ok by apply digits_lt. cbn [bind]. rewrite IH by (intros; apply HL; right; assumption).
    unfold pool_add_term. rewrite <- app_assoc. reflexivity. }
  apply HG. intros I HI. apply in_seq in HI. lia.
Qed.
Definition ycount (gs : list gate) : nat := length (filter (fun g => String.eqb (glabel g) "Y") gs).
Lemma ycount_pgates ds : forall k, Forall (fun d => d < 4) ds -> ycount (pgates k ds) = count_y ds.
Proof.
  induction ds as [|d r IH]; intros k H; [reflexivity|]. inversion H; subst. unfold count_y in *. cbn [pgates filter].
  unfold ycount. rewrite filter_app, app_length. fold (ycount (pgates (S k) r)). rewrite IH by assumption.
  destruct d as [|[|[|[|d]]]]; try lia; reflexivity.
Qed.
Lemma fill_cqoy p n : 1 <= n -> fill_pool p "cqoy" n = Ok (p ++ pool_of (filter (fun gs => Nat.odd (ycount gs)) (strings n))).
Proof.
  intros Hn. unfold fill_pool. cbn [String.eqb Ascii.eqb Bool.eqb]. unfold strings, pool_of.
  assert (HG : forall l, (forall I, In I l -> I < 4 ^ n) -> forall q, foreach l (fun I p =>
      do ds <- pauli_idx_str (to_base4 (S I) I) n;
      if negb (Nat.eqb (length ds) n) then Throw InvalidArg
      else do gs <- pauli_gates 0 ds; Ok (if Nat.odd (count_y ds) then pool_add_term p C1 [(C1, gs)] else p)) q
      = Ok (q ++ map (fun gs => (C1, [(C1, gs)])) (filter (fun gs => Nat.odd (ycount gs)) (map (fun I => pgates 0 (digits n I)) l)))).
  { induction l as [|I r IH]; intros HL q; cbn [foreach map filter]; [rewrite app_nil_r; reflexivity|].
    rewrite idx_str_digits by (auto; apply HL; left; reflexivity). cbn [bind]. rewrite digits_length, Nat.eqb_refl. cbn [negb].
    rewrite pauli_gates_ok by apply digits_lt. cbn [bind]. rewrite IH by (intros; apply HL; right; assumption).
    rewrite ycount_pgates by apply digits_lt.
    destruct (Nat.odd (count_y (digits n I))); cbn [map]; [|reflexivity]. unfold pool_add_term. rewrite <- app_assoc. reflexivity. }
  apply HG. intros I HI. apply in_seq in HI. lia.
Qed.
Lemma fill_unknown p t n : t <> "complete_qubit"%string -> t <> "cqoy"%string -> fill_pool p t n = Throw InvalidArg.
Proof. intros H1 H2. unfold fill_pool. apply String.eqb_neq in H1, H2. rewrite H1, H2. reflexivity. Qed.
Lemma fill_zero : fill_pool [] "complete_qubit" 0 = Throw UB_oob.
Proof. reflexivity. Qed.
