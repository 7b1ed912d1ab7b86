(** C97: sparse vectors and matrices as dictionaries, for every history of set_element calls. *)
From Coq Require Import Reals String List Arith Lia Bool Lra Sorting.Sorted.
From Verif Require Import CBase Result SparseModel SparseProofs.
Import ListNotations.

(** ---- vocabulary ---- *)
(** (key, value) is the last thing written for this key *)
Definition LastWrite {K V} (ws : list (K * V)) (k : K) (v : V) : Prop := exists a b, ws = (a ++ (k, v) :: b)%list /\ forall v', ~ In (k, v') b.
Definition NeverWritten {K V} (ws : list (K * V)) (k : K) : Prop := forall v, ~ In (k, v) ws.
(** the objects made by calling set_element for each write in turn *)
Definition vector_of (ws : list (nat * C)) : svec := fold_left (fun v w => mput (fst w) (snd w) v) ws [].
Definition matrix_of (ws : list (nat * nat * C)) : smat := fold_left (fun m w => sset m (fst (fst w)) (snd (fst w)) (snd w)) ws [].

Lemma last_snoc {K V} (ws : list (K * V)) k0 v0 k v : LastWrite (ws ++ [(k0, v0)]) k v <-> (k = k0 /\ v = v0) \/ (k <> k0 /\ LastWrite ws k v).
Proof.
  split.
  - intros (a & b & E & H). destruct (exists_last (l := (k, v) :: b) ltac:(discriminate)) as (b' & x & Eb). rewrite Eb, app_assoc in E. apply app_inj_tail in E. destruct E as (-> & <-). destruct b' as [|y b'].
    + cbn in Eb. injection Eb as Ek Ev Eb. left. split; congruence.
    + cbn in Eb. injection Eb as <- Eb. right. split.
      * intros ->. apply (H v0). rewrite Eb. apply in_or_app. right. now left.
      * exists a, b'. split; [reflexivity|]. intros v' Hv. apply (H v'). rewrite Eb. apply in_or_app. now left.
  - intros [(-> & ->)|(N & a & b & -> & H)].
    + exists ws, []. split; [reflexivity|intros v' []].
    + exists a, (b ++ [(k0, v0)])%list. split; [now rewrite <- app_assoc|]. intros v' Hv. apply in_app_iff in Hv. destruct Hv as [Hv|[Hv|[]]]; [exact (H v' Hv)|]. injection Hv as Hv _. congruence.
Qed.
Lemma never_snoc {K V} (ws : list (K * V)) k0 v0 k : NeverWritten (ws ++ [(k0, v0)]) k <-> k <> k0 /\ NeverWritten ws k.
Proof.
  unfold NeverWritten. split.
  - intros H. split; [intros ->; apply (H v0); apply in_or_app; right; now left|intros v Hv; apply (H v); apply in_or_app; now left].
  - intros (N & H) v Hv. apply in_app_iff in Hv. destruct Hv as [Hv|[Hv|[]]]; [exact (H v Hv)|]. injection Hv as Hv _. congruence.
Qed.
Lemma ksorted_ext {V} : forall m1 m2 : list (nat * V), ksorted m1 -> ksorted m2 -> (forall k, mfind k m1 = mfind k m2) -> m1 = m2.
Proof.
  induction m1 as [|(k1, v1) m1 IH]; intros [|(k2, v2) m2] H1 H2 E; [reflexivity| | |].
  - specialize (E k2). cbn in E. rewrite Nat.eqb_refl in E. discriminate.
  - specialize (E k1). cbn in E. rewrite Nat.eqb_refl in E. discriminate.
  - assert (LT : forall k v (m : list (nat * V)), ksorted ((k, v) :: m) -> forall j, mfind j m <> None -> k < j).
    { intros k v m H j Hj. inversion H as [|? ? HS HF]; subst. rewrite Forall_forall in HF. apply HF. destruct (in_dec Nat.eq_dec j (map fst m)) as [I|I]; [exact I|]. apply mfind_key in I. contradiction. }
    assert (EK : k1 = k2).
    { destruct (Nat.lt_trichotomy k1 k2) as [L|[L|L]]; [|exact L|]; exfalso.
      - pose proof (E k1) as Q. cbn in Q. rewrite Nat.eqb_refl in Q. destruct (Nat.eqb_spec k1 k2); [lia|]. assert (k2 < k1) by (apply (LT _ _ _ H2); congruence). lia.
      - pose proof (E k2) as Q. cbn in Q. rewrite Nat.eqb_refl in Q. destruct (Nat.eqb_spec k2 k1); [lia|]. assert (k1 < k2) by (apply (LT _ _ _ H1); congruence). lia. }
    subst k2. pose proof (E k1) as Q. cbn in Q. rewrite Nat.eqb_refl in Q. injection Q as ->. f_equal. destruct (ksorted_notin _ _ _ H1) as (N1 & S1), (ksorted_notin _ _ _ H2) as (N2 & S2). apply IH; trivial.
    intros k. pose proof (E k) as Q. cbn in Q. destruct (Nat.eqb_spec k k1) as [Qk|]; [subst k; congruence|exact Q].
Qed.

(** ---- vectors ---- *)
Lemma vector_snoc ws w : vector_of (ws ++ [w]) = mput (fst w) (snd w) (vector_of ws).
Proof. unfold vector_of. rewrite fold_left_app. reflexivity. Qed.
Lemma vector_sorted ws : ksorted (vector_of ws).
Proof. induction ws as [|w ws IH] using rev_ind; [constructor|]. rewrite vector_snoc. now apply ksorted_mput. Qed.
Lemma vector_find ws : forall k c, mfind k (vector_of ws) = Some c <-> LastWrite ws k c.
Proof.
  induction ws as [|(k0, c0) ws IH] using rev_ind; intros k c; [split; [discriminate|intros (a & b & E & _); destruct a; discriminate]|].
  rewrite vector_snoc, mfind_mput, last_snoc, <- IH. cbn [fst snd]. destruct (Nat.eqb_spec k k0) as [->|N]; [split; [intros Q; injection Q as ->; now left|intros [(_ & ->)|(Q & _)]; [reflexivity|contradiction]]|]. split; [right; now split|]. intros [(Q & _)|(_ & Q)]; [contradiction|exact Q].
Qed.
Lemma never_last {K V} (dec : forall a b : K, {a = b} + {a <> b}) (ws : list (K * V)) k : NeverWritten ws k <-> forall v, ~ LastWrite ws k v.
Proof.
  split.
  - intros H v (a & b & -> & _). apply (H v). apply in_or_app. right. now left.
  - induction ws as [|(k0, v0) ws IH] using rev_ind; intros H; [intros v []|]. apply never_snoc. assert (N : k <> k0) by (intros ->; apply (H v0); apply last_snoc; left; split; reflexivity). split; [exact N|]. apply IH. intros v Hv. apply (H v). apply last_snoc. right. now split.
Qed.
(** to_map of a vector: every key that was written, once, in increasing order, with the last value *)
Theorem C97_vector_map : forall ws, StronglySorted lt (map fst (vector_of ws)) /\ forall k c, In (k, c) (vector_of ws) <-> LastWrite ws k c.
Proof. intros ws. split; [exact (vector_sorted ws)|]. intros k c. rewrite (mfind_in _ _ _ (vector_sorted ws)). apply vector_find. Qed.
Print Assumptions C97_vector_map.
Theorem C97_vector_get : forall ws k, (forall c, LastWrite ws k c -> vec_get (vector_of ws) k = c) /\ (NeverWritten ws k -> vec_get (vector_of ws) k = C0).
Proof.
  intros ws k. unfold vec_get. split.
  - intros c H. apply vector_find in H. now rewrite H.
  - intros H. rewrite (never_last Nat.eq_dec) in H. destruct (mfind k (vector_of ws)) as [c|] eqn:E; [|reflexivity]. apply vector_find in E. destruct (H c E).
Qed.
Print Assumptions C97_vector_get.

(** ---- matrices ---- *)
Lemma matrix_snoc ws w : matrix_of (ws ++ [w]) = sset (matrix_of ws) (fst (fst w)) (snd (fst w)) (snd w).
Proof. unfold matrix_of. rewrite fold_left_app. reflexivity. Qed.
Lemma mput_nonempty {V} k (v : V) m : mput k v m <> [].
Proof. intros H. apply (f_equal (mfind k)) in H. rewrite mfind_mput, Nat.eqb_refl in H. discriminate H. Qed.
Lemma matrix_wf ws : wfm (matrix_of ws) /\ forall I r, mfind I (matrix_of ws) = Some r -> r <> [].
Proof.
  induction ws as [|((I0, J0), c0) ws (IH & IN)] using rev_ind; [split; [apply wfm_nil|discriminate]|]. rewrite matrix_snoc. cbn [fst snd]. unfold sset. split.
  - apply wfm_put; [exact IH|]. apply ksorted_mput. now apply wfm_row.
  - intros I r H. rewrite mfind_mput in H. destruct (I =? I0); [injection H as <-; apply mput_nonempty|exact (IN I r H)].
Qed.
Lemma matrix_find ws : forall I J c, mfind J (row (matrix_of ws) I) = Some c <-> LastWrite ws (I, J) c.
Proof.
  induction ws as [|((I0, J0), c0) ws IH] using rev_ind; intros I J c; [split; [discriminate|intros (a & b & E & _); destruct a; discriminate]|].
  rewrite matrix_snoc, last_snoc, <- IH. cbn [fst snd]. unfold sset. rewrite row_put. destruct (Nat.eqb_spec I I0) as [->|N].
  - rewrite mfind_mput. destruct (Nat.eqb_spec J J0) as [->|N]; [split; [intros Q; injection Q as ->; left; split; reflexivity|intros [(_ & ->)|(Q & _)]; [reflexivity|contradiction]]|].
    split; [intros Q; right; split; [congruence|exact Q]|]. intros [(Q & _)|(_ & Q)]; [congruence|exact Q].
  - split; [intros Q; right; split; [congruence|exact Q]|]. intros [(Q & _)|(_ & Q)]; [congruence|exact Q].
Qed.
(** to_map of a matrix: rows and columns in increasing order, no empty row, and exactly the entries written, with their last values *)
Theorem C97_matrix_map : forall ws, StronglySorted lt (map fst (matrix_of ws)) /\
  (forall I r, In (I, r) (matrix_of ws) -> r <> [] /\ StronglySorted lt (map fst r)) /\
  forall I J c, (exists r, In (I, r) (matrix_of ws) /\ In (J, c) r) <-> LastWrite ws (I, J) c.
Proof.
  intros ws. destruct (matrix_wf ws) as (W & NE). pose proof W as (W1 & W2). split; [exact W1|]. split.
  - intros I r H. rewrite Forall_forall in W2. split; [|exact (W2 _ H)]. apply (NE I). apply mfind_in; [exact W1|exact H].
  - intros I J c. rewrite <- matrix_find. unfold row. split.
    + intros (r & H1 & H2). rewrite (proj1 (mfind_in _ _ _ W1) H1). apply mfind_in; [rewrite Forall_forall in W2; exact (W2 _ H1)|exact H2].
    + intros H. destruct (mfind I (matrix_of ws)) as [r|] eqn:E; [|discriminate]. apply (mfind_in _ _ _ W1) in E. exists r. split; [exact E|]. apply mfind_in; [rewrite Forall_forall in W2; exact (W2 _ E)|exact H].
Qed.
Print Assumptions C97_matrix_map.
Theorem C97_matrix_get : forall ws I J, (forall c, LastWrite ws (I, J) c -> sget (matrix_of ws) I J = c) /\ (NeverWritten ws (I, J) -> sget (matrix_of ws) I J = C0).
Proof.
  intros ws I J. rewrite sget_row. unfold vec_get. split.
  - intros c H. apply matrix_find in H. now rewrite H.
  - intros H. assert (D : forall a b : nat * nat, {a = b} + {a <> b}) by (intros [] []; decide equality; apply Nat.eq_dec). rewrite (never_last D) in H. destruct (mfind J _) as [c|] eqn:E; [|reflexivity]. apply matrix_find in E. destruct (H c E).
Qed.
Print Assumptions C97_matrix_get.
(** two histories that leave the same last values make the same object *)
Theorem C97_history : forall ws ws' vs vs', (forall k c, LastWrite vs k c <-> LastWrite vs' k c) -> (forall k c, LastWrite ws k c <-> LastWrite ws' k c) -> vector_of vs = vector_of vs' /\ matrix_of ws = matrix_of ws'.
Proof.
  intros ws ws' vs vs' HV HM. assert (SO : forall A (x y : option A), (forall c, x = Some c <-> y = Some c) -> x = y) by (intros A [a|] [b|] H; [apply H; reflexivity|symmetry; apply H; reflexivity|apply H; reflexivity|reflexivity] || (intros A [a|] [b|] H; [rewrite (proj2 (H b) eq_refl); reflexivity|rewrite (proj1 (H a) eq_refl); reflexivity|rewrite (proj2 (H b) eq_refl); reflexivity|reflexivity])).
  split.
  - apply ksorted_ext; try apply vector_sorted. intros k. apply SO. intros c. rewrite !vector_find. apply HV.
  - destruct (matrix_wf ws) as ((W1 & W2) & NE), (matrix_wf ws') as ((W1' & W2') & NE'). assert (ER : forall I, row (matrix_of ws) I = row (matrix_of ws') I).
    { intros I. apply ksorted_ext; try (apply wfm_row; split; assumption). intros J. apply SO. intros c. rewrite !matrix_find. apply HM. }
    apply ksorted_ext; trivial. intros I. pose proof (ER I) as E. unfold row in E. destruct (mfind I (matrix_of ws)) as [r|] eqn:E1, (mfind I (matrix_of ws')) as [r'|] eqn:E2; [now f_equal| | |reflexivity].
    + destruct (NE I r E1 E).
    + destruct (NE' I r' E2). now symmetry.
Qed.
Print Assumptions C97_history.
Example C97_nonvacuous : LastWrite [((0, 1), C1); ((2, 0), C1); ((0, 1), C0)] (0, 1) C0 /\ matrix_of [((0, 1), C1); ((2, 0), C1); ((0, 1), C0)] = [(0, [(1, C0)]); (2, [(0, C1)])] /\ NeverWritten [((0, 1), C1)] (1, 1).
Proof. split; [exists [((0, 1), C1); ((2, 0), C1)], []; split; [reflexivity|intros v []]|]. split; [reflexivity|]. intros v [Q|[]]. discriminate Q. Qed.
