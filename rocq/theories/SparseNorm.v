(** Error bounds for circuit and operator matrices. *)
From Coq Require Import Reals String List Arith Lia Bool Lra Sorting.Sorted.
From Verif Require Import CBase Result Bits Spec GateModel ComputerModel CircuitModel OperatorModel SparseModel OpSpec
  ApplyProofs SafeProofs GateProofs LibProofs CleanProofs SimProofs PauliProofs PauliIdx SparseProofs SparseApply.
Import ListNotations.

(** *** Euclidean norm over a register *)
Definition normsq (n : nat) (a : state) : R := Re (inner n a a).
Definition norm (n : nat) (a : state) : R := sqrt (normsq n a).
Local Open Scope R_scope.
Lemma Re_Csum {A} (f : A -> C) l : Re (Csum f l) = fold_right (fun x acc => Re (f x) + acc) 0 l.
Proof. induction l as [|x l IH]; [reflexivity|]. rewrite Csum_cons. cbn [Cadd Re fold_right]. rewrite IH. reflexivity. Qed.
Lemma normsq_sum n a : normsq n a = fold_right (fun I acc => Cnorm2 (a I) + acc) 0 (seq 0 (2 ^ n)).
Proof.
  unfold normsq, inner. rewrite Re_Csum. induction (seq 0 (2 ^ n)) as [|x l IH]; [reflexivity|]. cbn [fold_right]. rewrite IH. f_equal.
  rewrite Cmul_conj. reflexivity.
Qed.
Lemma sum_nonneg (f : nat -> R) l : (forall x, 0 <= f x) -> 0 <= fold_right (fun I acc => f I + acc) 0 l.
Proof. intros H; induction l as [|x l IH]; cbn; [lra|]. specialize (H x). lra. Qed.
Lemma normsq_nonneg n a : 0 <= normsq n a.
Proof. rewrite normsq_sum. apply sum_nonneg. intros; apply Cnorm2_nonneg. Qed.
Lemma sum_bound (f : nat -> R) l x : (forall x, 0 <= f x) -> In x l -> f x <= fold_right (fun I acc => f I + acc) 0 l.
Proof. intros H; induction l as [|y l IH]; cbn; [tauto|]. intros [->|Hx]; [pose proof (sum_nonneg f l H); lra|]. specialize (IH Hx). specialize (H y). lra. Qed.
Lemma amp_le_norm n a I : (I < 2 ^ n)%nat -> Cabs (a I) <= norm n a.
Proof.
  intros H. unfold Cabs, norm. apply sqrt_le_1_alt. rewrite normsq_sum. apply (sum_bound (fun I => Cnorm2 (a I))); [intros; apply Cnorm2_nonneg|]. apply in_seq; lia.
Qed.
Lemma normsq_bound n a e : 0 <= e -> (forall I, (I < 2 ^ n)%nat -> Cabs (a I) <= e) -> norm n a <= e * sqrt (INR (2 ^ n)).
Proof.
  intros He H. unfold norm. rewrite <- (sqrt_square e He) at 1. rewrite <- sqrt_mult by (try apply pos_INR; nra). apply sqrt_le_1_alt.
  rewrite normsq_sum. assert (HG : forall k, (k <= 2 ^ n)%nat -> fold_right (fun I acc => Cnorm2 (a I) + acc) 0 (seq 0 k) <= e * e * INR k).
  { induction k as [|k IH]; intros Hk; [cbn; lra|]. rewrite seq_S, fold_right_app. cbn [fold_right Nat.add].
    assert (HS : forall l c, fold_right (fun I acc => Cnorm2 (a I) + acc) c l = fold_right (fun I acc => Cnorm2 (a I) + acc) 0 l + c).
    { induction l as [|y l IHl]; intros c; cbn; [lra|]. rewrite IHl. lra. }
    rewrite HS. rewrite S_INR. specialize (IH ltac:(lia)).
    assert (Cnorm2 (a k) <= e * e). { rewrite <- Cabs_sq. pose proof (Cabs_nonneg (a k)). specialize (H k ltac:(lia)). nra. }
    lra. }
  apply HG. lia.
Qed.
Lemma norm_ext n a b : (forall I, (I < 2 ^ n)%nat -> a I = b I) -> norm n a = norm n b.
Proof.
  intros H. unfold norm. f_equal. rewrite !normsq_sum. assert (HG : forall l, (forall I, In I l -> (I < 2 ^ n)%nat) -> fold_right (fun I acc => Cnorm2 (a I) + acc) 0 l = fold_right (fun I acc => Cnorm2 (b I) + acc) 0 l).
  { induction l as [|x l IH]; intros HL; [reflexivity|]. cbn. rewrite IH by (intros; apply HL; right; assumption). rewrite H by (apply HL; left; reflexivity). reflexivity. }
  apply HG. intros I HI. apply in_seq in HI. lia.
Qed.
Lemma normsq_lin n a b x : normsq n (sadd a (sscale (RtoC x) b)) = normsq n a + 2 * x * Re (inner n a b) + x * x * normsq n b.
Proof.
  unfold normsq, inner. rewrite !Re_Csum. induction (seq 0 (2 ^ n)) as [|y l IH]; [cbn; ring|]. cbn [fold_right]. rewrite IH.
  unfold sadd, sscale. cbn [Cmul Cadd Cconj RtoC Re Im]. ring.
Qed.
Lemma cauchy n a b : Re (inner n a b) <= norm n a * norm n b.
Proof.
  set (A := normsq n a). set (B := Re (inner n a b)). set (D := normsq n b).
  assert (HA : 0 <= A) by apply normsq_nonneg. assert (HD : 0 <= D) by apply normsq_nonneg.
  assert (HQ : forall x, 0 <= A + 2 * x * B + x * x * D) by (intros x; unfold A, B, D; rewrite <- normsq_lin; apply normsq_nonneg).
  unfold norm. fold A D. rewrite <- sqrt_mult by assumption.
  destruct (Rle_dec B 0) as [HB|HB]; [pose proof (sqrt_pos (A * D)); lra|].
  assert (HB' : 0 < B) by lra. rewrite <- (sqrt_square B) by lra. apply sqrt_le_1_alt.
  destruct (Req_dec D 0) as [E|E].
  - specialize (HQ (- (A + 1) / (2 * B))). rewrite E in HQ. exfalso.
    replace (A + 2 * (- (A + 1) / (2 * B)) * B + - (A + 1) / (2 * B) * (- (A + 1) / (2 * B)) * 0) with (-1) in HQ by (field; lra). lra.
  - assert (0 < D) by lra. specialize (HQ (- B / D)).
    replace (A + 2 * (- B / D) * B + - B / D * (- B / D) * D) with ((A * D - B * B) / D) in HQ by (field; lra).
    apply (Rmult_le_compat_r D) in HQ; [|lra]. unfold Rdiv in HQ. rewrite Rmult_assoc, Rinv_l in HQ by lra. lra.
Qed.
Lemma norm_triangle n a b : norm n (sadd a b) <= norm n a + norm n b.
Proof.
  assert (H0 : 0 <= norm n a) by apply sqrt_pos. assert (H1 : 0 <= norm n b) by apply sqrt_pos.
  rewrite <- (sqrt_square (norm n a + norm n b)) by lra. unfold norm at 1. apply sqrt_le_1_alt.
  assert (E : normsq n (sadd a b) = normsq n a + 2 * Re (inner n a b) + normsq n b).
  { pose proof (normsq_lin n a b 1) as H. replace (normsq n a + 2 * Re (inner n a b) + normsq n b) with (normsq n a + 2 * 1 * Re (inner n a b) + 1 * 1 * normsq n b) by ring.
    rewrite <- H. unfold normsq. f_equal. apply inner_ext; intros I; unfold sadd, sscale; f_equal; csolve. }
  rewrite E. pose proof (cauchy n a b).
  assert (norm n a * norm n a = normsq n a) by (apply sqrt_sqrt, normsq_nonneg).
  assert (norm n b * norm n b = normsq n b) by (apply sqrt_sqrt, normsq_nonneg). nra.
Qed.
Lemma norm_gate n g a : library_gate g -> in_range n g -> norm n (gate_act g a) = norm n a.
Proof. intros H1 H2. unfold norm, normsq. rewrite gate_preserves_inner by assumption. reflexivity. Qed.
Lemma norm_nonneg n a : 0 <= norm n a.
Proof. apply sqrt_pos. Qed.

(** *** completeness: a gate is determined by its action on basis states *)
Lemma ket_sum n psi J : (J < 2 ^ n)%nat -> Csum (fun K => (ket K J * psi K)%C) (seq 0 (2 ^ n)) = psi J.
Proof.
  intros H. rewrite (Csum_ext _ (fun K => if (K =? J)%nat then psi K else C0)).
  - rewrite Csum_delta. destruct (Nat.ltb_spec J (2 ^ n)); [reflexivity|lia].
  - intros K _. unfold ket. rewrite (Nat.eqb_sym J K). destruct (_ =? _)%nat; ring.
Qed.
Lemma gate_resolve n g psi J : in_range n g -> (J < 2 ^ n)%nat ->
  Csum (fun K => (gate_act g (ket K) J * psi K)%C) (seq 0 (2 ^ n)) = gate_act g psi J.
Proof.
  intros [Ht Hc] HJ. unfold gate_act. destruct (Nat.eqb_spec (gtarget g) (gcontrol g)) as [E|E].
  - unfold act1. set (t := gtarget g) in *. set (i := b2n (bit J t)).
    rewrite (Csum_ext _ (fun K => (gmat g i 0%nat * (ket K (upd J t false) * psi K) + gmat g i 1%nat * (ket K (upd J t true) * psi K))%C)) by (intros; ring).
    rewrite Csum_add, !Csum_mul_l, !ket_sum by (apply upd_lt; assumption). reflexivity.
  - unfold act2. set (t := gtarget g) in *. set (c := gcontrol g) in *. set (i := (2 * b2n (bit J c) + b2n (bit J t))%nat).
    rewrite (Csum_ext _ (fun K => (gmat g i 0%nat * (ket K (upd (upd J c false) t false) * psi K) + gmat g i 1%nat * (ket K (upd (upd J c false) t true) * psi K)
      + gmat g i 2%nat * (ket K (upd (upd J c true) t false) * psi K) + gmat g i 3%nat * (ket K (upd (upd J c true) t true) * psi K))%C)) by (intros; ring).
    rewrite !Csum_add, !Csum_mul_l, !ket_sum by (repeat apply upd_lt; assumption). reflexivity.
Qed.

(** *** gates whose matrix entries are exact under the 1e-14 threshold *)
Definition sharp14 (g : gate) : Prop := forall i j, gmat g i j = C0 \/ thr14 < Cabs (gmat g i j).
Definition exact_mat (n : nat) (g : gate) (m : smat) : Prop := forall J I, (I < 2 ^ n)%nat -> sget m J I = gate_act g (ket I) J.
Lemma sharp_ket g I J : sharp14 g -> drop thr14 (gate_act g (ket I) J) = gate_act g (ket I) J.
Proof.
  intros H. assert (HD : forall v, (exists i j, v = gmat g i j) \/ v = C0 -> drop thr14 v = v).
  { intros v [(i & j & ->)| ->]; [|apply drop_0]. unfold drop. destruct (H i j) as [->|HH]; [destruct (Rltb _ _); reflexivity|]. rewrite Rltb_true by exact HH. reflexivity. }
  apply HD. clear HD H. unfold gate_act. destruct (Nat.eqb_spec (gtarget g) (gcontrol g)) as [E|E].
  - unfold act1. set (t := gtarget g). set (i := b2n (bit J t)). rewrite !ket_upd.
    destruct (Nat.eqb_spec I (upd J t false)) as [E1|E1], (Nat.eqb_spec I (upd J t true)) as [E2|E2].
    + exfalso. assert (upd J t false = upd J t true) by congruence. apply (f_equal (fun x => bit x t)) in H. rewrite !bit_upd_same in H. discriminate.
    + left; exists i, 0%nat; ring.
    + left; exists i, 1%nat; ring.
    + right; ring.
  - unfold act2, ket. set (t := gtarget g) in *. set (c := gcontrol g) in *. set (i := (2 * b2n (bit J c) + b2n (bit J t))%nat).
    assert (HB : forall a b a' b', (a, b) <> (a', b') -> upd (upd J c a) t b = I -> upd (upd J c a') t b' = I -> False).
    { intros a b a' b' HN H1 H2. apply HN. assert (HH : upd (upd J c a) t b = upd (upd J c a') t b') by congruence.
      pose proof (f_equal (fun x => bit x t) HH) as HT. pose proof (f_equal (fun x => bit x c) HH) as HC. cbv beta in HT, HC. rewrite !bit_upd_same in HT.
      rewrite !(bit_upd_other _ t) in HC by (intros E'; apply E; symmetry; exact E'). rewrite !bit_upd_same in HC. congruence. }
    destruct (Nat.eqb_spec (upd (upd J c false) t false) I) as [E1|E1], (Nat.eqb_spec (upd (upd J c false) t true) I) as [E2|E2],
      (Nat.eqb_spec (upd (upd J c true) t false) I) as [E3|E3], (Nat.eqb_spec (upd (upd J c true) t true) I) as [E4|E4];
    try (match goal with H1 : upd (upd J c ?a) t ?b = I, H2 : upd (upd J c ?a') t ?b' = I |- _ => exfalso; apply (HB a b a' b'); [discriminate|exact H1|exact H2] end).
    + left; exists i, 0%nat; ring.
    + left; exists i, 1%nat; ring.
    + left; exists i, 2%nat; ring.
    + left; exists i, 3%nat; ring.
    + right; ring.
Qed.
Lemma gate_sparse_exact n g : in_range n g -> sharp14 g ->
  exists m, gate_sparse n g = Ok m /\ wfm m /\ keys_in (2 ^ n) m /\ exact_mat n g m.
Proof.
  intros HR HS. destruct (gate_sparse_ok n g HR) as (m & E & HW & HK & HM). exists m. split; [exact E|]. split; [exact HW|]. split; [exact HK|].
  intros J I HI. rewrite HM by exact HI. apply sharp_ket, HS.
Qed.

(** *** Circuit.sparse_matrix *)
Definition eps16 (n : nat) : R := thr16 * sqrt (INR (2 ^ n)).
Lemma eps16_nonneg n : 0 <= eps16 n.
Proof. unfold eps16, thr16. pose proof (sqrt_pos (INR (2 ^ n))). nra. Qed.
Definition col (m : smat) (I : nat) : state := fun J => sget m J I.
Lemma keys_in_left N this L : wfm this -> wfm L -> keys_in N this -> keys_in N L -> keys_in N (left_multiply this L).
Proof.
  intros HT HL KT KL. unfold left_multiply.
  assert (HJS : forall j, In j (get_unique_js this) -> (j < N)%nat). { intros j Hj. apply unique_js_in in Hj. destruct Hj as (I & r & x & H1 & H2). apply (KT I j). exists r, x; auto. }
  assert (HG : forall rows, (forall i, In i rows -> In i L) -> forall temp, wfm temp -> keys_in N temp ->
    wfm (fold_left (fun temp i => fold_left (fun temp j => let val := fold_left (fun val k => (val + snd k * sget this (fst k) j)%C) (snd i) C0 in
      if Rltb thr16 (Cabs val) then sset temp (fst i) j val else temp) (get_unique_js this) temp) rows temp) /\
    keys_in N (fold_left (fun temp i => fold_left (fun temp j => let val := fold_left (fun val k => (val + snd k * sget this (fst k) j)%C) (snd i) C0 in
      if Rltb thr16 (Cabs val) then sset temp (fst i) j val else temp) (get_unique_js this) temp) rows temp)).
  { induction rows as [|i rows IH]; intros Hin temp HW HK; [split; assumption|]. cbn [fold_left].
    assert (HI : forall js, (forall j, In j js -> (j < N)%nat) -> forall temp, wfm temp -> keys_in N temp -> let m' := fold_left (fun temp j => let val := fold_left (fun val k => (val + snd k * sget this (fst k) j)%C) (snd i) C0 in
      if Rltb thr16 (Cabs val) then sset temp (fst i) j val else temp) js temp in wfm m' /\ keys_in N m').
    { clear temp HW HK. induction js as [|j js IHj]; intros Hjs temp HW HK; [split; assumption|]. cbn [fold_left]. cbv zeta. apply IHj; [intros; apply Hjs; right; assumption| |].
      - destruct (Rltb _ _); [apply wfm_sset|]; exact HW.
      - destruct (Rltb_spec thr16 (Cabs (fold_left (fun val k => (val + snd k * sget this (fst k) j)%C) (snd i) C0))) as [HH|HH]; [|exact HK].
        apply keys_in_sset; [exact HW|exact HK| |apply Hjs; left; reflexivity].
        destruct i as [I r]. cbn [fst snd] in *. destruct r as [|[k x] r]; [cbn in HH; rewrite Cabs_C0 in HH; unfold thr16 in HH; lra|].
        apply (KL I k). exists ((k, x) :: r), x. split; [apply Hin; left; reflexivity|left; reflexivity]. }
    destruct (HI (get_unique_js this) HJS temp HW HK) as [A B]. cbv zeta in A, B. apply IH; [intros; apply Hin; right; assumption|exact A|exact B]. }
  apply HG; [auto|apply wfm_nil|apply keys_in_nil].
Qed.
Lemma drop_close v : Cabs (drop thr16 v - v)%C <= thr16.
Proof.
  destruct (drop_cases thr16 v) as [[-> _]|[-> H]].
  - replace (v - v)%C with C0 by ring. rewrite Cabs_C0. unfold thr16; lra.
  - replace (C0 - v)%C with (- v)%C by ring. rewrite Cabs_neg. exact H.
Qed.
Lemma left_gate n g m L U I : in_range n g -> library_gate g -> wfm m -> keys_in (2 ^ n) m -> wfm L -> keys_in (2 ^ n) L -> exact_mat n g L ->
  norm n (ssub (col (left_multiply m L) I) (gate_act g U)) <= norm n (ssub (col m I) U) + eps16 n.
Proof.
  intros HR HG HM HK HL HKL HE.
  set (d := fun J => (drop thr16 (gate_act g (col m I) J) - gate_act g (col m I) J)%C).
  assert (HV : forall J, (J < 2 ^ n)%nat -> col (left_multiply m L) I J = drop thr16 (gate_act g (col m I) J)).
  { intros J HJ. unfold col at 1. destruct (left_multiply_spec m L (2 ^ n) HM HL) as [_ HS].
    - intros I' K HH. apply (HKL I' K). apply stored_nonzero; assumption.
    - rewrite HS. f_equal. rewrite <- (gate_resolve n g (col m I) J HR HJ). apply Csum_ext. intros K HK'. rewrite HE by (apply in_seq in HK'; lia). reflexivity. }
  rewrite (norm_ext n _ (sadd (gate_act g (ssub (col m I) U)) d)).
  - eapply Rle_trans; [apply norm_triangle|]. rewrite norm_gate by assumption. apply Rplus_le_compat_l.
    apply normsq_bound; [unfold thr16; lra|]. intros J _. apply drop_close.
  - intros J HJ. unfold ssub at 1, sadd. rewrite HV by exact HJ. unfold d.
    assert (HS : gate_act g (ssub (col m I) U) J = (gate_act g (col m I) J - gate_act g U J)%C).
    { etransitivity; [apply (gate_act_ext g _ (sadd (col m I) (sscale (- C1)%C U)))|].
      - intros K. unfold ssub, sadd, sscale. ring.
      - rewrite (gate_act_add g (col m I) (sscale (- C1)%C U) J). unfold sadd. rewrite (gate_act_scale g (- C1)%C U J). unfold sscale. ring. }
    rewrite HS. ring.
Qed.
Lemma circuit_sparse_bound n gs : Forall (in_range n) gs -> Forall library_gate gs -> Forall sharp14 gs ->
  exists m, circuit_sparse n gs = Ok m /\ wfm m /\ keys_in (2 ^ n) m /\
    forall I, (I < 2 ^ n)%nat -> norm n (ssub (col m I) (circ_act gs (ket I))) <= INR (length gs) * eps16 n.
Proof.
  intros HR HG HS. destruct gs as [|g r]; cbn [circuit_sparse].
  - destruct (identity_spec (2 ^ n)) as [HW HI]. exists (make_identity (2 ^ n)). split; [reflexivity|]. split; [exact HW|]. split.
    + intros I J (rw & x & H1 & H2). 
      assert (HK : forall k, (k <= 2 ^ n)%nat -> wfm (make_identity k) /\ keys_in (2 ^ n) (make_identity k)).
      { unfold make_identity. induction k as [|k IH]; intros Hk; [split; [apply wfm_nil|apply keys_in_nil]|]. destruct (IH ltac:(lia)) as [A B].
        rewrite seq_S, fold_left_app. cbn [fold_left Nat.add]. split; [apply wfm_sset, A|apply keys_in_sset; [exact A|exact B|lia|lia]]. }
      destruct (HK (2 ^ n)%nat (Nat.le_refl _)) as [_ B]. apply (B I J). exists rw, x; auto.
    + intros I HI'. cbn [length INR]. rewrite Rmult_0_l.
      rewrite (norm_ext n _ szero); [|].
      * unfold norm, normsq, inner. rewrite Csum_zero by (intros; unfold szero; ring). cbn. rewrite sqrt_0; lra.
      * intros J HJ. unfold ssub, col, szero, circ_act. cbn [fold_left]. rewrite HI. unfold ket. destruct (Nat.eqb_spec J I); [subst; destruct (Nat.ltb_spec I (2 ^ n)); [|lia]; cbn; ring|cbn; ring].
  - inversion HR as [|? ? HRg HRr]; inversion HG as [|? ? HGg HGr]; inversion HS as [|? ? HSg HSr]; subst.
    destruct (gate_sparse_exact n g HRg HSg) as (m0 & E0 & HW0 & HK0 & HE0). rewrite E0. cbn [bind].
    assert (HL : forall r m (U : nat -> state) e, 0 <= e -> Forall (in_range n) r -> Forall library_gate r -> Forall sharp14 r -> wfm m -> keys_in (2 ^ n) m ->
       (forall I, (I < 2 ^ n)%nat -> norm n (ssub (col m I) (U I)) <= e) ->
       exists m', foreach r (fun h R => do L <- gate_sparse n h; Ok (left_multiply R L)) m = Ok m' /\ wfm m' /\ keys_in (2 ^ n) m' /\
         forall I, (I < 2 ^ n)%nat -> norm n (ssub (col m' I) (circ_act r (U I))) <= e + INR (length r) * eps16 n).
    { clear. induction r as [|h r IH]; intros m U e He HR HG HS HW HK HB; cbn [foreach].
      - exists m. split; [reflexivity|]. split; [exact HW|]. split; [exact HK|]. intros I HI. cbn [length INR circ_act fold_left]. unfold circ_act; cbn [fold_left]. specialize (HB I HI). lra.
      - inversion HR; inversion HG; inversion HS; subst. destruct (gate_sparse_exact n h) as (L & E & HWL & HKL & HEL); [assumption|assumption|].
        rewrite E. cbn [bind]. destruct (left_multiply_spec m L (2 ^ n) HW HWL) as [HW' _]; [intros I K HH; apply (HKL I K), stored_nonzero; assumption|].
        destruct (IH (left_multiply m L) (fun I => gate_act h (U I)) (e + eps16 n)) as (m' & E' & A & B & D).
        + pose proof (eps16_nonneg n); lra.
        + assumption. + assumption. + assumption. + exact HW'. + apply keys_in_left; assumption.
        + intros I HI. eapply Rle_trans; [apply left_gate; assumption|]. specialize (HB I HI). lra.
        + exists m'. split; [exact E'|]. split; [exact A|]. split; [exact B|]. intros I HI. specialize (D I HI). cbn [length]. rewrite S_INR.
          unfold circ_act in *. cbn [fold_left]. lra. }
    destruct (HL r m0 (fun I => gate_act g (ket I)) 0) as (m' & E' & A & B & D); try assumption; [lra| |].
    + intros I HI. rewrite (norm_ext n _ szero).
      * unfold norm, normsq, inner. rewrite Csum_zero by (intros; unfold szero; ring). cbn. rewrite sqrt_0; lra.
      * intros J HJ. unfold ssub, col, szero. rewrite HE0 by exact HI. ring.
    + exists m'. split; [exact E'|]. split; [exact A|]. split; [exact B|]. intros I HI. specialize (D I HI). cbn [length]. rewrite S_INR.
      pose proof (eps16_nonneg n). unfold circ_act in *; cbn [fold_left]. lra.
Qed.

(** *** exactness when no intermediate entry is small *)
Definition entry_ok (v : C) : Prop := v = C0 \/ thr16 < Cabs v.
Lemma entry_drop v : entry_ok v -> drop thr16 v = v.
Proof. intros [->|H]; [apply drop_0|]. unfold drop. rewrite Rltb_true by exact H. reflexivity. Qed.
Lemma circuit_sparse_exact n gs : Forall (in_range n) gs -> Forall sharp14 gs ->
  (forall k I J, (I < 2 ^ n)%nat -> entry_ok (circ_act (firstn k gs) (ket I) J)) ->
  exists m, circuit_sparse n gs = Ok m /\ wfm m /\ keys_in (2 ^ n) m /\ forall I J, (I < 2 ^ n)%nat -> (J < 2 ^ n)%nat -> sget m J I = circ_act gs (ket I) J.
Proof.
  intros HR HS HC. destruct gs as [|g r]; cbn [circuit_sparse].
  - destruct (identity_spec (2 ^ n)) as [HW HI]. destruct (circuit_sparse_bound n [] (Forall_nil _) (Forall_nil _) (Forall_nil _)) as (m & E & A & B & _).
    cbn [circuit_sparse] in E. inversion E; subst m. exists (make_identity (2 ^ n)). split; [reflexivity|]. split; [exact A|]. split; [exact B|].
    intros I J H1 H2. rewrite HI. unfold circ_act; cbn [fold_left]. unfold ket. destruct (Nat.eqb_spec J I); [|reflexivity]. destruct (Nat.ltb_spec J (2 ^ n)); [reflexivity|lia].
  - inversion HR as [|? ? HRg HRr]; inversion HS as [|? ? HSg HSr]; subst.
    destruct (gate_sparse_exact n g HRg HSg) as (m0 & E0 & HW0 & HK0 & HE0). rewrite E0. cbn [bind].
    assert (HL : forall r m (U : nat -> state), Forall (in_range n) r -> Forall sharp14 r -> wfm m -> keys_in (2 ^ n) m ->
       (forall k I J, (I < 2 ^ n)%nat -> entry_ok (circ_act (firstn k r) (U I) J)) ->
       (forall I J, (I < 2 ^ n)%nat -> (J < 2 ^ n)%nat -> sget m J I = U I J) ->
       exists m', foreach r (fun h R => do L <- gate_sparse n h; Ok (left_multiply R L)) m = Ok m' /\ wfm m' /\ keys_in (2 ^ n) m' /\
         forall I J, (I < 2 ^ n)%nat -> (J < 2 ^ n)%nat -> sget m' J I = circ_act r (U I) J).
    { clear. induction r as [|h r IH]; intros m U HR HS HW HK HC HB; cbn [foreach].
      - exists m. split; [reflexivity|]. split; [exact HW|]. split; [exact HK|]. exact HB.
      - inversion HR; inversion HS; subst. destruct (gate_sparse_exact n h) as (L & E & HWL & HKL & HEL); [assumption|assumption|].
        rewrite E. cbn [bind]. destruct (left_multiply_spec m L (2 ^ n) HW HWL) as [HW' HV]; [intros I K HH; apply (HKL I K), stored_nonzero; assumption|].
        destruct (IH (left_multiply m L) (fun I => gate_act h (U I))) as (m' & E' & A & B & D); try assumption.
        + apply keys_in_left; assumption.
        + intros k I J HI. apply (HC (S k) I J HI).
        + intros I J HI HJ. rewrite HV.
          rewrite (Csum_ext _ (fun K => (gate_act h (ket K) J * U I K)%C)).
          * rewrite gate_resolve by assumption. apply entry_drop. apply (HC 1%nat I J HI).
          * intros K HK'. apply in_seq in HK'. rewrite HEL by lia. rewrite HB by lia. reflexivity.
        + exists m'. split; [exact E'|]. split; [exact A|]. split; [exact B|]. exact D. }
    destruct (HL r m0 (fun I => gate_act g (ket I))) as (m' & E' & A & B & D); try assumption.
    + intros k I J HI. apply (HC (S k) I J HI).
    + intros I J HI HJ. apply HE0, HI.
    + exists m'. split; [exact E'|]. split; [exact A|]. split; [exact B|]. exact D.
Qed.

Lemma phased_ok psi J : phased psi -> entry_ok (psi J).
Proof.
  intros (K & c & H1 & H2). rewrite H2. unfold sscale, ket. destruct (_ =? _)%nat.
  - right. rewrite Cmul_1_r, H1. unfold thr16; lra.
  - left; ring.
Qed.
Lemma pauli_sharp14 g : pauli_gate g -> sharp14 g.
Proof.
  intros [HL HM] i j. destruct (pauli_label_cases _ HL) as [E|[E|E]]; rewrite E in HM; unfold make_gate in HM;
    rewrite Nat.eqb_refl in HM; cbn [String.eqb Ascii.eqb Bool.eqb] in HM; apply (f_equal (fun r => match r with Ok x => x | _ => g end)) in HM;
    rewrite <- HM; cbn [gmat]; unfold m_X, m_Y, m_Z, mk44;
    destruct i as [|[|[|[|i]]]], j as [|[|[|[|j]]]]; cbn [nth]; try (left; reflexivity);
    try (left; destruct i; reflexivity); try (left; destruct j; reflexivity);
    right; unfold Cabs, Cnorm2; cbn; match goal with |- _ < sqrt ?x => replace x with 1 by ring end; rewrite sqrt_1; unfold thr14; lra.
Qed.
Lemma Forall_firstn {A} (P : A -> Prop) k l : Forall P l -> Forall P (firstn k l).
Proof. intros H; revert k; induction H; destruct k; cbn; constructor; auto. Qed.
Lemma pauli_sparse n gs : Forall (in_range n) gs -> Forall pauli_gate gs ->
  exists m, circuit_sparse n gs = Ok m /\ wfm m /\ keys_in (2 ^ n) m /\ forall I J, (I < 2 ^ n)%nat -> (J < 2 ^ n)%nat -> sget m J I = circ_act gs (ket I) J.
Proof.
  intros HR HP. apply circuit_sparse_exact; [exact HR|eapply Forall_impl; [|exact HP]; apply pauli_sharp14|].
  intros k I J _. apply phased_ok, phased_circ; [apply Forall_firstn, HP|apply phased_ket].
Qed.

(** *** QubitOperator.sparse_matrix *)
Lemma Cabs_triangle a b : Cabs (a + b)%C <= Cabs a + Cabs b.
Proof.
  assert (H0 := Cabs_nonneg a). assert (H1 := Cabs_nonneg b). rewrite <- (sqrt_square (Cabs a + Cabs b)) by lra. unfold Cabs at 1. apply sqrt_le_1_alt.
  assert (A := Cabs_sq a). assert (B := Cabs_sq b). 
  assert (HC : Re a * Re b + Im a * Im b <= Cabs a * Cabs b).
  { destruct (Rle_dec (Re a * Re b + Im a * Im b) 0); [nra|]. rewrite <- Cabs_mul in *. unfold Cabs at 1. rewrite <- (sqrt_square (Re a * Re b + Im a * Im b)) by lra.
    apply sqrt_le_1_alt. rewrite Cnorm2_mul. unfold Cnorm2. set (x := Re a); set (y := Im a); set (z := Re b); set (w := Im b).
    assert (0 <= (x * w - y * z) * (x * w - y * z)) by apply Rle_0_sqr. nra. }
  unfold Cnorm2, Cadd in *. cbn [Re Im] in *. nra.
Qed.
Lemma keys_in_add N this M f : wfm this -> wfm M -> keys_in N this -> keys_in N M -> keys_in N (sadd_mat this M f).
Proof.
  intros HT HM KT KM. unfold sadd_mat.
  assert (HG : forall rows, (forall i, In i rows -> In i M) -> forall temp, wfm temp -> keys_in N temp -> let m' := fold_left (fun temp i =>
    fold_left (fun temp j => let val := (f * snd j + sget this (fst i) (fst j))%C in
      if Rltb thr16 (Cabs val) then sset temp (fst i) (fst j) val else serase temp (fst i) (fst j)) (snd i) temp) rows temp in wfm m' /\ keys_in N m').
  { induction rows as [|[I r] rows IH]; intros Hin temp HW HK; [split; assumption|]. cbn [fold_left]. 
    assert (HI : forall js, (forall j, In j js -> In j r) -> forall temp, wfm temp -> keys_in N temp -> let m' := fold_left (fun temp j => let val := (f * snd j + sget this I (fst j))%C in
      if Rltb thr16 (Cabs val) then sset temp I (fst j) val else serase temp I (fst j)) js temp in wfm m' /\ keys_in N m').
    { clear temp HW HK. induction js as [|[j x] js IHj]; intros Hjs temp HW HK; [split; assumption|]. cbn [fold_left fst snd]. cbv zeta. 
      assert (HB : (I < N)%nat /\ (j < N)%nat) by (apply (KM I j); exists r, x; split; [apply Hin; left; reflexivity|apply Hjs; left; reflexivity]).
      apply IHj; [intros; apply Hjs; right; assumption| |]; destruct (Rltb _ _).
      - apply wfm_sset, HW. - apply wfm_serase, HW. - apply keys_in_sset; [exact HW|exact HK|apply HB|apply HB].
      - intros I' J' HH. apply stored_serase in HH; [|exact HW]. apply HK, HH. }
    destruct (HI r (fun j H => H) temp HW HK) as [A B]. cbv zeta in A, B. apply IH; [intros; apply Hin; right; assumption|exact A|exact B]. }
  apply (HG M (fun i H => H) this HT KT).
Qed.
Lemma sadd_close this M f I J : wfm this -> wfm M -> Cabs (sget (sadd_mat this M f) I J - (sget this I J + f * sget M I J))%C <= thr16.
Proof.
  intros HT HM. destruct (sadd_spec this M f HT HM) as [_ HS]. rewrite HS. change (sget M I J) with (match mfind I M with Some r => match mfind J r with Some c => c | None => C0 end | None => C0 end).
  destruct (mfind I M) as [r|]; [destruct (mfind J r) as [x|]|].
  - replace (sget this I J + f * x)%C with (f * x + sget this I J)%C by ring. apply drop_close.
  - replace (sget this I J - (sget this I J + f * C0))%C with C0 by ring. rewrite Cabs_C0. unfold thr16; lra.
  - replace (sget this I J - (sget this I J + f * C0))%C with C0 by ring. rewrite Cabs_C0. unfold thr16; lra.
Qed.
Lemma op_sparse_bound n (o : qop) (err : C * list gate -> R) : o <> [] ->
  Forall (fun t => exists m, circuit_sparse n (snd t) = Ok m /\ wfm m /\ keys_in (2 ^ n) m /\ forall I J, (I < 2 ^ n)%nat -> (J < 2 ^ n)%nat -> Cabs (sget m J I - circ_act (snd t) (ket I) J)%C <= err t) o ->
  exists m, op_sparse n o = Ok m /\ wfm m /\ keys_in (2 ^ n) m /\ forall I J, (I < 2 ^ n)%nat -> (J < 2 ^ n)%nat ->
    Cabs (sget m J I - op_act o (ket I) J)%C <= fold_right (fun t s => Cabs (fst t) * err t + thr16 + s) 0 o.
Proof.
  intros HNE HF.
  assert (HL : forall (o : qop) m (U : nat -> state) e, Forall (fun t => exists m, circuit_sparse n (snd t) = Ok m /\ wfm m /\ keys_in (2 ^ n) m /\ forall I J, (I < 2 ^ n)%nat -> (J < 2 ^ n)%nat -> Cabs (sget m J I - circ_act (snd t) (ket I) J)%C <= err t) o ->
     wfm m -> keys_in (2 ^ n) m -> (forall I J, (I < 2 ^ n)%nat -> (J < 2 ^ n)%nat -> Cabs (sget m J I - U I J)%C <= e) ->
     exists m', foreach o (fun t R => do L <- circuit_sparse n (snd t); Ok (sadd_mat R L (fst t))) m = Ok m' /\ wfm m' /\ keys_in (2 ^ n) m' /\
      forall I J, (I < 2 ^ n)%nat -> (J < 2 ^ n)%nat -> Cabs (sget m' J I - (U I J + op_act o (ket I) J))%C <= e + fold_right (fun t s => Cabs (fst t) * err t + thr16 + s) 0 o).
  { clear. induction o as [|[c gs] o IH]; intros m U e HF HW HK HB; cbn [foreach].
    - exists m. split; [reflexivity|]. split; [exact HW|]. split; [exact HK|]. intros I J HI HJ. cbn [fold_right]. unfold op_act; rewrite Csum_nil, Cadd_0_r. specialize (HB I J HI HJ). lra.
    - inversion HF as [|? ? (L & E & A & B & D) HF']; subst. cbn [fst snd] in *. rewrite E. cbn [bind].
      destruct (IH (sadd_mat m L c) (fun I J => U I J + c * circ_act gs (ket I) J)%C (e + (Cabs c * err (c, gs) + thr16)) HF') as (m' & E' & A' & B' & D').
      + apply sadd_spec; assumption.
      + apply keys_in_add; assumption.
      + intros I J HI HJ.
        replace (sget (sadd_mat m L c) J I - (U I J + c * circ_act gs (ket I) J))%C with
          ((sget (sadd_mat m L c) J I - (sget m J I + c * sget L J I)) + ((sget m J I - U I J) + c * (sget L J I - circ_act gs (ket I) J)))%C by ring.
        eapply Rle_trans; [apply Cabs_triangle|]. pose proof (Cabs_triangle (sget m J I - U I J) (c * (sget L J I - circ_act gs (ket I) J))%C) as HT. rewrite Cabs_mul in HT.
        pose proof (sadd_close m L c J I HW A). specialize (HB I J HI HJ). specialize (D I J HI HJ). pose proof (Cabs_nonneg c). nra.
      + exists m'. split; [exact E'|]. split; [exact A'|]. split; [exact B'|]. intros I J HI HJ. specialize (D' I J HI HJ). unfold op_act in *. rewrite Csum_cons. cbn [fold_right fst snd] in *.
        replace (sget m' J I - (U I J + (c * circ_act gs (ket I) J + Csum (fun t => (fst t * circ_act (snd t) (ket I) J)%C) o)))%C with
          (sget m' J I - (U I J + c * circ_act gs (ket I) J + Csum (fun t => (fst t * circ_act (snd t) (ket I) J)%C) o))%C by ring. lra. }
  destruct (HL o [] (fun _ _ => C0) 0 HF wfm_nil (keys_in_nil _)) as (m' & E & A & B & D).
  - intros I J _ _. cbn. replace (C0 - C0)%C with C0 by ring. rewrite Cabs_C0; lra.
  - exists m'. split; [destruct o; [congruence|exact E]|]. split; [exact A|]. split; [exact B|]. intros I J HI HJ. specialize (D I J HI HJ). rewrite Cadd_0_l in D. lra.
Qed.
