(** The "safe" (standard) algorithm and the top-level apply functions. *)
From Coq Require Import Reals List Arith Lia Bool Lra.
From Verif Require Import CBase Result Bits Spec GateModel ComputerModel LoopProofs ApplyProofs.
Import ListNotations.

(** [w'] is [w] plus [phi] pointwise *)
Definition vadd (n : nat) (w : list C) (phi : nat -> C) (w' : list C) : Prop :=
  length w' = 2 ^ n /\ forall K, K < 2 ^ n -> nth K w' C0 = (nth K w C0 + phi K)%C.

Lemma accumulate_ok op I J v w : J < length v -> I < length w ->
  accumulate op I J v w = Ok (list_set w I (nth I w C0 + op * nth J v C0)%C).
Proof.
  intros HJ HI. unfold accumulate. rewrite (vget_ok v J C0 HJ), bind_Ok, (vget_ok w I C0 HI), bind_Ok.
  apply vset_ok; exact HI.
Qed.

Lemma acc_loop n (sel : nat -> bool) (f g : nat -> nat) (hit : nat -> bool) op v l :
  length v = 2 ^ n -> NoDup l -> (forall J, In J l -> J < 2 ^ n) ->
  (forall J, sel J = true -> J < 2 ^ n -> f J < 2 ^ n) ->
  (forall J K, sel J = true -> K < 2 ^ n -> f J = K -> hit K = true /\ g K = J) ->
  (forall K, K < 2 ^ n -> hit K = true -> sel (g K) = true /\ f (g K) = K) ->
  forall w, length w = 2 ^ n ->
  exists w', foreach l (fun J w => if sel J then accumulate op (f J) J v w else Ok w) w = Ok w' /\
    length w' = 2 ^ n /\
    forall K, K < 2 ^ n -> nth K w' C0 =
      (nth K w C0 + (if hit K then if in_dec Nat.eq_dec (g K) l then op * nth (g K) v C0 else C0 else C0))%C.
Proof.
  intros Hv ND Hl Hf Hfg Hgf. induction l as [|J l IH]; intros w Hw.
  - exists w. split; [reflexivity|]. split; [exact Hw|]. intros K HK. simpl. destruct (hit K); ring.
  - inversion ND as [|? ? HnJ ND']; subst.
    assert (HJ : J < 2 ^ n) by (apply Hl; left; reflexivity).
    assert (Hl' : forall J, In J l -> J < 2 ^ n) by (intros; apply Hl; right; assumption).
    specialize (IH ND' Hl').
    cbn [foreach]. destruct (sel J) eqn:ES.
    + rewrite accumulate_ok by (rewrite ?Hv, ?Hw; auto). rewrite bind_Ok.
      destruct (IH (list_set w (f J) (nth (f J) w C0 + op * nth J v C0)%C)) as (w' & E & L & H).
      { rewrite list_set_length; exact Hw. }
      exists w'; split; [exact E|]. split; [exact L|]. intros K HK. rewrite (H K HK).
      rewrite nth_list_set by (rewrite Hw; auto).
      destruct (Nat.eqb_spec K (f J)) as [EK|EK].
      * destruct (Hfg J K ES HK (eq_sym EK)) as [H1 H2]. rewrite H1, H2.
        destruct (in_dec Nat.eq_dec J l); [contradiction|].
        destruct (in_dec Nat.eq_dec J (J :: l)) as [_|H3]; [|exfalso; apply H3; left; reflexivity].
        rewrite <- EK. ring.
      * destruct (hit K) eqn:EH; [|reflexivity]. destruct (Hgf K HK EH) as [H1 H2].
        assert (g K <> J) by congruence.
        destruct (in_dec Nat.eq_dec (g K) l) as [H3|H3];
        destruct (in_dec Nat.eq_dec (g K) (J :: l)) as [H4|H4]; try reflexivity.
        -- exfalso; apply H4; right; exact H3.
        -- exfalso. destruct H4; [congruence|contradiction].
    + rewrite bind_Ok. destruct (IH w Hw) as (w' & E & L & H).
      exists w'; split; [exact E|]. split; [exact L|]. intros K HK. rewrite (H K HK).
      destruct (hit K) eqn:EH; [|reflexivity]. destruct (Hgf K HK EH) as [H1 H2].
      assert (g K <> J) by congruence.
      destruct (in_dec Nat.eq_dec (g K) l) as [H3|H3];
      destruct (in_dec Nat.eq_dec (g K) (J :: l)) as [H4|H4]; try reflexivity.
      -- exfalso; apply H4; right; exact H3.
      -- exfalso. destruct H4; [congruence|contradiction].
Qed.

(** a sequence of additive steps adds the sum *)
Lemma add_steps {X} n (L : list X) (step : X -> list C -> res (list C)) (phi : X -> nat -> C) :
  (forall x w, In x L -> length w = 2 ^ n -> exists w', step x w = Ok w' /\ vadd n w (phi x) w') ->
  forall w, length w = 2 ^ n ->
  exists w', foreach L step w = Ok w' /\ vadd n w (fun K => Csum (fun x => phi x K) L) w'.
Proof.
  induction L as [|x L IH]; intros Hs w Hw.
  - exists w; split; [reflexivity|]. split; [exact Hw|]. intros; rewrite Csum_nil; ring.
  - cbn [foreach]. destruct (Hs x w (or_introl eq_refl) Hw) as (w1 & -> & L1 & H1). rewrite bind_Ok.
    destruct (IH (fun y w Hy => Hs y w (or_intror Hy)) w1 L1) as (w2 & -> & L2 & H2).
    exists w2; split; [reflexivity|]. split; [exact L2|]. intros K HK.
    rewrite (H2 K HK), (H1 K HK), Csum_cons. ring.
Qed.

Definition clean_mat (d : nat) (m : mat) : Prop := forall i j, i < d -> j < d -> clean (m i j).

Lemma not_above_clean z : clean z -> above (Cabs z) = false -> z = C0.
Proof.
  intros [->|H] E; [reflexivity|]. apply above_false in E. exfalso.
  apply (Rlt_irrefl thr). apply Rlt_le_trans with (Cabs z); assumption.
Qed.

Lemma in_seq_pow n K : In K (seq 0 (2 ^ n)) <-> K < 2 ^ n.
Proof. rewrite in_seq. lia. Qed.

Lemma safe1_step n t (m : mat) i bi j bj v w :
  length v = 2 ^ n -> length w = 2 ^ n -> t < n -> clean (m i j) ->
  exists w', (if above (Cabs (m i j)) then
      foreach (seq 0 (2 ^ n)) (fun J w =>
        if Bool.eqb (bit J t) bj then accumulate (m i j) (upd J t bi) J v w else Ok w) w
    else Ok w) = Ok w' /\
    vadd n w (fun K => if Bool.eqb (bit K t) bi then (m i j * nth (upd K t bj) v C0)%C else C0) w'.
Proof.
  intros Hv Hw Ht Hc. destruct (above (Cabs (m i j))) eqn:EA.
  - destruct (acc_loop n (fun J => Bool.eqb (bit J t) bj) (fun J => upd J t bi) (fun K => upd K t bj)
                (fun K => Bool.eqb (bit K t) bi) (m i j) v (seq 0 (2 ^ n)) Hv (seq_NoDup _ _)) with (w := w)
      as (w' & E & L & H); auto.
    + intros J HJ; apply in_seq_pow in HJ; exact HJ.
    + intros J _ HJ; apply upd_lt; assumption.
    + intros J K HS HK <-. apply Bool.eqb_prop in HS. rewrite bit_upd_same, upd_upd.
      rewrite Bool.eqb_reflx. split; [reflexivity|]. apply upd_id'; exact HS.
    + intros K HK HS. apply Bool.eqb_prop in HS. rewrite bit_upd_same, upd_upd, Bool.eqb_reflx.
      split; [reflexivity|]. apply upd_id'; exact HS.
    + exists w'; split; [exact E|]. split; [exact L|]. intros K HK. rewrite (H K HK).
      destruct (Bool.eqb (bit K t) bi); [|reflexivity].
      destruct (in_dec _ _ _) as [_|HN]; [reflexivity|]. exfalso; apply HN, in_seq_pow, upd_lt; assumption.
  - exists w; split; [reflexivity|]. split; [exact Hw|]. intros K HK.
    rewrite (not_above_clean _ Hc EA). destruct (Bool.eqb _ _); ring.
Qed.

Lemma safe1_correct n t m v w : length v = 2 ^ n -> w = zeros (2 ^ n) -> t < n -> clean_mat 2 m ->
  exists w', safe1_vec (seq 0 (2 ^ n)) t m v w = Ok w' /\ vec_is n (act1 m t (amp v)) w'.
Proof.
  intros Hv -> Ht Hc. unfold safe1_vec.
  assert (Hw : length (zeros (2 ^ n)) = 2 ^ n) by apply repeat_length.
  destruct (add_steps n one_qubit_basis (fun '(i, bi) => foreach one_qubit_basis (fun '(j, bj) w =>
    if above (Cabs (m i j)) then
      foreach (seq 0 (2 ^ n)) (fun J w =>
        if Bool.eqb (bit J t) bj then accumulate (m i j) (upd J t bi) J v w else Ok w) w else Ok w))
    (fun '(i, bi) K => Csum (fun '(j, bj) => if Bool.eqb (bit K t) bi then (m i j * nth (upd K t bj) v C0)%C else C0)
       one_qubit_basis)) with (w := zeros (2 ^ n)) as (w' & E & L & H); auto.
  - intros [i bi] w HI Lw.
    destruct (add_steps n one_qubit_basis (fun '(j, bj) w =>
      if above (Cabs (m i j)) then
        foreach (seq 0 (2 ^ n)) (fun J w =>
        if Bool.eqb (bit J t) bj then accumulate (m i j) (upd J t bi) J v w else Ok w) w else Ok w)
      (fun '(j, bj) K => if Bool.eqb (bit K t) bi then (m i j * nth (upd K t bj) v C0)%C else C0)) with (w := w)
      as (w1 & E1 & L1 & H1); auto.
    + intros [j bj] w1 HJ Lw1. apply safe1_step; auto. apply Hc.
      * simpl in HI; destruct HI as [HI|[HI|[]]]; injection HI as <- <-; lia.
      * simpl in HJ; destruct HJ as [HJ|[HJ|[]]]; injection HJ as <- <-; lia.
    + exists w1; split; [exact E1|]. split; [exact L1|]. intros K HK. rewrite (H1 K HK). reflexivity.
  - exists w'; split; [exact E|]. split; [exact L|]. intros K HK. rewrite (H K HK).
    unfold zeros. rewrite nth_repeat. unfold act1, amp. cbn [one_qubit_basis Csum fold_right].
    destruct (bit K t); cbn [Bool.eqb b2n]; ring.
Qed.

Lemma safe2_step n t c (m : mat) i ic it j jc jt v w :
  length v = 2 ^ n -> length w = 2 ^ n -> t < n -> c < n -> c <> t -> clean (m i j) ->
  exists w', (if above (Cabs (m i j)) then
      foreach (seq 0 (2 ^ n)) (fun J w =>
        if Bool.eqb (bit J c) jc && Bool.eqb (bit J t) jt
        then accumulate (m i j) (upd (upd J c ic) t it) J v w
        else Ok w) w
    else Ok w) = Ok w' /\
    vadd n w (fun K => if Bool.eqb (bit K c) ic && Bool.eqb (bit K t) it
                       then (m i j * nth (upd (upd K c jc) t jt) v C0)%C else C0) w'.
Proof.
  intros Hv Hw Ht Hcn Hct Hc.
  assert (UU : forall K a b a' b', bit K c = a -> bit K t = b -> upd (upd (upd (upd K c a') t b') c a) t b = K).
  { intros K a b a' b' Ha Hb. apply bits_ext; intros k. rewrite !bit_upd.
    destruct (Nat.eqb_spec k t); subst; auto. destruct (Nat.eqb_spec k c); subst; auto. }
  assert (BB : forall K a b, bit (upd (upd K c a) t b) c = a /\ bit (upd (upd K c a) t b) t = b).
  { intros K a b. rewrite !bit_upd, !Nat.eqb_refl. destruct (Nat.eqb_spec c t); [contradiction|auto]. }
  destruct (above (Cabs (m i j))) eqn:EA.
  - destruct (acc_loop n (fun J => Bool.eqb (bit J c) jc && Bool.eqb (bit J t) jt)
                (fun J => upd (upd J c ic) t it) (fun K => upd (upd K c jc) t jt)
                (fun K => Bool.eqb (bit K c) ic && Bool.eqb (bit K t) it)
                (m i j) v (seq 0 (2 ^ n)) Hv (seq_NoDup _ _)) with (w := w)
      as (w' & E & L & H); auto.
    + intros J HJ; apply in_seq_pow in HJ; exact HJ.
    + intros J _ HJ; apply upd_lt, upd_lt; assumption.
    + intros J K HS HK <-. apply andb_true_iff in HS. destruct HS as [H1 H2].
      apply Bool.eqb_prop in H1, H2. destruct (BB J ic it) as [-> ->]. rewrite !Bool.eqb_reflx.
      split; [reflexivity|]. apply UU; assumption.
    + intros K HK HS. apply andb_true_iff in HS. destruct HS as [H1 H2].
      apply Bool.eqb_prop in H1, H2. destruct (BB K jc jt) as [-> ->]. rewrite !Bool.eqb_reflx.
      split; [reflexivity|]. apply UU; assumption.
    + exists w'; split; [exact E|]. split; [exact L|]. intros K HK. rewrite (H K HK).
      destruct (_ && _); [|reflexivity].
      destruct (in_dec _ _ _) as [_|HN]; [reflexivity|]. exfalso; apply HN, in_seq_pow, upd_lt, upd_lt; assumption.
  - exists w; split; [reflexivity|]. split; [exact Hw|]. intros K HK.
    rewrite (not_above_clean _ Hc EA). destruct (_ && _); ring.
Qed.

Lemma safe2_correct n t c m v w : length v = 2 ^ n -> w = zeros (2 ^ n) -> t < n -> c < n -> c <> t ->
  clean_mat 4 m ->
  exists w', safe2_vec (seq 0 (2 ^ n)) t c m v w = Ok w' /\ vec_is n (act2 m t c (amp v)) w'.
Proof.
  intros Hv -> Ht Hcn Hct Hc. unfold safe2_vec.
  assert (Hw : length (zeros (2 ^ n)) = 2 ^ n) by apply repeat_length.
  destruct (add_steps n two_qubits_basis (fun '(i, (ic, it)) => foreach two_qubits_basis (fun '(j, (jc, jt)) w =>
    if above (Cabs (m i j)) then
      foreach (seq 0 (2 ^ n)) (fun J w =>
        if Bool.eqb (bit J c) jc && Bool.eqb (bit J t) jt
        then accumulate (m i j) (upd (upd J c ic) t it) J v w
        else Ok w) w else Ok w))
    (fun '(i, (ic, it)) K => Csum (fun '(j, (jc, jt)) => if Bool.eqb (bit K c) ic && Bool.eqb (bit K t) it
                       then (m i j * nth (upd (upd K c jc) t jt) v C0)%C else C0)
       two_qubits_basis)) with (w := zeros (2 ^ n)) as (w' & E & L & H); auto.
  - intros [i [ic it]] w HI Lw.
    destruct (add_steps n two_qubits_basis (fun '(j, (jc, jt)) w =>
      if above (Cabs (m i j)) then
      foreach (seq 0 (2 ^ n)) (fun J w =>
        if Bool.eqb (bit J c) jc && Bool.eqb (bit J t) jt
        then accumulate (m i j) (upd (upd J c ic) t it) J v w
        else Ok w) w else Ok w)
      (fun '(j, (jc, jt)) K => if Bool.eqb (bit K c) ic && Bool.eqb (bit K t) it
                       then (m i j * nth (upd (upd K c jc) t jt) v C0)%C else C0)) with (w := w)
      as (w1 & E1 & L1 & H1); auto.
    + intros [j [jc jt]] w1 HJ Lw1. apply safe2_step; auto. apply Hc.
      * simpl in HI; repeat destruct HI as [HI|HI]; try contradiction; injection HI as <- <- <-; lia.
      * simpl in HJ; repeat destruct HJ as [HJ|HJ]; try contradiction; injection HJ as <- <- <-; lia.
    + exists w1; split; [exact E1|]. split; [exact L1|]. intros K HK. rewrite (H1 K HK). reflexivity.
  - exists w'; split; [exact E|]. split; [exact L|]. intros K HK. rewrite (H K HK).
    unfold zeros. rewrite nth_repeat. unfold act2, amp. cbn [two_qubits_basis Csum fold_right].
    destruct (bit K c), (bit K t); cbn [Bool.eqb b2n andb Nat.mul Nat.add]; ring.
Qed.

(** *** gates on which the thresholded algorithms are exact *)
(** The controlled-gate shortcut (computer.cc:470) is taken. *)
Definition takes_ctrl (m : mat) : Prop :=
  (Cabs (m 0%nat 1%nat) + Cabs (m 1%nat 0%nat) < thr)%R /\ m 0 0 = C1 /\ m 1 1 = C1.
(** exact shape |0><0| (x) 1 + |1><1| (x) U *)
Definition ctrl_shape (m : mat) : Prop :=
  m 0 0 = C1 /\ m 0 1 = C0 /\ m 1 0 = C0 /\ m 1 1 = C1 /\
  m 0 2 = C0 /\ m 0 3 = C0 /\ m 1 2 = C0 /\ m 1 3 = C0 /\
  m 2 0 = C0 /\ m 2 1 = C0 /\ m 3 0 = C0 /\ m 3 1 = C0.
Definition gate_clean (g : gate) : Prop :=
  if gtarget g =? gcontrol g then block_ok (gmat g 0 0) (gmat g 0 1) (gmat g 1 0) (gmat g 1 1)
  else (takes_ctrl (gmat g) -> ctrl_shape (gmat g) /\ block_ok (gmat g 2 2) (gmat g 2 3) (gmat g 3 2) (gmat g 3 3))
       /\ (~ takes_ctrl (gmat g) -> clean_mat 4 (gmat g)).
Definition gate_clean_safe (g : gate) : Prop :=
  if gtarget g =? gcontrol g then clean_mat 2 (gmat g) else clean_mat 4 (gmat g).
Definition in_range (n : nat) (g : gate) : Prop := gtarget g < n /\ gcontrol g < n.

Lemma ctrl_act_act2 m t c psi : c <> t -> ctrl_shape m ->
  forall I, act2 m t c psi I = ctrl_act (m 2 2) (m 2 3) (m 3 2) (m 3 3) t c psi I.
Proof.
  intros Hct (H00 & H01 & H10 & H11 & H02 & H03 & H12 & H13 & H20 & H21 & H30 & H31) I.
  unfold act2, ctrl_act.
  destruct (bit I c) eqn:Ec, (bit I t) eqn:Et; cbn [b2n Nat.mul Nat.add];
    rewrite ?H00, ?H01, ?H10, ?H11, ?H02, ?H03, ?H12, ?H13, ?H20, ?H21, ?H30, ?H31;
    rewrite ?(upd_id' I c _ Ec), ?(upd_id' I t _ Et); try ring.
Qed.

Lemma vec_amp n psi v : vec_is n psi v -> (forall I, 2 ^ n <= I -> psi I = C0) -> amp v == psi.
Proof.
  intros [L H] HB I. destruct (Nat.lt_ge_cases I (2 ^ n)) as [HI|HI].
  - apply H; exact HI.
  - rewrite (amp_range v n I L HI). symmetry; apply HB; exact HI.
Qed.

Lemma upd_ge n I t b : t < n -> 2 ^ n <= I -> 2 ^ n <= upd I t b.
Proof.
  intros Ht HI. destruct (Nat.lt_ge_cases (upd I t b) (2 ^ n)) as [H|H]; [|exact H].
  apply upd_lt_inv in H; [lia|exact Ht].
Qed.
Lemma act1_supp n m t v : length v = 2 ^ n -> t < n -> forall I, 2 ^ n <= I -> act1 m t (amp v) I = C0.
Proof.
  intros Hv Ht I HI. unfold act1. rewrite !(amp_range v n) by (auto using upd_ge). ring.
Qed.
Lemma act2_supp n m t c v : length v = 2 ^ n -> t < n -> c < n -> forall I, 2 ^ n <= I -> act2 m t c (amp v) I = C0.
Proof.
  intros Hv Ht Hc I HI. unfold act2. rewrite !(amp_range v n) by (auto using upd_ge). ring.
Qed.

(** result of applying gate [g]: amplitudes, register, scratch buffer, counters *)
Definition applied (g : gate) (q q' : computer) : Prop :=
  nqubit q' = nqubit q /\ length (coeff q') = 2 ^ nqubit q /\
  amp (coeff q') == gate_act g (amp (coeff q)) /\
  none_ops q' = none_ops q + (if gtarget g =? gcontrol g then 1 else 0) /\
  ntwo_ops q' = ntwo_ops q + (if gtarget g =? gcontrol g then 0 else 1) /\
  new_coeff q' = zeros (2 ^ nqubit q).

Lemma map_zeros {A} (l : list A) n : length l = n -> map (fun _ => C0) l = zeros n.
Proof. intros <-. induction l; simpl; [reflexivity|]. unfold zeros in *; simpl; f_equal; assumption. Qed.

Lemma gnqubits_1 g : (gnqubits g =? 1) = (gtarget g =? gcontrol g).
Proof. unfold gnqubits. destruct (gtarget g =? gcontrol g); reflexivity. Qed.
Lemma gnqubits_2 g : (gnqubits g =? 2) = negb (gtarget g =? gcontrol g).
Proof. unfold gnqubits. destruct (gtarget g =? gcontrol g); reflexivity. Qed.

Lemma apply_gate_correct q g : wf_computer q -> in_range (nqubit q) g -> gate_clean g ->
  exists q', apply_gate q g = Ok q' /\ applied g q q'.
Proof.
  intros [Hv Hw] [Ht Hc] HG. unfold apply_gate. rewrite gnqubits_1, gnqubits_2.
  unfold nbasis in Hv, Hw. unfold gate_clean, applied, gate_act in *.
  destruct (gtarget g =? gcontrol g) eqn:E1; cbn [negb].
  - unfold apply_1qubit_gate, nbasis.
    destruct (apply1_vec_correct (nqubit q) (gtarget g) (gmat g) (coeff q) Hv Ht HG) as (v' & -> & R).
    rewrite !bind_Ok. eexists; split; [reflexivity|]. simpl. repeat split; auto; try lia.
    + apply R.
    + apply (vec_amp (nqubit q)); [exact R|]. apply act1_supp; assumption.
  - rewrite bind_Ok. apply Nat.eqb_neq in E1. destruct HG as [HG1 HG2]. unfold apply_2qubit_gate, nbasis.
    destruct (Rltb_spec (abs2 (gmat g 0 1) (gmat g 1 0)) thr) as [T1|T1];
    destruct (Ceqb_spec (gmat g 0 0) C1) as [T2|T2]; destruct (Ceqb_spec (gmat g 1 1) C1) as [T3|T3]; cbn [andb].
    1:{ assert (TC : takes_ctrl (gmat g)) by (repeat split; assumption).
        destruct (HG1 TC) as [SH BO].
        destruct (Nat.ltb_spec (gtarget g) (gcontrol g)) as [L|L].
        - destruct (apply2_A_correct (nqubit q) (gtarget g) (gcontrol g) _ _ _ _ (coeff q) Hv L Hc BO) as (v' & -> & R).
          rewrite !bind_Ok. destruct (Nat.ltb_spec (gcontrol g) (gtarget g)); [lia|].
          eexists; split; [reflexivity|]. simpl. repeat split; auto; try lia.
          + apply R.
          + apply (vec_amp (nqubit q)); [|apply act2_supp; assumption].
            split; [apply R|]. intros I HI. rewrite ctrl_act_act2 by (auto; lia). apply R; exact HI.
        - rewrite bind_Ok. destruct (Nat.ltb_spec (gcontrol g) (gtarget g)) as [L2|L2]; [|lia].
          destruct (apply2_B_correct (nqubit q) (gtarget g) (gcontrol g) _ _ _ _ (coeff q) Hv L2 Ht BO) as (v' & -> & R).
          rewrite !bind_Ok. eexists; split; [reflexivity|]. simpl. repeat split; auto; try lia.
          + apply R.
          + apply (vec_amp (nqubit q)); [|apply act2_supp; assumption].
            split; [apply R|]. intros I HI. rewrite ctrl_act_act2 by (auto; lia). apply R; exact HI. }
    all: assert (TC : ~ takes_ctrl (gmat g)) by (intros (? & ? & ?); contradiction);
      destruct (safe2_correct (nqubit q) (gtarget g) (gcontrol g) (gmat g) (coeff q) (new_coeff q) Hv Hw Ht Hc
                  (not_eq_sym E1) (HG2 TC)) as (w' & E & R); unfold basis, nbasis; rewrite E, bind_Ok;
      eexists; split; [reflexivity|]; simpl; repeat split; auto; try lia;
      [apply R| apply (vec_amp (nqubit q)); [exact R|]; apply act2_supp; assumption
      | apply map_zeros; rewrite Hw; apply repeat_length].
Qed.

Lemma apply_gate_safe_correct q g : wf_computer q -> in_range (nqubit q) g -> gate_clean_safe g ->
  exists q', apply_gate_safe q g = Ok q' /\ applied g q q'.
Proof.
  intros [Hv Hw] [Ht Hc] HG. unfold apply_gate_safe. rewrite gnqubits_1, gnqubits_2.
  unfold nbasis in Hv, Hw. unfold gate_clean_safe, applied, gate_act in *.
  destruct (gtarget g =? gcontrol g) eqn:E1; cbn [negb].
  - destruct (safe1_correct (nqubit q) (gtarget g) (gmat g) (coeff q) (new_coeff q) Hv Hw Ht HG) as (w' & E & R).
    unfold basis, nbasis. rewrite E, !bind_Ok. eexists; split; [reflexivity|]. simpl. repeat split; auto; try lia.
    + apply R.
    + apply (vec_amp (nqubit q)); [exact R|]. apply act1_supp; assumption.
    + apply map_zeros; apply R.
  - apply Nat.eqb_neq in E1.
    destruct (safe2_correct (nqubit q) (gtarget g) (gcontrol g) (gmat g) (coeff q) (new_coeff q) Hv Hw Ht Hc
                  (not_eq_sym E1) HG) as (w' & E & R).
    rewrite bind_Ok. unfold basis, nbasis. rewrite E, !bind_Ok.
    eexists; split; [reflexivity|]. simpl. repeat split; auto; try lia.
    + apply R.
    + apply (vec_amp (nqubit q)); [exact R|]. apply act2_supp; assumption.
    + apply map_zeros; apply R.
Qed.

Lemma applied_wf g q q' : applied g q q' -> wf_computer q'.
Proof.
  intros (Hn & Hl & _ & _ & _ & Hw). unfold wf_computer, nbasis. rewrite Hn. auto.
Qed.

Lemma act1_ext m t a b : a == b -> act1 m t a == act1 m t b.
Proof. intros H I; unfold act1; rewrite !H; reflexivity. Qed.
Lemma act2_ext m t c a b : a == b -> act2 m t c a == act2 m t c b.
Proof. intros H I; unfold act2; rewrite !H; reflexivity. Qed.
Lemma gate_act_ext g a b : a == b -> gate_act g a == gate_act g b.
Proof. unfold gate_act. destruct (_ =? _); [apply act1_ext|apply act2_ext]. Qed.
Lemma circ_act_ext gs : forall a b, a == b -> circ_act gs a == circ_act gs b.
Proof.
  induction gs as [|g gs IH]; intros a b H; simpl; [exact H|]. apply IH, gate_act_ext, H.
Qed.
Lemma circ_act_app l1 l2 psi : circ_act (l1 ++ l2) psi = circ_act l2 (circ_act l1 psi).
Proof. apply fold_left_app. Qed.
Lemma circ_act_cons g gs psi : circ_act (g :: gs) psi = circ_act gs (gate_act g psi).
Proof. reflexivity. Qed.
Lemma seq_trans (a b c : state) : a == b -> b == c -> a == c.
Proof. intros H1 H2 I; rewrite H1; apply H2. Qed.
Lemma seq_sym (a b : state) : a == b -> b == a.
Proof. intros H I; symmetry; apply H. Qed.
Lemma seq_refl (a : state) : a == a.
Proof. intros I; reflexivity. Qed.

Definition ones (gs : list gate) := length (filter (fun g => gtarget g =? gcontrol g) gs).
Definition twos (gs : list gate) := length (filter (fun g => negb (gtarget g =? gcontrol g)) gs).

Definition circ_applied (gs : list gate) (q q' : computer) : Prop :=
  nqubit q' = nqubit q /\ length (coeff q') = 2 ^ nqubit q /\
  amp (coeff q') == circ_act gs (amp (coeff q)) /\
  none_ops q' = none_ops q + ones gs /\
  ntwo_ops q' = ntwo_ops q + twos gs /\
  new_coeff q' = zeros (2 ^ nqubit q).

Lemma circ_gen (app : computer -> gate -> res computer) (P : gate -> Prop) :
  (forall q g, wf_computer q -> in_range (nqubit q) g -> P g -> exists q', app q g = Ok q' /\ applied g q q') ->
  forall gs q, wf_computer q -> Forall (in_range (nqubit q)) gs -> Forall P gs ->
  exists q', foreach gs (fun g q => app q g) q = Ok q' /\ circ_applied gs q q'.
Proof.
  intros HA. induction gs as [|g gs IH]; intros q HQ HR HP.
  - exists q; split; [reflexivity|]. destruct HQ as [Hv Hw]. unfold circ_applied, ones, twos; simpl.
    repeat split; auto; try lia.
  - inversion HR; inversion HP; subst. cbn [foreach].
    destruct (HA q g) as (q1 & -> & A1); auto. rewrite bind_Ok.
    destruct (IH q1) as (q2 & -> & A2); auto.
    + apply (applied_wf _ _ _ A1).
    + destruct A1 as [-> _]; assumption.
    + exists q2; split; [reflexivity|]. unfold circ_applied in *.
      destruct A1 as (N1 & L1 & S1 & O1 & T1 & W1), A2 as (N2 & L2 & S2 & O2 & T2 & W2).
      rewrite N1 in *. repeat split; auto.
      * rewrite circ_act_cons. eapply seq_trans; [exact S2|]. apply circ_act_ext; exact S1.
      * rewrite O2, O1. unfold ones; simpl. destruct (gtarget g =? gcontrol g); simpl; lia.
      * rewrite T2, T1. unfold twos; simpl. destruct (gtarget g =? gcontrol g); simpl; lia.
Qed.

Lemma apply_circuit_correct gs q : wf_computer q -> Forall (in_range (nqubit q)) gs -> Forall gate_clean gs ->
  exists q', apply_circuit q gs = Ok q' /\ circ_applied gs q q'.
Proof. intros. apply (circ_gen apply_gate gate_clean); auto using apply_gate_correct. Qed.
Lemma apply_circuit_safe_correct gs q : wf_computer q -> Forall (in_range (nqubit q)) gs -> Forall gate_clean_safe gs ->
  exists q', apply_circuit_safe q gs = Ok q' /\ circ_applied gs q q'.
Proof. intros. apply (circ_gen apply_gate_safe gate_clean_safe); auto using apply_gate_safe_correct. Qed.

(** amplitudes determine coeff *)
Lemma coeff_eq v w n : length v = 2 ^ n -> length w = 2 ^ n -> amp v == amp w -> v = w.
Proof. intros Hv Hw H. apply (list_ext C0); [congruence|]. intros i _. apply H. Qed.
