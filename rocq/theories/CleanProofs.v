(** Library gates on which the thresholded simulator is exact. *)
From Coq Require Import Reals String Ascii List Arith Lia Bool Lra ZArith.
From Verif Require Import CBase Result Bits Spec GateModel ComputerModel ApplyProofs SafeProofs GateProofs LibProofs.
Import ListNotations.
Local Open Scope nat_scope.

(** top-left index of the block the fast algorithm works on *)
Definition blk (g : gate) : nat := if gtarget g =? gcontrol g then 0 else 2.
(** the block the fast path works on is a multiple of X other than X itself *)
Definition phased_X (g : gate) : Prop :=
  let b := blk g in
  gmat g b b = C0 /\ gmat g (b + 1) (b + 1) = C0 /\ gmat g b (b + 1) = gmat g (b + 1) b /\ gmat g b (b + 1) <> C1.
(** no matrix entry has a modulus in (0, 1e-16], and the block is not a phase times X *)
Definition sharp (g : gate) : Prop := clean_mat 4 (gmat g) /\ ~ phased_X g.

Lemma sharp_block a b c d : clean a -> clean b -> clean c -> clean d ->
  ~ (a = C0 /\ d = C0 /\ b = c /\ b <> C1) -> block_ok a b c d.
Proof.
  intros Ha Hb Hc Hd HN. repeat split.
  - apply (clean_pair a d); assumption.
  - apply (clean_pair a d); assumption.
  - apply (clean_pair b c); assumption.
  - apply (clean_pair b c); assumption.
  - intros HS HE. destruct (clean_pair a d Ha Hd HS) as [-> ->].
    destruct (Ceq_dec b C1); [assumption|]. exfalso; auto.
Qed.

Lemma sq_sum_one x y : (x = 1 -> x * x + y * y = 1 -> y = 0)%R.
Proof. intros -> H. nra. Qed.

Lemma library_clean g : library_gate g -> sharp g -> gate_clean g.
Proof.
  intros HL [HC HX]. unfold gate_clean. unfold phased_X, blk in HX.
  destruct (Nat.eqb_spec (gtarget g) (gcontrol g)) as [E|E]; cbn [Nat.add] in HX.
  - apply sharp_block; auto; apply HC; lia.
  - split; [|intros _; exact HC]. intros (T1 & T2 & T3).
    split; [|apply sharp_block; auto; apply HC; lia].
    destruct (library_shape g HL) as [(ty & p & HS)|(m & (_ & _ & Hm) & _)].
    + assert (H1 : type_1q ty = false).
      { rewrite <- (sg_q _ _ _ HS). apply Nat.eqb_neq; exact E. }
      rewrite (sg_mat _ _ _ HS) in T1, T2, T3 |- *. pose proof (sg_def _ _ _ HS) as HD.
      destruct ty; try discriminate H1; cbn [type_mat] in *; try congruence;
        try (repeat split; unfold madj; try apply Cconj_C0; try apply Cconj_C1; reflexivity).
      * (* A *)
        assert (HCo : cos p = 1%R) by (injection T3; auto).
        assert (HSi : sin p = 0%R).
        { pose proof (sin2_cos2 p) as H. unfold Rsqr in H. rewrite HCo in H. nra. }
        unfold m_A. rewrite HCo, HSi. repeat split.
      * (* acX *) exfalso. injection T2. intros; lra.
      * (* SWAP *) exfalso. injection T3. intros; lra.
    + rewrite Hm. repeat split.
Qed.

Lemma library_clean_safe g : clean_mat 4 (gmat g) -> gate_clean_safe g.
Proof.
  intros H. unfold gate_clean_safe. destruct (_ =? _); intros i j Hi Hj; apply H; lia.
Qed.

(** *** which library gates are sharp *)
Local Open Scope R_scope.
Lemma thr_lt_half : thr < 1 / 2.
Proof. unfold thr; lra. Qed.
Lemma clean_abs1 z : Cabs z = 1 -> clean z.
Proof. intros H; right. rewrite H. pose proof thr_lt_half; lra. Qed.
Lemma clean_norm2 z : / 4 <= Cnorm2 z -> clean z.
Proof.
  intros H; right. apply Rlt_le_trans with (1 / 2); [apply thr_lt_half|].
  replace (1 / 2) with (sqrt (/ 4)). { apply sqrt_le_1_alt; exact H. }
  replace (/ 4) with ((1 / 2) * (1 / 2)) by lra. apply sqrt_square; lra.
Qed.
(** a rotation angle is sharp when its cosine and sine are 0 or above the threshold *)
Definition sharp_angle (x : R) : Prop :=
  (cos x = 0 \/ thr < Rabs (cos x)) /\ (sin x = 0 \/ thr < Rabs (sin x)).
Definition sharp_type (ty : gtype) (p : R) : Prop :=
  match ty with
  | TRx => sharp_angle (0.5 * p) /\ cos (0.5 * p) <> 0
  | TRy => sharp_angle (0.5 * p)
  | TA => sharp_angle p
  | _ => True
  end.

Lemma Cabs_Ci_R x : Cabs (Ci * RtoC x)%C = Rabs x.
Proof.
  rewrite Cabs_mul, Cabs_RtoC. replace (Cabs Ci) with 1; [ring|].
  unfold Cabs, Cnorm2; simpl. replace (0 * 0 + 1 * 1) with 1 by ring. symmetry; apply sqrt_1.
Qed.
Lemma clean_C0 : clean C0.
Proof. left; reflexivity. Qed.
Lemma clean_R x : x = 0 \/ thr < Rabs x -> clean (RtoC x).
Proof. intros [->|H]; [left; reflexivity|right; rewrite Cabs_RtoC; exact H]. Qed.
Lemma clean_iR x : x = 0 \/ thr < Rabs x -> clean (Ci * RtoC x)%C.
Proof. intros [->|H]; [left; csolve|right; rewrite Cabs_Ci_R; exact H]. Qed.
Lemma clean_neg z : clean z -> clean (- z)%C.
Proof. intros [->|H]; [left; csolve|right; rewrite Cabs_neg; exact H]. Qed.
Lemma clean_conj z : clean z -> clean (Cconj z).
Proof. intros [->|H]; [left; csolve|right; rewrite Cabs_conj; exact H]. Qed.

Ltac clean_entry :=
  match goal with
  | |- clean (- _)%C => apply clean_neg; clean_entry
  | |- clean (Cconj _) => apply clean_conj; clean_entry
  | |- clean C0 => apply clean_C0
  | |- clean (Ccis _) => apply clean_abs1, Cabs_cis
  | |- clean (RtoC (cos _)) => apply clean_R; tauto
  | |- clean (RtoC (sin _)) => apply clean_R; tauto
  | |- clean (Ci * RtoC _)%C => apply clean_iR; tauto
  | |- _ => apply clean_norm2; unfold Cnorm2; simpl; fold rsqrt2; pose proof rsqrt2_sq; try lra; nra
  end.

Lemma sharp_clean ty p : ty <> TUndefined -> sharp_type ty p -> clean_mat 4 (type_mat ty p).
Proof.
  intros HD HS. unfold clean_mat. intros i j Hi Hj. revert i Hi j Hj.
  destruct ty; try congruence; cbn [type_mat]; cbn [sharp_type] in HS; unfold sharp_angle in HS;
  refine (lt4_cases _ _ _ _ _); refine (lt4_cases _ _ _ _ _);
  unfold m_X, m_Y, m_Z, m_H, m_R, m_Rx, m_Ry, m_Rz, m_V, m_S, m_T, m_I, m_A, m_cX, m_acX, m_cY, m_cZ, m_cR, m_cV, m_cRz, m_SWAP, madj, mk44;
  cbn [nth]; clean_entry.
Qed.

Lemma sharp_std ty p g : std_gate ty p g -> sharp_type ty p -> sharp g.
Proof.
  intros HS HT. pose proof (sg_def _ _ _ HS) as HD. split.
  - rewrite (sg_mat _ _ _ HS). apply sharp_clean; assumption.
  - unfold phased_X, blk. rewrite (sg_q _ _ _ HS), (sg_mat _ _ _ HS).
    destruct ty; cbn [type_1q type_mat Nat.add]; intros (H1 & H2 & H3 & H4); cbn [sharp_type] in HT;
    try congruence; try (apply H4; reflexivity);
    unfold m_X, m_Y, m_Z, m_H, m_R, m_Rx, m_Ry, m_Rz, m_V, m_S, m_T, m_I, m_A, m_cX, m_acX, m_cY, m_cZ, m_cR, m_cV, m_cRz, m_SWAP, madj, mk44 in *;
    cbn [nth] in *.
    all: try (apply (f_equal Re) in H1; apply (f_equal Re) in H2; apply (f_equal Re) in H3; simpl in *; lra).
    all: try (apply (f_equal Im) in H3; simpl in *; lra).
    + pose proof rsqrt2_pos. apply (f_equal Re) in H1; simpl in H1. fold rsqrt2 in *. lra.
    + apply (f_equal Re) in H1, H3; simpl in H1, H3. pose proof (sin2_cos2 (0.5 * p)) as H; unfold Rsqr in H.
      assert (sin (0.5 * p) = 0) by lra. rewrite H1, H0 in H. lra.
    + apply (f_equal Cabs) in H1. rewrite Cabs_cis, Cabs_C0 in H1. lra.
    + apply (f_equal Cabs) in H1. rewrite Cabs_cis, Cabs_C0 in H1. lra.
Qed.

(** The exact-arithmetic defect behind the [phased_X] exclusion: in exact arithmetic
    the matrix of Rx(pi) is -i X, the off-diagonal entries compare equal, and case III-A
    swaps the amplitudes without the factor -i (computer.cc:398). *)
Lemma Rx_pi_swaps :
  exists g q', make_gate "Rx" 0 0 PI = Ok g /\ apply_gate (new_computer 1) g = Ok q' /\
    amp (coeff q') 1%nat = C1 /\ gate_act g (amp (coeff (new_computer 1))) 1%nat = (- Ci)%C.
Proof.
  assert (EN : normalize_angle PI (4 * PI) = PI).
  { apply normalize_angle_id; pose proof PI_RGT_0; lra. }
  assert (Ec : cos (0.5 * PI) = 0) by (replace (0.5 * PI) with (PI / 2) by lra; apply cos_PI2).
  assert (Es : sin (0.5 * PI) = 1) by (replace (0.5 * PI) with (PI / 2) by lra; apply sin_PI2).
  eexists. eexists. split.
  { unfold make_gate. cbn [Nat.eqb String.eqb Ascii.eqb Bool.eqb]. rewrite EN. reflexivity. }
  split; [|split].
  - unfold apply_gate, gnqubits. cbn [gtarget gcontrol Nat.eqb]. unfold apply_1qubit_gate, apply1_vec.
    cbn [gtarget gmat]. unfold m_Rx. rewrite Ec, Es. unfold mk44; cbn [nth].
    assert (A : above (abs2 (RtoC 0) (RtoC 0)) = false).
    { unfold above, abs2. apply Rltb_false. rewrite !Cabs_RtoC, Rabs_R0. unfold thr; lra. }
    rewrite A. cbn [andb]. rewrite chained_spec, Ceqb_refl. reflexivity.
  - reflexivity.
  - cbv [gate_act gtarget gcontrol Nat.eqb act1 gmat]. change (b2n (bit 1 0)) with 1%nat.
    unfold m_Rx. rewrite Ec, Es. unfold mk44; cbn [nth]. simpl amp. csolve.
Qed.
