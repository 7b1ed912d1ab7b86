(** Facts about library gates: matrices, unitarity, adjoint, angles. *)
From Coq Require Import Reals String Ascii List Arith Lia Bool Lra ZArith FunctionalExtensionality.
From Verif Require Import CBase Result Bits Spec GateModel ComputerModel ApplyProofs SafeProofs.
Import ListNotations.
Local Open Scope R_scope.
Local Open Scope string_scope.

(** *** normalize_angle *)
Lemma fmod_spec x p : 0 < p -> exists k : Z, fmod x p = x - p * IZR k /\ Rabs (fmod x p) < p.
Proof.
  intros Hp. unfold fmod, Rtrunc. destruct (Rle_dec 0 (x / p)) as [H|H].
  - exists (Int_part (x / p)). split; [reflexivity|].
    destruct (base_Int_part (x / p)) as [H1 H2].
    assert (E : x = p * (x / p)) by (field; lra). set (y := x / p) in *. set (z := IZR (Int_part y)) in *.
    assert (0 <= y - z < 1).
    { split; lra. }
    rewrite E at 1. replace (p * y - p * z) with (p * (y - z)) by ring.
    rewrite Rabs_right by nra. nra.
  - exists (- Int_part (- (x / p)))%Z. split; [reflexivity|].
    destruct (base_Int_part (- (x / p))) as [H1 H2]. rewrite opp_IZR.
    assert (E : x = p * (x / p)) by (field; lra). set (y := x / p) in *. set (z := IZR (Int_part (- y))) in *.
    rewrite E at 1. replace (p * y - p * - z) with (- (p * (- y - z))) by ring.
    rewrite Rabs_Ropp, Rabs_right by nra. nra.
Qed.

Lemma normalize_angle_spec x p : 0 < p ->
  exists k : Z, normalize_angle x p = x - p * IZR k /\ - p / 2 <= normalize_angle x p <= p / 2.
Proof.
  intros Hp. destruct (fmod_spec x p Hp) as (k & E & B). apply Rabs_def2 in B.
  unfold normalize_angle. destruct (Rltb_spec (fmod x p) (- p / 2)) as [H1|H1].
  - exists (k - 1)%Z. rewrite minus_IZR. lra.
  - destruct (Rltb_spec (p / 2) (fmod x p)) as [H2|H2].
    + exists (k + 1)%Z. rewrite plus_IZR. lra.
    + exists k. lra.
Qed.

Lemma Int_part_small r : 0 <= r < 1 -> Int_part r = 0%Z.
Proof.
  intros H. destruct (base_Int_part r) as [H1 H2].
  assert (A : (Int_part r < 1)%Z) by (apply lt_IZR; simpl; lra).
  assert (B : (-1 < Int_part r)%Z) by (apply lt_IZR; simpl; lra).
  lia.
Qed.
Lemma fmod_small x p : 0 < p -> Rabs x < p -> fmod x p = x.
Proof.
  intros Hp Hx. apply Rabs_def2 in Hx. unfold fmod, Rtrunc.
  assert (E : x = p * (x / p)) by (field; lra). set (y := x / p) in *.
  destruct (Rle_dec 0 y).
  - rewrite Int_part_small; [simpl; ring|]. split; [assumption|nra].
  - rewrite Int_part_small; [simpl; ring|]. split; [lra|nra].
Qed.
(** idempotent: a normalised angle is left alone *)
Lemma normalize_angle_id x p : 0 < p -> - p / 2 <= x <= p / 2 -> normalize_angle x p = x.
Proof.
  intros Hp H. unfold normalize_angle. rewrite fmod_small by (auto; apply Rabs_def1; lra).
  rewrite !Rltb_false by lra. reflexivity.
Qed.

Lemma cos_period_Z x (k : Z) : cos (x + 2 * PI * IZR k) = cos x.
Proof.
  destruct (Z_le_gt_dec 0 k) as [H|H].
  - rewrite <- (Z2Nat.id k H), <- INR_IZR_INZ.
    rewrite <- (cos_period x (Z.to_nat k)). f_equal; ring.
  - assert (H' : (0 <= - k)%Z) by lia. rewrite <- (cos_period (x + 2 * PI * IZR k) (Z.to_nat (- k))).
    f_equal. rewrite INR_IZR_INZ, Z2Nat.id by exact H'. rewrite opp_IZR. ring.
Qed.
Lemma sin_period_Z x (k : Z) : sin (x + 2 * PI * IZR k) = sin x.
Proof.
  destruct (Z_le_gt_dec 0 k) as [H|H].
  - rewrite <- (Z2Nat.id k H), <- INR_IZR_INZ.
    rewrite <- (sin_period x (Z.to_nat k)). f_equal; ring.
  - assert (H' : (0 <= - k)%Z) by lia. rewrite <- (sin_period (x + 2 * PI * IZR k) (Z.to_nat (- k))).
    f_equal. rewrite INR_IZR_INZ, Z2Nat.id by exact H'. rewrite opp_IZR. ring.
Qed.
Lemma Ccis_period x k : Ccis (x + 2 * PI * IZR k) = Ccis x.
Proof. unfold Ccis. rewrite cos_period_Z, sin_period_Z. reflexivity. Qed.

Lemma norm_2pi x : exists k : Z, normalize_angle x (2 * PI) = x + 2 * PI * IZR k.
Proof.
  destruct (normalize_angle_spec x (2 * PI)) as (k & -> & _); [pose proof PI_RGT_0; lra|].
  exists (- k)%Z. rewrite opp_IZR. ring.
Qed.
Lemma norm_4pi_half x : exists k : Z, 0.5 * normalize_angle x (4 * PI) = 0.5 * x + 2 * PI * IZR k.
Proof.
  destruct (normalize_angle_spec x (4 * PI)) as (k & -> & _); [pose proof PI_RGT_0; lra|].
  exists (- k)%Z. rewrite opp_IZR. lra.
Qed.

(** the rotation matrices do not change under normalisation *)
Lemma m_R_norm x : m_R (normalize_angle x (2 * PI)) = m_R x.
Proof. unfold m_R. destruct (norm_2pi x) as [k ->]. rewrite Ccis_period; reflexivity. Qed.
Lemma m_cR_norm x : m_cR (normalize_angle x (2 * PI)) = m_cR x.
Proof. unfold m_cR. destruct (norm_2pi x) as [k ->]. rewrite Ccis_period; reflexivity. Qed.
Lemma m_A_norm x : m_A (normalize_angle x (2 * PI)) = m_A x.
Proof. unfold m_A. destruct (norm_2pi x) as [k ->]. rewrite cos_period_Z, sin_period_Z; reflexivity. Qed.
Lemma m_Rx_norm x : m_Rx (normalize_angle x (4 * PI)) = m_Rx x.
Proof. unfold m_Rx. destruct (norm_4pi_half x) as [k ->]. rewrite cos_period_Z, sin_period_Z; reflexivity. Qed.
Lemma m_Ry_norm x : m_Ry (normalize_angle x (4 * PI)) = m_Ry x.
Proof. unfold m_Ry. destruct (norm_4pi_half x) as [k ->]. rewrite cos_period_Z, sin_period_Z; reflexivity. Qed.
Lemma m_Rz_norm x : m_Rz (normalize_angle x (4 * PI)) = m_Rz x.
Proof.
  unfold m_Rz. rewrite !Ccis_neg. destruct (norm_4pi_half x) as [k ->]. rewrite Ccis_period; reflexivity.
Qed.
Lemma m_cRz_norm x : m_cRz (normalize_angle x (4 * PI)) = m_cRz x.
Proof.
  unfold m_cRz. rewrite !Ccis_neg. destruct (norm_4pi_half x) as [k ->]. rewrite Ccis_period; reflexivity.
Qed.

(** *** matrix tactics *)
Definition rsqrt2 : R := 1 / sqrt 2.
Lemma rsqrt2_sq : rsqrt2 * rsqrt2 = / 2.
Proof.
  unfold rsqrt2. assert (H : sqrt 2 * sqrt 2 = 2) by (apply sqrt_sqrt; lra).
  assert (sqrt 2 <> 0) by (intros E; rewrite E in H; lra).
  field_simplify; [|assumption]. replace (sqrt 2 ^ 2) with 2 by (simpl; lra). lra.
Qed.
Lemma rsqrt2_pos : 0 < rsqrt2.
Proof. unfold rsqrt2. apply Rdiv_lt_0_compat; [lra|]. apply sqrt_lt_R0; lra. Qed.

Lemma mk44_ge_row rows i j : (length rows <= i)%nat -> mk44 rows i j = C0.
Proof. intros H. unfold mk44. rewrite (nth_overflow rows) by exact H. destruct j; reflexivity. Qed.

Ltac case4 i := destruct i as [|[|[|[|i]]]].
Ltac lt4 := first [lia | idtac].
Lemma lt2_cases (P : nat -> Prop) : P 0%nat -> P 1%nat -> forall i, (i < 2)%nat -> P i.
Proof. intros ? ? i H. destruct i as [|[|i]]; auto; lia. Qed.
Lemma lt4_cases (P : nat -> Prop) : P 0%nat -> P 1%nat -> P 2%nat -> P 3%nat -> forall i, (i < 4)%nat -> P i.
Proof. intros ? ? ? ? i H. destruct i as [|[|[|[|i]]]]; auto; lia. Qed.

Ltac mat_entry :=
  cbv [m_X m_Y m_Z m_H m_R m_Rx m_Ry m_Rz m_V m_S m_T m_I m_A m_cX m_acX m_cY m_cZ m_cR m_cV m_cRz m_SWAP
       mmul madj mid mk44 nth Csum fold_right seq Nat.eqb Cconj Cadd Cmul Cneg Csub C0 C1 Ci RtoC Ccis Re Im];
  fold rsqrt2; rewrite ?cos_neg, ?sin_neg.
Ltac trig_facts :=
  repeat match goal with
  | |- context [cos ?x] => lazymatch goal with
      | _ : sin x * sin x + cos x * cos x = 1 |- _ => fail
      | _ => let H := fresh "Htr" in pose proof (sin2_cos2 x) as H; unfold Rsqr in H end
  end; pose proof rsqrt2_sq.
Ltac unitary2 :=
  split; unfold meq; intros i j Hi Hj; revert i Hi j Hj;
  refine (lt2_cases _ _ _); refine (lt2_cases _ _ _); mat_entry; trig_facts; apply C_ext; simpl; try lra; nra.
Ltac unitary4 :=
  split; unfold meq; intros i j Hi Hj; revert i Hi j Hj;
  refine (lt4_cases _ _ _ _ _); refine (lt4_cases _ _ _ _ _); mat_entry; trig_facts; apply C_ext; simpl; try lra; nra.

Lemma unit_X : unitary 2 m_X. Proof. unitary2. Qed.
Lemma unit_Y : unitary 2 m_Y. Proof. unitary2. Qed.
Lemma unit_Z : unitary 2 m_Z. Proof. unitary2. Qed.
Lemma unit_H : unitary 2 m_H. Proof. unitary2. Qed.
Lemma unit_R p : unitary 2 (m_R p). Proof. unitary2. Qed.
Lemma unit_Rx p : unitary 2 (m_Rx p). Proof. unitary2. Qed.
Lemma unit_Ry p : unitary 2 (m_Ry p). Proof. unitary2. Qed.
Lemma unit_Rz p : unitary 2 (m_Rz p). Proof. unitary2. Qed.
Lemma unit_V : unitary 2 m_V. Proof. unitary2. Qed.
Lemma unit_S : unitary 2 m_S. Proof. unitary2. Qed.
Lemma unit_T : unitary 2 m_T. Proof. unitary2. Qed.
Lemma unit_I : unitary 2 m_I. Proof. unitary2. Qed.
Lemma unit_A p : unitary 4 (m_A p). Proof. unitary4. Qed.
Lemma unit_cX : unitary 4 m_cX. Proof. unitary4. Qed.
Lemma unit_acX : unitary 4 m_acX. Proof. unitary4. Qed.
Lemma unit_cY : unitary 4 m_cY. Proof. unitary4. Qed.
Lemma unit_cZ : unitary 4 m_cZ. Proof. unitary4. Qed.
Lemma unit_cR p : unitary 4 (m_cR p). Proof. unitary4. Qed.
Lemma unit_cV : unitary 4 m_cV. Proof. unitary4. Qed.
Lemma unit_cRz p : unitary 4 (m_cRz p). Proof. unitary4. Qed.
Lemma unit_SWAP : unitary 4 m_SWAP. Proof. unitary4. Qed.
