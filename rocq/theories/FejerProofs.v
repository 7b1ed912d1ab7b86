(** The amplitude 1/M sum_x exp(2 pi i x delta) of phase estimation. *)
From Coq Require Import Reals List Arith ZArith Bool Lia Lra.
From Verif Require Import CBase GateProofs.
Import ListNotations.
Local Open Scope R_scope.

Definition fejer (M : nat) (delta : R) : C := (RtoC (/ INR M) * Csum (fun x => Ccis (2 * PI * (INR x * delta))) (seq 0 M))%C.

(** ---- Jordan's inequality ---- *)
Lemma jordan x : 0 <= x <= PI / 2 -> 2 * x / PI <= sin x.
Proof.
  intros [H0 H1]. pose proof PI_RGT_0 as HP. destruct (Rle_lt_dec (2 * x / PI) (sin x)) as [H|H]; [exact H|exfalso].
  assert (Hx : 0 < x). { destruct H0 as [H0|<-]; [exact H0|]. rewrite sin_0 in H. unfold Rdiv in H. rewrite Rmult_0_r, Rmult_0_l in H. lra. }
  assert (Hx1 : x < PI / 2). { destruct H1 as [H1| ->]; [exact H1|]. rewrite sin_PI2 in H. replace (2 * (PI / 2) / PI) with 1 in H by (field; lra). lra. }
  destruct (MVT_cor2 sin cos 0 x Hx ltac:(intros; apply derivable_pt_lim_sin)) as (a & Ea & Ha).
  destruct (MVT_cor2 sin cos x (PI / 2) Hx1 ltac:(intros; apply derivable_pt_lim_sin)) as (b & Eb & Hb).
  rewrite sin_0 in Ea. rewrite sin_PI2 in Eb. assert (HC : cos b < cos a) by (apply cos_decreasing_1; lra).
  assert (A : cos a < 2 / PI). { apply (Rmult_lt_reg_r x); [exact Hx|]. replace (2 / PI * x) with (2 * x / PI) by (field; lra). lra. }
  assert (B : 2 / PI < cos b). { apply (Rmult_lt_reg_r (PI / 2 - x)); [lra|]. rewrite <- Eb. replace (2 / PI * (PI / 2 - x)) with (1 - 2 * x / PI) by (field; lra). lra. }
  lra.
Qed.
Lemma jordan_abs x : Rabs x <= PI / 2 -> (2 * x / PI) * (2 * x / PI) <= sin x * sin x.
Proof.
  intros H. pose proof PI_RGT_0 as HP. assert (G : forall y, 0 <= y <= PI / 2 -> (2 * y / PI) * (2 * y / PI) <= sin y * sin y).
  { intros y Hy. pose proof (jordan y Hy) as J. assert (0 <= 2 * y / PI) by (apply Rmult_le_pos; [lra|left; apply Rinv_0_lt_compat, HP]). apply Rmult_le_compat; assumption. }
  unfold Rabs in H. destruct (Rcase_abs x) as [Hn|Hn]; [|apply G; lra]. specialize (G (- x) ltac:(lra)). rewrite sin_neg in G. replace (2 * - x / PI) with (- (2 * x / PI)) in G by (field; lra). lra.
Qed.
Lemma sin_le_abs x : sin x * sin x <= x * x.
Proof.
  assert (G : forall y, 0 < y -> sin y * sin y <= y * y).
  { intros y Hy. destruct (Rle_lt_dec y 1) as [H1|H1].
    - pose proof (sin_lt_x y Hy). assert (0 <= sin y) by (apply sin_ge_0; pose proof PI2_1; lra). apply Rmult_le_compat; lra.
    - pose proof (SIN_bound y). nra. }
  destruct (Rtotal_order x 0) as [H|[->|H]]; [|rewrite sin_0; lra|apply G, H]. specialize (G (- x) ltac:(lra)). rewrite sin_neg in G. lra.
Qed.

(** ---- the geometric sum ---- *)
Lemma geo d M : ((C1 - Ccis (2 * PI * d)) * Csum (fun x => Ccis (2 * PI * (INR x * d))) (seq 0 M))%C = (C1 - Ccis (2 * PI * (INR M * d)))%C.
Proof.
  induction M as [|M IH]; [cbn [seq INR]; rewrite Csum_nil; replace (2 * PI * (0 * d)) with 0 by ring; rewrite Ccis_0; ring|].
  rewrite seq_S, Csum_app, Csum_cons, Csum_nil. cbn [Nat.add]. replace (2 * PI * (INR (S M) * d)) with (2 * PI * d + 2 * PI * (INR M * d)) by (rewrite S_INR; ring). rewrite Ccis_add.
  replace ((C1 - Ccis (2 * PI * d)) * (Csum (fun x => Ccis (2 * PI * (INR x * d))) (seq 0 M) + (Ccis (2 * PI * (INR M * d)) + C0)))%C with ((C1 - Ccis (2 * PI * d)) * Csum (fun x => Ccis (2 * PI * (INR x * d))) (seq 0 M) + (C1 - Ccis (2 * PI * d)) * Ccis (2 * PI * (INR M * d)))%C by ring. rewrite IH. ring.
Qed.
Lemma norm_one_minus y : Cnorm2 (C1 - Ccis (2 * y))%C = 4 * (sin y * sin y).
Proof.
  unfold Cnorm2, Csub, Cadd, Cneg, Ccis, C1. cbn [Re Im]. rewrite cos_2a, sin_2a. pose proof (sin2_cos2 y) as H. unfold Rsqr in H.
  set (s := sin y) in *. set (c := cos y) in *. assert (E : c * c = 1 - s * s) by lra.
  transitivity ((1 + s * s - c * c) * (1 + s * s - c * c) + 4 * (s * s) * (c * c)); [ring|]. rewrite E. ring.
Qed.
Lemma Csum_shift (f g : nat -> C) l : (forall x, In x l -> f x = g x) -> Csum f l = Csum g l.
Proof. apply Csum_ext. Qed.
Lemma fejer_sq M d : (1 <= M)%nat -> sin (PI * d) * sin (PI * d) * (INR M * INR M * Cnorm2 (fejer M d)) = sin (PI * (INR M * d)) * sin (PI * (INR M * d)).
Proof.
  intros HM. assert (HI : INR M <> 0) by (apply not_0_INR; lia). unfold fejer. set (S := Csum _ _). rewrite Cnorm2_mul. replace (Cnorm2 (RtoC (/ INR M))) with (/ INR M * / INR M) by (unfold Cnorm2; cbn; ring).
  replace (INR M * INR M * (/ INR M * / INR M * Cnorm2 S)) with (Cnorm2 S) by (field; exact HI).
  pose proof (geo d M) as G. fold S in G. apply (f_equal Cnorm2) in G. rewrite Cnorm2_mul in G. replace (2 * PI * d) with (2 * (PI * d)) in G by ring. replace (2 * PI * (INR M * d)) with (2 * (PI * (INR M * d))) in G by ring. rewrite !norm_one_minus in G. lra.
Qed.
Lemma fejer_period M d z : fejer M (d + IZR z) = fejer M d.
Proof.
  unfold fejer. f_equal. apply Csum_ext. intros x _. replace (2 * PI * (INR x * (d + IZR z))) with (2 * PI * (INR x * d) + 2 * PI * IZR (Z.of_nat x * z)) by (rewrite mult_IZR, <- INR_IZR_INZ; ring). apply Ccis_period.
Qed.
Lemma fejer_0 M : (1 <= M)%nat -> fejer M 0 = C1.
Proof.
  intros HM. unfold fejer. rewrite (Csum_ext _ (fun _ => C1)) by (intros x _; rewrite Rmult_0_r, Rmult_0_r; apply Ccis_0).
  assert (G : forall k, Csum (fun _ => C1) (seq 0 k) = RtoC (INR k)). { induction k as [|k IH]; [reflexivity|]. rewrite seq_S, Csum_app, IH, Csum_cons, Csum_nil, S_INR. apply C_ext; cbn; ring. }
  rewrite G. apply C_ext; cbn; field; apply not_0_INR; lia.
Qed.
Lemma fejer_int M z : (1 <= M)%nat -> fejer M (IZR z) = C1.
Proof. intros H. replace (IZR z) with (0 + IZR z) by ring. rewrite fejer_period. now apply fejer_0. Qed.
Lemma sin_int (z : Z) : sin (PI * IZR z) = 0.
Proof.
  assert (H : Cnorm2 (C1 - Ccis (2 * (PI * IZR z)))%C = 0). { replace (2 * (PI * IZR z)) with (0 + 2 * PI * IZR z) by ring. rewrite Ccis_period, Ccis_0. unfold Cnorm2, Csub, Cadd, Cneg, C1. cbn. ring. }
  rewrite norm_one_minus in H. destruct (Rmult_integral (sin (PI * IZR z)) (sin (PI * IZR z))); [lra|assumption|assumption].
Qed.
Lemma fejer_miss M d z : (1 <= M)%nat -> INR M * d = IZR z -> sin (PI * d) <> 0 -> fejer M d = C0.
Proof.
  intros HM Hz HS. apply Cnorm2_0. pose proof (fejer_sq M d HM) as E. rewrite Hz, sin_int in E. assert (HI : INR M <> 0) by (apply not_0_INR; lia).
  replace (0 * 0) with 0 in E by ring. repeat (apply Rmult_integral in E; destruct E as [E|E]; try contradiction). exact E.
Qed.
Lemma sin_small d : 0 < Rabs d < 1 -> sin (PI * d) <> 0.
Proof.
  intros [H0 H1] E. pose proof PI_RGT_0 as HP. unfold Rabs in *. destruct (Rcase_abs d) as [Hd|Hd].
  - assert (0 < sin (PI * - d)) by (apply sin_gt_0; nra). rewrite Ropp_mult_distr_r_reverse, sin_neg in H. lra.
  - assert (0 < sin (PI * d)) by (apply sin_gt_0; nra). lra.
Qed.
Lemma fejer_upper M d : (1 <= M)%nat -> 0 < Rabs d <= 1 / 2 -> Cnorm2 (fejer M d) <= 1 / (4 * ((INR M * d) * (INR M * d))).
Proof.
  intros HM Hd. pose proof PI_RGT_0 as HP. assert (HI : 0 < INR M) by (apply lt_0_INR; lia). pose proof (fejer_sq M d HM) as E. set (P := Cnorm2 (fejer M d)) in *.
  assert (HS : sin (PI * (INR M * d)) * sin (PI * (INR M * d)) <= 1) by (pose proof (SIN_bound (PI * (INR M * d))); nra).
  assert (HJ : (2 * d) * (2 * d) <= sin (PI * d) * sin (PI * d)). { replace (2 * d) with (2 * (PI * d) / PI) by (field; lra). apply jordan_abs. rewrite Rabs_mult, (Rabs_right PI) by lra. nra. }
  assert (Hd0 : d <> 0) by (intros ->; rewrite Rabs_R0 in Hd; lra). assert (Hdd : 0 < d * d) by nra. assert (HMM : 0 < INR M * INR M) by nra.
  assert (HP0 : 0 <= P) by apply Cnorm2_nonneg. apply (Rmult_le_reg_l (4 * ((INR M * d) * (INR M * d)))); [nra|].
  replace (4 * (INR M * d * (INR M * d)) * (1 / (4 * (INR M * d * (INR M * d))))) with 1 by (field; split; nra).
  apply Rle_trans with (sin (PI * d) * sin (PI * d) * (INR M * INR M * P)); [|lra]. replace (4 * (INR M * d * (INR M * d)) * P) with (2 * d * (2 * d) * (INR M * INR M * P)) by ring. apply Rmult_le_compat_r; [nra|exact HJ].
Qed.
Lemma fejer_lower M d : (1 <= M)%nat -> Rabs d <= 1 / (2 * INR M) -> 4 / (PI * PI) <= Cnorm2 (fejer M d).
Proof.
  intros HM Hd. pose proof PI_RGT_0 as HP. assert (HI : 0 < INR M) by (apply lt_0_INR; lia). destruct (Req_dec d 0) as [->|Hd0].
  - rewrite fejer_0 by exact HM. replace (Cnorm2 C1) with 1 by (unfold Cnorm2; cbn; ring). apply (Rmult_le_reg_r (PI * PI)); [nra|]. replace (4 / (PI * PI) * (PI * PI)) with 4 by (field; lra). pose proof PI2_1. nra.
  - pose proof (fejer_sq M d HM) as E. set (P := Cnorm2 (fejer M d)) in *. assert (HP0 : 0 <= P) by apply Cnorm2_nonneg.
    assert (HJ : (2 * (INR M * d)) * (2 * (INR M * d)) <= sin (PI * (INR M * d)) * sin (PI * (INR M * d))).
    { replace (2 * (INR M * d)) with (2 * (PI * (INR M * d)) / PI) by (field; lra). apply jordan_abs. rewrite !Rabs_mult, (Rabs_right PI), (Rabs_right (INR M)) by lra.
      apply Rle_trans with (PI * (INR M * (1 / (2 * INR M)))); [apply Rmult_le_compat_l; [lra|]; apply Rmult_le_compat_l; lra|]. right. field. lra. }
    pose proof (sin_le_abs (PI * d)) as HS. assert (HMM : 0 < INR M * INR M) by nra. assert (Hdd : 0 < d * d) by nra.
    assert (H : 2 * (INR M * d) * (2 * (INR M * d)) <= PI * d * (PI * d) * (INR M * INR M * P)). { eapply Rle_trans; [exact HJ|]. rewrite <- E. apply Rmult_le_compat_r; [nra|exact HS]. }
    apply (Rmult_le_reg_l (PI * PI)); [nra|]. replace (PI * PI * (4 / (PI * PI))) with 4 by (field; lra). apply (Rmult_le_reg_l (INR M * INR M * (d * d))); [nra|].
    replace (INR M * INR M * (d * d) * 4) with (2 * (INR M * d) * (2 * (INR M * d))) by ring. replace (INR M * INR M * (d * d) * (PI * PI * P)) with (PI * d * (PI * d) * (INR M * INR M * P)) by ring. exact H.
Qed.

(** ---- the probability of readouts far from the phase ---- *)
Fixpoint zs (g : Z -> R) (s : Z) (M : nat) : R := match M with O => 0 | S m => zs g s m + g (s + Z.of_nat m)%Z end.
Lemma zs_front g s M : zs g s (S M) = g s + zs g (s + 1)%Z M.
Proof.
  revert s. induction M as [|M IH]; intros s; [cbn; rewrite Z.add_0_r; ring|]. change (zs g s (S (S M))) with (zs g s (S M) + g (s + Z.of_nat (S M))%Z). rewrite IH. cbn [zs]. replace (s + 1 + Z.of_nat M)%Z with (s + Z.of_nat (S M))%Z by lia. ring.
Qed.
Lemma zs_shift1 g M : (forall z, g (z + Z.of_nat M)%Z = g z) -> forall s, zs g (s + 1) M = zs g s M.
Proof. intros H s. pose proof (zs_front g s M) as E. cbn [zs] in E. rewrite H in E. lra. Qed.
Lemma zs_shift g M : (forall z, g (z + Z.of_nat M)%Z = g z) -> forall s, zs g s M = zs g 0 M.
Proof.
  intros H. apply (Z.peano_ind (fun s => zs g s M = zs g 0 M)); [reflexivity| |].
  - intros s IH. rewrite <- Z.add_1_r, zs_shift1 by exact H. exact IH.
  - intros s IH. rewrite <- IH, <- (zs_shift1 g M H (Z.pred s)). f_equal. lia.
Qed.
Lemma zs_tele g (T : Z -> R) s M : (forall i, (i < M)%nat -> g (s + Z.of_nat i)%Z <= T (s + Z.of_nat i + 1)%Z - T (s + Z.of_nat i)%Z) -> zs g s M <= T (s + Z.of_nat M)%Z - T s.
Proof.
  induction M as [|M IH]; intros H; [cbn; rewrite Z.add_0_r; lra|]. cbn [zs]. specialize (IH ltac:(intros i Hi; apply H; lia)). specialize (H M ltac:(lia)). replace (s + Z.of_nat (S M))%Z with (s + Z.of_nat M + 1)%Z by lia. lra.
Qed.
Lemma inv_pos_le a b : 0 < a -> a <= b -> 1 / b <= 1 / a.
Proof. intros. unfold Rdiv. rewrite !Rmult_1_l. apply Rinv_le_contravar; assumption. Qed.
Lemma tele_step u : 1 / 2 < u -> 1 / (4 * (u * u)) <= 1 / (4 * (u - 1 / 2)) - 1 / (4 * (u + 1 / 2)).
Proof.
  intros H. replace (1 / (4 * (u - 1 / 2)) - 1 / (4 * (u + 1 / 2))) with (1 / (4 * (u * u - 1 / 4))) by (field; repeat split; nra). apply inv_pos_le; nra.
Qed.
Section TAIL.
Variables (H E : nat) (phi : R) (bad : Z -> bool).
Hypothesis (HH : (1 <= H)%nat) (HE : (1 <= E)%nat).
Let M := (2 * H)%nat.
Hypothesis (badp : forall z, bad (z + Z.of_nat M)%Z = bad z).
Hypothesis (bad_far : forall z w, bad z = true -> INR E / INR M < Rabs (phi - IZR z / INR M + IZR w)).
Let g (z : Z) : R := if bad z then Cnorm2 (fejer M (phi - IZR z / INR M)) else 0.
Let b := Int_part (INR M * phi).
Let f := INR M * phi - IZR b.
Let c0 := - (1 / (4 * (INR E + 1 / 2 - f))).
Let T (z : Z) : R := let d := (z - b)%Z in
  if (d <=? 1 - Z.of_nat E)%Z then c0 - 1 / (4 * (INR E + f - 1 / 2)) + 1 / (4 * (- IZR d + f + 1 / 2))
  else if (d <=? Z.of_nat E + 1)%Z then c0 else - (1 / (4 * (IZR d - f - 1 / 2))).
Lemma HM0 : 0 < INR M.
Proof. apply lt_0_INR. unfold M. lia. Qed.
Lemma f_range : 0 <= f < 1.
Proof. pose proof (base_Int_part (INR M * phi)). unfold f, b. lra. Qed.
Lemma HE1 : 1 <= INR E.
Proof. apply (le_INR 1). exact HE. Qed.
Lemma delta_eq z : phi - IZR z / INR M = (f - IZR (z - b)) / INR M.
Proof. unfold f. rewrite minus_IZR. pose proof HM0. field. lra. Qed.
Lemma g_period z : g (z + Z.of_nat M)%Z = g z.
Proof.
  unfold g. rewrite badp. destruct (bad z); [|reflexivity]. rewrite <- (fejer_period M (phi - IZR z / INR M) (-1)). do 2 f_equal. rewrite plus_IZR, <- INR_IZR_INZ. pose proof HM0. field. lra.
Qed.
Lemma g_bound z : (1 - Z.of_nat H <= z - b <= Z.of_nat H)%Z -> f - IZR (z - b) <> 0 -> g z <= 1 / (4 * ((f - IZR (z - b)) * (f - IZR (z - b)))).
Proof.
  intros Hd Hn. pose proof HM0 as H0. pose proof f_range as Hf. unfold g. set (d := (z - b)%Z) in *.
  assert (Hd1 : 1 - INR H <= IZR d <= INR H). { rewrite INR_IZR_INZ. split; [rewrite <- minus_IZR|]; apply IZR_le; lia. }
  assert (EM : INR M = 2 * INR H) by (unfold M; rewrite mult_INR; cbn; ring).
  destruct (bad z); [|left; unfold Rdiv; rewrite Rmult_1_l; apply Rinv_0_lt_compat; nra].
  rewrite delta_eq. fold d. set (u := f - IZR d) in *. eapply Rle_trans; [apply fejer_upper; [unfold M; lia|]|].
  - split; [apply Rabs_pos_lt; unfold Rdiv; apply Rmult_integral_contrapositive_currified; [exact Hn|apply Rinv_neq_0_compat; lra]|].
    apply Rabs_le. assert (HU : - INR H <= u <= INR H) by (unfold u; lra). assert (HH0 : 0 < INR H) by lra.
    split; apply (Rmult_le_reg_r (INR M)); try exact H0; replace (u / INR M * INR M) with u by (field; lra); lra.
  - right. replace (INR M * (u / INR M)) with u by (field; lra). reflexivity.
Qed.
Lemma g_good z : (- Z.of_nat E < z - b <= Z.of_nat E)%Z -> g z = 0.
Proof.
  intros Hd. unfold g. destruct (bad z) eqn:EB; [|reflexivity]. exfalso. pose proof (bad_far z 0 EB) as HB. pose proof HM0. pose proof f_range. rewrite Rplus_0_r, delta_eq in HB. set (d := (z - b)%Z) in *.
  assert (Hd1 : 1 - INR E <= IZR d <= INR E). { rewrite INR_IZR_INZ. split; [rewrite <- minus_IZR|]; apply IZR_le; lia. }
  apply (Rlt_irrefl (INR E / INR M)). eapply Rlt_le_trans; [exact HB|]. unfold Rdiv. rewrite Rabs_mult, (Rabs_right (/ INR M)) by (left; apply Rinv_0_lt_compat; lra). apply Rmult_le_compat_r; [left; apply Rinv_0_lt_compat; lra|]. apply Rabs_le. lra.
Qed.
Lemma T_step z : (1 - Z.of_nat H <= z - b <= Z.of_nat H)%Z -> g z <= T (z + 1)%Z - T z.
Proof.
  intros Hd. pose proof f_range as Hf. pose proof HE1 as H1. unfold T. replace (z + 1 - b)%Z with ((z - b) + 1)%Z by ring. pose proof (g_bound z Hd) as GB. pose proof (g_good z) as GG. set (d := (z - b)%Z) in *. cbv zeta. rewrite plus_IZR.
  destruct (Z_le_gt_dec d (- Z.of_nat E)) as [C1|C1].
  - assert (HD : IZR d <= - INR E) by (rewrite INR_IZR_INZ, <- opp_IZR; apply IZR_le, C1).
    replace (d <=? 1 - Z.of_nat E)%Z with true by (symmetry; apply Z.leb_le; lia). replace (d + 1 <=? 1 - Z.of_nat E)%Z with true by (symmetry; apply Z.leb_le; lia).
    pose proof (tele_step (f - IZR d) ltac:(lra)) as TS. specialize (GB ltac:(lra)). replace (- (IZR d + 1) + f + 1 / 2) with (f - IZR d - 1 / 2) by lra. replace (- IZR d + f + 1 / 2) with (f - IZR d + 1 / 2) by ring. lra.
  - destruct (Z_le_gt_dec d (Z.of_nat E)) as [C2|C2].
    + rewrite GG by lia. replace (d + 1 <=? 1 - Z.of_nat E)%Z with false by (symmetry; apply Z.leb_gt; lia). replace (d + 1 <=? Z.of_nat E + 1)%Z with true by (symmetry; apply Z.leb_le; lia).
      destruct (Z.leb_spec d (1 - Z.of_nat E)) as [L|L].
      * assert (d = 1 - Z.of_nat E)%Z by lia. assert (ED : IZR d = 1 - INR E) by (rewrite INR_IZR_INZ, <- minus_IZR; f_equal; lia). rewrite ED. replace (- (1 - INR E) + f + 1 / 2) with (INR E + f - 1 / 2) by lra. lra.
      * replace (d <=? Z.of_nat E + 1)%Z with true by (symmetry; apply Z.leb_le; lia). lra.
    + assert (HD : INR E + 1 <= IZR d) by (rewrite INR_IZR_INZ, <- plus_IZR; apply IZR_le; lia).
      replace (d <=? 1 - Z.of_nat E)%Z with false by (symmetry; apply Z.leb_gt; lia). replace (d + 1 <=? 1 - Z.of_nat E)%Z with false by (symmetry; apply Z.leb_gt; lia). replace (d + 1 <=? Z.of_nat E + 1)%Z with false by (symmetry; apply Z.leb_gt; lia).
      pose proof (tele_step (IZR d - f) ltac:(lra)) as TS. specialize (GB ltac:(lra)). replace ((f - IZR d) * (f - IZR d)) with ((IZR d - f) * (IZR d - f)) in GB by ring. replace (IZR d + 1 - f - 1 / 2) with (IZR d - f + 1 / 2) by lra.
      destruct (Z.leb_spec d (Z.of_nat E + 1)) as [L|L]; [|lra].
      assert (ED : IZR d = INR E + 1) by (rewrite INR_IZR_INZ, <- plus_IZR; f_equal; lia). unfold c0. replace (INR E + 1 / 2 - f) with (IZR d - f - 1 / 2) by lra. lra.
Qed.
Lemma tail_sum : zs g 0 M <= 1 / (2 * INR E - 1).
Proof.
  rewrite <- (zs_shift g M g_period (b + 1 - Z.of_nat H)%Z). pose proof f_range as Hf. pose proof HE1 as H1. eapply Rle_trans; [apply (zs_tele g T)|].
  - intros i Hi. apply T_step. unfold M in Hi. lia.
  - assert (TE : T (b + 1 - Z.of_nat H + Z.of_nat M)%Z <= 0).
    { unfold T. set (d := (b + 1 - Z.of_nat H + Z.of_nat M - b)%Z). assert (D : d = (Z.of_nat H + 1)%Z) by (unfold d, M; lia). cbv zeta. replace (d <=? 1 - Z.of_nat E)%Z with false by (symmetry; apply Z.leb_gt; lia).
      destruct (Z.leb_spec d (Z.of_nat E + 1)) as [L|L]; [unfold c0|]; apply Ropp_le_cancel; rewrite Ropp_involutive, Ropp_0; left; unfold Rdiv; rewrite Rmult_1_l; apply Rinv_0_lt_compat; [lra|].
      assert (INR E + 1 <= IZR d) by (rewrite INR_IZR_INZ, <- plus_IZR; apply IZR_le; lia). lra. }
    assert (P1 : 0 < 1 / (4 * (INR E + f - 1 / 2))) by (unfold Rdiv; rewrite Rmult_1_l; apply Rinv_0_lt_compat; lra).
    assert (TB : c0 - 1 / (4 * (INR E + f - 1 / 2)) <= T (b + 1 - Z.of_nat H)%Z).
    { unfold T. set (d := (b + 1 - Z.of_nat H - b)%Z). assert (D : d = (1 - Z.of_nat H)%Z) by (unfold d; lia). cbv zeta. destruct (Z.leb_spec d (1 - Z.of_nat E)) as [L|L].
      - assert (IZR d <= 0) by (apply IZR_le; lia). assert (0 < 1 / (4 * (- IZR d + f + 1 / 2))) by (unfold Rdiv; rewrite Rmult_1_l; apply Rinv_0_lt_compat; lra). lra.
      - replace (d <=? Z.of_nat E + 1)%Z with true by (symmetry; apply Z.leb_le; lia). lra. }
    assert (B1 : 1 / (4 * (INR E + 1 / 2 - f)) <= 1 / (4 * (INR E - 1 / 2))) by (apply inv_pos_le; lra).
    assert (B2 : 1 / (4 * (INR E + f - 1 / 2)) <= 1 / (4 * (INR E - 1 / 2))) by (apply inv_pos_le; lra).
    assert (B3 : 1 / (2 * INR E - 1) = 1 / (4 * (INR E - 1 / 2)) + 1 / (4 * (INR E - 1 / 2))) by (field; lra).
    apply Rle_trans with (0 - (c0 - 1 / (4 * (INR E + f - 1 / 2)))); [lra|]. unfold c0. lra.
Qed.
End TAIL.

(** ---- normalization ---- *)
Lemma fejer_delta M x y : (x < M)%nat -> (y < M)%nat -> fejer M ((INR x - INR y) / INR M) = if Nat.eqb x y then C1 else C0.
Proof.
  intros Hx Hy. assert (HI : 0 < INR M) by (apply lt_0_INR; lia). destruct (Nat.eqb_spec x y) as [->|N].
  - replace ((INR y - INR y) / INR M) with 0 by (field; lra). apply fejer_0. lia.
  - apply (fejer_miss M _ (Z.of_nat x - Z.of_nat y)); [lia|rewrite minus_IZR, <- !INR_IZR_INZ; field; lra|]. apply sin_small. apply lt_INR in Hx, Hy. pose proof (pos_INR x). pose proof (pos_INR y).
    assert (HN : INR x - INR y <> 0) by (intros E; apply N, INR_eq; lra). unfold Rdiv. rewrite Rabs_mult, (Rabs_right (/ INR M)) by (left; apply Rinv_0_lt_compat; lra). split.
    + apply Rmult_lt_0_compat; [apply Rabs_pos_lt, HN|apply Rinv_0_lt_compat, HI].
    + apply (Rmult_lt_reg_r (INR M)); [exact HI|]. rewrite Rmult_assoc, Rinv_l, Rmult_1_r, Rmult_1_l by lra. apply Rabs_def1; lra.
Qed.
Lemma Csum_pick (f : nat -> C) M y : (y < M)%nat -> Csum (fun x => ((if Nat.eqb x y then C1 else C0) * f x)%C) (seq 0 M) = f y.
Proof.
  intros H. induction M as [|M IH]; [lia|]. rewrite seq_S, Csum_app, Csum_cons, Csum_nil. cbn [Nat.add]. destruct (Nat.eqb_spec M y) as [->|N].
  - rewrite Csum_zero; [ring|]. intros x Hx. apply in_seq in Hx. destruct (Nat.eqb_spec x y); [lia|ring].
  - rewrite IH by lia. ring.
Qed.
Lemma fejer_norm_C M phi : (1 <= M)%nat -> Csum (fun k => RtoC (Cnorm2 (fejer M (phi - INR k / INR M)))) (seq 0 M) = C1.
Proof.
  intros HM. assert (HI : 0 < INR M) by (apply lt_0_INR; lia).
  assert (E : forall k, RtoC (Cnorm2 (fejer M (phi - INR k / INR M))) = Csum (fun x => Csum (fun y => RtoC (/ INR M * / INR M) * (Ccis (2 * PI * ((INR y - INR x) * phi)) * Ccis (2 * PI * (INR k * ((INR x - INR y) / INR M)))))%C (seq 0 M)) (seq 0 M)).
  { intros k. rewrite <- Cmul_conj. unfold fejer. set (S := Csum _ _). replace (Cconj (RtoC (/ INR M) * S) * (RtoC (/ INR M) * S))%C with (RtoC (/ INR M * / INR M) * (Cconj S * S))%C by (apply C_ext; cbn; ring). unfold S. rewrite Csum_conj, <- Csum_mul_r, <- Csum_mul_l. apply Csum_ext. intros x _. rewrite <- !Csum_mul_l. apply Csum_ext. intros y _. f_equal.
    rewrite <- Ccis_neg, <- !Ccis_add. f_equal. field. lra. }
  rewrite (Csum_ext _ _ _ (fun k _ => E k)). rewrite Csum_swap.
  assert (E2 : forall x, In x (seq 0 M) -> Csum (fun k => Csum (fun y => RtoC (/ INR M * / INR M) * (Ccis (2 * PI * ((INR y - INR x) * phi)) * Ccis (2 * PI * (INR k * ((INR x - INR y) / INR M)))))%C (seq 0 M)) (seq 0 M) = RtoC (/ INR M)).
  { intros x Hx. apply in_seq in Hx. rewrite Csum_swap. rewrite (Csum_ext _ (fun y => ((if Nat.eqb y x then C1 else C0) * (RtoC (/ INR M) * Ccis (2 * PI * ((INR y - INR x) * phi))))%C)).
    - rewrite Csum_pick by lia. replace (2 * PI * ((INR x - INR x) * phi)) with 0 by ring. rewrite Ccis_0. ring.
    - intros y Hy. apply in_seq in Hy. rewrite Nat.eqb_sym, <- (fejer_delta M x y) by lia. unfold fejer. rewrite <- Csum_mul_l, <- Csum_mul_r. apply Csum_ext. intros k _. replace (RtoC (/ INR M * / INR M)) with (RtoC (/ INR M) * RtoC (/ INR M))%C by (apply C_ext; cbn; ring). ring. }
  rewrite (Csum_ext _ (fun _ => (RtoC (/ INR M) * C1)%C)) by (intros x Hx; rewrite (E2 x Hx); ring). rewrite Csum_mul_l.
  assert (G : forall k, Csum (fun _ => C1) (seq 0 k) = RtoC (INR k)). { induction k as [|k IH]; [reflexivity|]. rewrite seq_S, Csum_app, IH, Csum_cons, Csum_nil, S_INR. apply C_ext; cbn; ring. }
  rewrite G. apply C_ext; cbn; field; lra.
Qed.
