(** Norm estimates for QITE: remainder of a product of Pauli rotations, change of the energy. *)
From Coq Require Import Reals String List Arith Bool Lia Lra.
From Verif Require Import CBase Result Bits Spec OpSpec GateModel MeasSpec ComputerModel SafeProofs LibProofs CleanProofs SimProofs CircuitModel PauliProofs OperatorModel MeasureModel MeasureProofs PyModel PyApply ExpSpec ExpProofs ExpCircuit FermiProofs GradModel GradProofs QkModel QkProofs PropOperator PropMeasure PropGrad PropQk SparseNorm TrotterProofs QpeProofs.
From Verif Require RealOps GradSpec.
Import ListNotations.
Local Open Scope R_scope.

(** ---- trigonometric inequalities ---- *)
Lemma sin_le_abs x : 0 <= x -> sin x <= x /\ - x <= sin x.
Proof.
  intros H. destruct (Req_dec x 0) as [->|N]; [rewrite sin_0; lra|]. destruct (MVT_cor2 sin cos 0 x ltac:(lra) ltac:(intros; apply derivable_pt_lim_sin)) as (c & E & Hc). rewrite sin_0, !Rminus_0_r in E. pose proof (COS_bound c). nra.
Qed.
Lemma cos_lower x : 1 - cos x <= x * x / 2.
Proof.
  assert (E : 1 - cos x = 2 * (sin (x / 2) * sin (x / 2))) by (replace x with (2 * (x / 2)) at 1 by field; rewrite cos_2a_sin; ring).
  rewrite E. destruct (Rle_dec 0 x) as [L|L].
  - destruct (sin_le_abs (x / 2)) as (H1 & H2); [lra|]. nra.
  - destruct (sin_le_abs (- (x / 2))) as (H1 & H2); [lra|]. rewrite sin_neg in *. nra.
Qed.
Lemma remainder_pos x : 0 <= x -> 2 - 2 * cos x - 2 * x * sin x + x * x <= x * x * (x * x) / 4.
Proof.
  intros H. destruct (Req_dec x 0) as [->|N]; [rewrite cos_0, sin_0; lra|].
  set (f := fun y => y * y * (y * y) / 4 - (2 - 2 * cos y - 2 * y * sin y + y * y)).
  destruct (MVT_cor2 f (fun y => y * (y * y - 2 * (1 - cos y))) 0 x ltac:(lra)) as (c & E & Hc).
  - intros y _. unfold f. 
    pose proof (derivable_pt_lim_id y) as D1. pose proof (derivable_pt_lim_sin y) as Ds. pose proof (derivable_pt_lim_cos y) as Dc.
    assert (D2 := derivable_pt_lim_mult _ _ y _ _ D1 D1). assert (D4 := derivable_pt_lim_mult _ _ y _ _ D2 D2). assert (Dq := derivable_pt_lim_mult _ _ y _ _ D4 (derivable_pt_lim_const (/ 4) y)).
    assert (Dx := derivable_pt_lim_mult _ _ y _ _ (derivable_pt_lim_mult _ _ y _ _ (derivable_pt_lim_const 2 y) D1) Ds).
    assert (Dk := derivable_pt_lim_mult _ _ y _ _ (derivable_pt_lim_const 2 y) Dc).
    assert (DD := derivable_pt_lim_minus _ _ y _ _ Dq (derivable_pt_lim_plus _ _ y _ _ (derivable_pt_lim_minus _ _ y _ _ (derivable_pt_lim_minus _ _ y _ _ (derivable_pt_lim_const 2 y) Dk) Dx) D2)).
    match type of DD with derivable_pt_lim _ _ ?d => replace (y * (y * y - 2 * (1 - cos y))) with d by (unfold mult_fct, id, fct_cte; field) end.
    exact DD.
  - unfold f at 2 in E. rewrite cos_0, sin_0 in E. pose proof (cos_lower c). unfold f in E. assert (0 <= c * (c * c - 2 * (1 - cos c))) by (apply Rmult_le_pos; lra). nra.
Qed.
Lemma remainder x : 2 - 2 * cos x - 2 * x * sin x + x * x <= x * x * (x * x) / 4.
Proof.
  destruct (Rle_dec 0 x) as [L|L]; [apply remainder_pos, L|]. pose proof (remainder_pos (- x) ltac:(lra)) as H. rewrite cos_neg, sin_neg in H. replace (2 * - x * - sin x) with (2 * x * sin x) in H by ring. replace (- x * - x) with (x * x) in H by ring. exact H.
Qed.

(** ---- norms ---- *)
Lemma normsq_scale n k a : normsq n (sscale k a) = Cnorm2 k * normsq n a.
Proof. unfold normsq. rewrite inner_scale_r, inner_scale_l. unfold Cnorm2. cbn. ring. Qed.
Lemma norm_sq n a : norm n a * norm n a = normsq n a.
Proof. apply sqrt_sqrt, normsq_nonneg. Qed.
Lemma norm_scale n k a : norm n (sscale k a) = Cabs k * norm n a.
Proof. unfold norm, Cabs. rewrite normsq_scale. apply sqrt_mult; [apply Cnorm2_nonneg|apply normsq_nonneg]. Qed.
Lemma norm_seq n a b : a == b -> norm n a = norm n b.
Proof. intros H. apply norm_ext. intros I _. apply H. Qed.
Lemma norm_string n P a : StringOn n P -> norm n (circ_act P a) = norm n a.
Proof. intros H. destruct (string_applicable n P H) as (G1 & _ & G3). unfold norm, normsq. rewrite circ_preserves_inner by assumption. reflexivity. Qed.
Lemma inner_abs n a b : Rabs (Re (inner n a b)) <= norm n a * norm n b.
Proof.
  apply Rabs_le. split; [|apply cauchy]. pose proof (cauchy n a (sscale (RtoC (-1)) b)) as H. rewrite inner_scale_r, norm_scale in H. replace (Cabs (RtoC (-1))) with 1 in H by (unfold Cabs, Cnorm2; cbn; replace (-1 * -1 + 0 * 0) with 1 by ring; symmetry; apply sqrt_1).
  cbn [RtoC Cmul Re Im] in H. rewrite (Rmult_1_l (norm n b)) in H. lra.
Qed.
Definition weight (h : qop) : R := Rsum (fun t => Cabs (fst t)) h.
Lemma norm_op n h a : Forall (fun t => StringOn n (snd t)) h -> norm n (op_act h a) <= weight h * norm n a.
Proof.
  induction 1 as [|t h Ht _ IH].
  - unfold weight, Rsum. cbn [fold_right]. right. rewrite Rmult_0_l. transitivity (norm n (sscale C0 a)); [apply norm_seq; intros I; unfold op_act, sscale; rewrite Csum_nil; ring|]. rewrite norm_scale. unfold Cabs, Cnorm2. cbn. replace (0 * 0 + 0 * 0) with 0 by ring. rewrite sqrt_0. ring.
  - unfold weight in *. rewrite Rsum_cons. eapply Rle_trans; [|apply Req_le; symmetry; apply Rmult_plus_distr_r]. eapply Rle_trans; [right; apply (norm_seq n _ (sadd (sscale (fst t) (circ_act (snd t) a)) (op_act h a))); intros I; unfold op_act, sadd, sscale; rewrite Csum_cons; reflexivity|].
    eapply Rle_trans; [apply norm_triangle|]. rewrite norm_scale, (norm_string n _ a Ht). lra.
Qed.

(** ---- the remainder of one rotation and of a product ---- *)
Lemma string_real n P a : StringOn n P -> Im (inner n a (circ_act P a)) = 0.
Proof.
  intros H. destruct (string_on n P H) as (H1 & H2 & H3). pose proof (RealOps.string_inner n P H1 H2 H3 a a) as E. rewrite (inner_conj n (circ_act P a) a) in E. apply (f_equal Im) in E. cbn [Cconj Im] in E. lra.
Qed.
Definition first_order (l : list (R * list gate)) (a : state) : state := fun I => Csum (fun u => (Ci * RtoC (fst u) * circ_act (snd u) a I)%C) l.
Lemma euler_remainder n y P a : StringOn n P -> norm n (ssub (euler y (circ_act P) a) (sadd a (sscale (Ci * RtoC y)%C (circ_act P a)))) <= y * y / 2 * norm n a.
Proof.
  intros H. set (d := sadd (sscale (RtoC (cos y - 1)) a) (sscale (Ci * RtoC (sin y - y))%C (circ_act P a))).
  rewrite (norm_seq n _ d) by (intros I; unfold d, ssub, euler, sadd, sscale; apply C_ext; cbn; ring).
  assert (E : normsq n d = (2 - 2 * cos y - 2 * y * sin y + y * y) * normsq n a).
  { unfold normsq, d. rewrite !inner_add_l, !inner_add_r, !inner_scale_l, !inner_scale_r. pose proof (string_real n P a H) as HI. assert (HI2 : Im (inner n (circ_act P a) a) = 0) by (rewrite inner_conj; cbn [Cconj Im]; lra).
    destruct (string_applicable n P H) as (G1 & _ & G3). rewrite (circ_preserves_inner n P a a G1 G3). pose proof (sin2_cos2 y) as SC. unfold Rsqr in SC. cbn [Re Im Cadd Cmul Cconj RtoC Ci]. rewrite HI, HI2. 
    replace (Im (inner n a a)) with 0; [|assert (E0 : inner n a a = Cconj (inner n a a)) by apply inner_conj; apply (f_equal Im) in E0; cbn [Cconj Im] in E0; lra].
    set (A := Re (inner n a a)). replace 2 with (1 + (sin y * sin y + cos y * cos y)) at 1 by lra. ring. }
  rewrite <- (sqrt_square (y * y / 2 * norm n a)).
  - unfold norm at 1. apply sqrt_le_1_alt. rewrite E. pose proof (remainder y). pose proof (normsq_nonneg n a). replace (y * y / 2 * norm n a * (y * y / 2 * norm n a)) with (y * y * (y * y) / 4 * (norm n a * norm n a)) by field. rewrite norm_sq. apply Rmult_le_compat_r; assumption.
  - apply Rmult_le_pos; [nra|apply norm_nonneg].
Qed.
Lemma circ_act_sub P a b : circ_act P (ssub a b) == ssub (circ_act P a) (circ_act P b).
Proof.
  intros I. assert (E : ssub a b == sadd a (sscale (RtoC (-1)) b)) by (intros J; unfold ssub, sadd, sscale; apply C_ext; cbn; ring). rewrite (circ_act_ext P _ _ E I), (circ_act_add P a _ I). unfold sadd. rewrite (circ_act_scale P _ b I). unfold ssub, sscale. apply C_ext; cbn; ring.
Qed.
Definition total_angle (l : list (R * list gate)) : R := Rsum (fun u => Rabs (fst u)) l.
Lemma total_angle_nonneg l : 0 <= total_angle l.
Proof. unfold total_angle. induction l as [|u l IH]; [unfold Rsum; cbn; lra|]. rewrite Rsum_cons. pose proof (Rabs_pos (fst u)). lra. Qed.
Lemma norm_add_le n a b c : a == sadd b c -> norm n a <= norm n b + norm n c.
Proof. intros H. rewrite (norm_seq n _ _ H). apply norm_triangle. Qed.
Lemma first_order_norm n l a : Forall (fun u => StringOn n (snd u)) l -> norm n (first_order l a) <= total_angle l * norm n a.
Proof.
  induction 1 as [|u l Hu _ IH].
  - unfold total_angle, Rsum. cbn [fold_right]. right. rewrite Rmult_0_l. transitivity (norm n (sscale C0 a)); [apply norm_seq; intros I; unfold first_order, sscale; rewrite Csum_nil; ring|]. rewrite norm_scale. unfold Cabs, Cnorm2. cbn. replace (0 * 0 + 0 * 0) with 0 by ring. rewrite sqrt_0. ring.
  - eapply Rle_trans; [apply (norm_add_le n _ (sscale (Ci * RtoC (fst u))%C (circ_act (snd u) a)) (first_order l a)); intros I; unfold first_order, sadd, sscale; rewrite Csum_cons; ring|].
    rewrite norm_scale, (norm_string n _ a Hu). unfold total_angle in *. rewrite Rsum_cons. replace (Cabs (Ci * RtoC (fst u))) with (Rabs (fst u)); [lra|]. unfold Cabs, Cnorm2. cbn. replace (_ + _) with (fst u * fst u) by ring. symmetry. apply sqrt_Rsqr_abs.
Qed.
Lemma eulers_snoc l u a : eulers (l ++ [u]) a = euler (fst u) (circ_act (snd u)) (eulers l a).
Proof. revert a. induction l as [|[y P] l IH]; intros a; [destruct u; reflexivity|]. cbn [app eulers]. apply IH. Qed.
Lemma total_snoc l u : total_angle (l ++ [u]) = total_angle l + Rabs (fst u).
Proof. unfold total_angle. rewrite Rsum_app, Rsum_cons. unfold Rsum at 2. cbn [fold_right]. ring. Qed.
Lemma eulers_norm n l a : Forall (fun u => StringOn n (snd u)) l -> norm n (eulers l a) = norm n a.
Proof. intros H'. unfold norm, normsq. rewrite (eulers_inner n l H'). reflexivity. Qed.
Lemma eulers_drift n l a : Forall (fun u => StringOn n (snd u)) l -> norm n (ssub (eulers l a) a) <= total_angle l * norm n a.
Proof.
  intros H.
  revert H. apply (rev_ind (fun l => Forall (fun u => StringOn n (snd u)) l -> norm n (ssub (eulers l a) a) <= total_angle l * norm n a)).
    - intros _. cbn [eulers]. apply Rle_trans with (norm n (sscale C0 a)); [right; apply norm_seq; intros I; unfold ssub, sscale; ring|]. rewrite norm_scale. unfold Cabs, Cnorm2, total_angle, Rsum. cbn. replace (0 * 0 + 0 * 0) with 0 by ring. rewrite sqrt_0. lra.
    - intros u l' IH H'. apply Forall_app in H'. destruct H' as (H1 & H2). inversion H2 as [|? ? Hu _]; subst. specialize (IH H1). rewrite eulers_snoc, total_snoc. set (b := eulers l' a) in *.
      eapply Rle_trans; [apply (norm_add_le n _ (ssub (euler (fst u) (circ_act (snd u)) b) b) (ssub b a)); intros I; unfold ssub, sadd; ring|].
      assert (HB : norm n (ssub (euler (fst u) (circ_act (snd u)) b) b) <= Rabs (fst u) * norm n a); [|lra]. rewrite <- (eulers_norm n l' a H1). fold b.
      set (y := fst u). set (P := snd u) in *. set (d := sadd (sscale (RtoC (cos y - 1)) b) (sscale (Ci * RtoC (sin y))%C (circ_act P b))).
      rewrite (norm_seq n _ d) by (intros I; unfold d, ssub, euler, sadd, sscale; apply C_ext; cbn; ring).
      assert (E : normsq n d = (2 - 2 * cos y) * normsq n b).
      { unfold normsq, d. rewrite !inner_add_l, !inner_add_r, !inner_scale_l, !inner_scale_r. pose proof (string_real n P b Hu) as HI. assert (HI2 : Im (inner n (circ_act P b) b) = 0) by (rewrite inner_conj; cbn [Cconj Im]; lra).
        destruct (string_applicable n P Hu) as (G1 & _ & G3). rewrite (circ_preserves_inner n P b b G1 G3). pose proof (sin2_cos2 y) as SC. unfold Rsqr in SC. cbn [Re Im Cadd Cmul Cconj RtoC Ci]. rewrite HI, HI2.
        replace (Im (inner n b b)) with 0; [|assert (E0 : inner n b b = Cconj (inner n b b)) by apply inner_conj; apply (f_equal Im) in E0; cbn [Cconj Im] in E0; lra].
        set (A := Re (inner n b b)). replace 2 with (1 + (sin y * sin y + cos y * cos y)) at 1 by lra. ring. }
      rewrite <- (sqrt_square (Rabs y * norm n b)) by (apply Rmult_le_pos; [apply Rabs_pos|apply norm_nonneg]). unfold norm at 1. apply sqrt_le_1_alt. rewrite E. replace (Rabs y * norm n b * (Rabs y * norm n b)) with (Rabs y * Rabs y * (norm n b * norm n b)) by ring. rewrite norm_sq, <- Rabs_mult, Rabs_right by nra. apply Rmult_le_compat_r; [apply normsq_nonneg|]. pose proof (cos_lower y). lra.
Qed.
Lemma eulers_remainder n l a : Forall (fun u => StringOn n (snd u)) l ->
  norm n (ssub (eulers l a) (sadd a (first_order l a))) <= total_angle l * total_angle l / 2 * norm n a.
Proof.
  intros H.
  revert H. apply (rev_ind (fun l => Forall (fun u => StringOn n (snd u)) l -> norm n (ssub (eulers l a) (sadd a (first_order l a))) <= total_angle l * total_angle l / 2 * norm n a)).
  - intros _. cbn [eulers]. apply Rle_trans with (norm n (sscale C0 a)); [right; apply norm_seq; intros I; unfold ssub, sadd, first_order, sscale; rewrite Csum_nil; ring|]. rewrite norm_scale. unfold Cabs, Cnorm2, total_angle, Rsum. cbn. replace (0 * 0 + 0 * 0) with 0 by ring. rewrite sqrt_0. lra.
  - intros u l' IH H'. apply Forall_app in H'. destruct H' as (H1 & H2). inversion H2 as [|? ? Hu _]; subst. specialize (IH H1). rewrite eulers_snoc, total_snoc. pose proof (eulers_drift n l' a H1) as HD. pose proof (euler_remainder n (fst u) (snd u) (eulers l' a) Hu) as HR. rewrite (eulers_norm n l' a H1) in HR. set (b := eulers l' a) in *. set (y := fst u) in *. set (P := snd u) in *.
    set (r1 := ssub (euler y (circ_act P) b) (sadd b (sscale (Ci * RtoC y)%C (circ_act P b)))) in *. set (r2 := ssub b (sadd a (first_order l' a))) in *. set (r3 := sscale (Ci * RtoC y)%C (circ_act P (ssub b a))).
    assert (H3 : norm n r3 <= Rabs y * (total_angle l' * norm n a)).
    { unfold r3. rewrite norm_scale, (norm_string n P _ Hu). replace (Cabs (Ci * RtoC y)) with (Rabs y); [apply Rmult_le_compat_l; [apply Rabs_pos|exact HD]|]. unfold Cabs, Cnorm2. cbn. replace (_ + _) with (y * y) by ring. symmetry. apply sqrt_Rsqr_abs. }
    eapply Rle_trans; [apply (norm_add_le n _ (sadd r1 r2) r3)|].
    + intros I. pose proof (circ_act_sub P b a I) as E. unfold r1, r2, r3, ssub, sadd, sscale, first_order in *. rewrite E, Csum_app, Csum_cons, Csum_nil. fold y P. ring.
    + pose proof (norm_triangle n r1 r2). pose proof (norm_nonneg n a). assert (EY : Rabs y * Rabs y = y * y) by (rewrite <- Rabs_mult; apply Rabs_right; nra).
      replace ((total_angle l' + Rabs y) * (total_angle l' + Rabs y) / 2 * norm n a) with (Rabs y * Rabs y / 2 * norm n a + total_angle l' * total_angle l' / 2 * norm n a + Rabs y * (total_angle l' * norm n a)) by field. rewrite EY. lra.
Qed.

(** ---- the change of the energy ---- *)
Definition energy (n : nat) (h : qop) (a : state) : R := Re (inner n a (op_act h a)).
Lemma op_act_sadd h a b : op_act h (sadd a b) == sadd (op_act h a) (op_act h b).
Proof. intros I. unfold op_act. rewrite (Csum_ext _ (fun t => (fst t * circ_act (snd t) a I + fst t * circ_act (snd t) b I)%C)) by (intros t _; rewrite (circ_act_add (snd t) a b I); unfold sadd; ring). rewrite Csum_add. reflexivity. Qed.
Lemma Re_first_order n v l a : Re (inner n v (first_order l a)) = Rsum (fun u => fst u * Im (inner n (circ_act (snd u) a) v)) l.
Proof.
  induction l as [|u l IH].
  - unfold Rsum. cbn [fold_right]. rewrite (inner_ext n v v (first_order [] a) (sscale C0 a) (seq_refl _)) by (intros I; unfold first_order, sscale; rewrite Csum_nil; ring). rewrite inner_scale_r. cbn. ring.
  - rewrite Rsum_cons, <- IH. rewrite (inner_ext n v v (first_order (u :: l) a) (sadd (sscale (Ci * RtoC (fst u))%C (circ_act (snd u) a)) (first_order l a)) (seq_refl _)) by (intros I; unfold first_order, sadd, sscale; rewrite Csum_cons; ring).
    rewrite inner_add_r, inner_scale_r, (inner_conj n v (circ_act (snd u) a)). cbn. ring.
Qed.
Lemma energy_change n h l a : Hamiltonian n h -> Forall (fun u => StringOn n (snd u)) l -> inner n a a = C1 ->
  Rabs (energy n h (eulers l a) - energy n h a - 2 * Rsum (fun u => fst u * Im (inner n (circ_act (snd u) a) (op_act h a))) l) <= 2 * weight h * (total_angle l * total_angle l).
Proof.
  intros HH HL H1. assert (N1 : norm n a = 1) by (unfold norm, normsq; rewrite H1; cbn; apply sqrt_1). set (a' := eulers l a). set (d := ssub a' a). set (rho := ssub a' (sadd a (first_order l a))).
  pose proof (eulers_remainder n l a HL) as HR. fold a' rho in HR. pose proof (eulers_drift n l a HL) as HD. fold a' d in HD. rewrite N1, Rmult_1_r in HR, HD.
  assert (HS : Forall (fun t => StringOn n (snd t)) h) by (eapply Forall_impl; [|exact HH]; intros t Ht; apply Ht). pose proof (C63_hamiltonian_self_adjoint n h HH) as SA. unfold GradSpec.self_adjoint in SA.
  assert (HW : 0 <= weight h). { unfold weight. clear. induction h as [|t h IH]; [unfold Rsum; cbn; lra|]. rewrite Rsum_cons. pose proof (Cabs_nonneg (fst t)). lra. }
  assert (E : energy n h a' = energy n h a + 2 * Re (inner n (op_act h a) d) + Re (inner n d (op_act h d))).
  { unfold energy. assert (EA : a' == sadd a d) by (intros I; unfold d, sadd, ssub; ring). rewrite (inner_ext n a' _ _ _ EA (op_act_ext' h _ _ EA)). rewrite (inner_ext n (sadd a d) (sadd a d) _ _ (seq_refl _) (op_act_sadd h a d)).
    rewrite inner_add_r, !inner_add_l. rewrite (SA a d), (inner_conj n d (op_act h a)). cbn [Cadd Re Cconj]. ring. }
  assert (E2 : Re (inner n (op_act h a) d) = Rsum (fun u => fst u * Im (inner n (circ_act (snd u) a) (op_act h a))) l + Re (inner n (op_act h a) rho)).
  { rewrite <- Re_first_order. rewrite (inner_ext n (op_act h a) (op_act h a) d (sadd (first_order l a) rho) (seq_refl _)) by (intros I; unfold d, rho, sadd, ssub; ring). rewrite inner_add_r. reflexivity. }
  rewrite E, E2. set (s := Rsum _ _). set (x := Re (inner n (op_act h a) rho)). set (y := Re (inner n d (op_act h d))).
  replace (energy n h a + 2 * (s + x) + y - energy n h a - 2 * s) with (2 * x + y) by ring.
  assert (HX : Rabs x <= weight h * (total_angle l * total_angle l / 2)).
  { eapply Rle_trans; [apply inner_abs|]. pose proof (norm_op n h a HS) as HO. rewrite N1, Rmult_1_r in HO. apply Rmult_le_compat; try apply norm_nonneg; assumption. }
  assert (HY : Rabs y <= weight h * (total_angle l * total_angle l)).
  { eapply Rle_trans; [apply inner_abs|]. pose proof (norm_op n h d HS) as HO. pose proof (norm_nonneg n d). apply Rle_trans with (norm n d * (weight h * norm n d)); [apply Rmult_le_compat_l; assumption|]. replace (norm n d * (weight h * norm n d)) with (weight h * (norm n d * norm n d)) by ring. apply Rmult_le_compat_l; [exact HW|]. apply Rmult_le_compat; assumption. }
  eapply Rle_trans; [apply Rabs_triang|]. rewrite Rabs_mult, (Rabs_right 2) by lra. lra.
Qed.
