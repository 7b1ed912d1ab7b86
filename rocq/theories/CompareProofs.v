(** operator== and operator< of gates and circuits (C50). *)
From Coq Require Import Reals String Ascii List Arith Lia Bool Lra NArith.
From Verif Require Import CBase Result Bits Spec GateModel ComputerModel SafeProofs GateProofs LibProofs SimProofs CircuitModel SimplifyProofs SimplifyLoop CircuitProofs.
Import ListNotations.

Lemma ascii_compare_trans a b c : Ascii.compare a b = Lt -> Ascii.compare b c = Lt -> Ascii.compare a c = Lt.
Proof. unfold Ascii.compare. rewrite !N.compare_lt_iff. apply N.lt_trans. Qed.
Lemma ascii_compare_refl a : Ascii.compare a a = Eq.
Proof. unfold Ascii.compare. apply N.compare_refl. Qed.
Lemma string_compare_refl s : String.compare s s = Eq.
Proof. induction s as [|a s IH]; simpl; [reflexivity|]. rewrite ascii_compare_refl. exact IH. Qed.
Lemma string_compare_trans : forall a b c, String.compare a b = Lt -> String.compare b c = Lt -> String.compare a c = Lt.
Proof.
  induction a as [|x a IH]; intros [|y b] [|z c]; simpl; try discriminate; try reflexivity.
  destruct (Ascii.compare x y) eqn:E1; try discriminate.
  - apply Ascii.compare_eq_iff in E1. subst y. destruct (Ascii.compare x z) eqn:E2; try discriminate; [apply IH|reflexivity].
  - intros _. destruct (Ascii.compare y z) eqn:E2; try discriminate.
    + apply Ascii.compare_eq_iff in E2. subst z. rewrite E1. reflexivity.
    + rewrite (ascii_compare_trans _ _ _ E1 E2). reflexivity.
Qed.
Lemma str_ltb_irrefl s : str_ltb s s = false.
Proof. unfold str_ltb. rewrite string_compare_refl. reflexivity. Qed.
Lemma str_ltb_trans a b c : str_ltb a b = true -> str_ltb b c = true -> str_ltb a c = true.
Proof.
  unfold str_ltb. destruct (String.compare a b) eqn:E1; try discriminate. destruct (String.compare b c) eqn:E2; try discriminate.
  rewrite (string_compare_trans _ _ _ E1 E2). reflexivity.
Qed.
Lemma str_ltb_total a b : str_ltb a b = false -> str_ltb b a = false -> a = b.
Proof.
  unfold str_ltb. rewrite (String.compare_antisym b a). destruct (String.compare a b) eqn:E; simpl; try discriminate.
  intros _ _. apply String.compare_eq_iff, E.
Qed.
Lemma str_ltb_neq a b : str_ltb a b = true -> a <> b.
Proof. intros H ->. rewrite str_ltb_irrefl in H. discriminate. Qed.

(** the order of standard gates is lexicographic on (label, target, control, parameter) *)
Definition same_param_kind (l r : gate) : Prop :=
  glabel l = glabel r -> has_parameter l = has_parameter r.
Lemma std_same_kind l r : stdg l -> stdg r -> same_param_kind l r.
Proof.
  intros (t1 & p1 & S1) (t2 & p2 & S2) E. unfold has_parameter. rewrite (sg_param _ _ _ S1), (sg_param _ _ _ S2).
  assert (t1 = t2) as ->. { rewrite <- (sg_type _ _ _ S1), <- (sg_type _ _ _ S2). unfold gate_type. rewrite E. reflexivity. }
  unfold std_param. destruct (type_param t2); reflexivity.
Qed.

Lemma gate_ltb_irrefl g : gate_ltb g g = false.
Proof.
  unfold gate_ltb. rewrite String.eqb_refl, !Nat.eqb_refl. cbn [negb]. destruct (parameter g); [apply Rltb_false; lra|reflexivity].
Qed.
Lemma gate_ltb_trans a b c : stdg a -> stdg b -> stdg c -> gate_ltb a b = true -> gate_ltb b c = true -> gate_ltb a c = true.
Proof.
  intros Sa Sb Sc. unfold gate_ltb.
  destruct (String.eqb_spec (glabel a) (glabel b)) as [E1|E1]; cbn [negb].
  - rewrite E1. destruct (String.eqb_spec (glabel b) (glabel c)) as [E2|E2]; cbn [negb]; [|auto].
    destruct (Nat.eqb_spec (gtarget a) (gtarget b)) as [F1|F1]; cbn [negb].
    + rewrite F1. destruct (Nat.eqb_spec (gtarget b) (gtarget c)) as [F2|F2]; cbn [negb]; [|auto].
      destruct (Nat.eqb_spec (gcontrol a) (gcontrol b)) as [G1|G1]; cbn [negb].
      * rewrite G1. destruct (Nat.eqb_spec (gcontrol b) (gcontrol c)) as [G2|G2]; cbn [negb]; [|auto].
        pose proof (std_same_kind a b Sa Sb E1) as K1. pose proof (std_same_kind b c Sb Sc E2) as K2.
        unfold has_parameter, parameter in *. destruct (gparam a), (gparam b), (gparam c); try discriminate; cbn [option_map].
        destruct (Rltb_spec (fst p) (fst p0)); [|discriminate]. destruct (Rltb_spec (fst p0) (fst p1)); [|discriminate].
        intros; apply Rltb_true; lra.
      * destruct (Nat.eqb_spec (gcontrol b) (gcontrol c)) as [G2|G2]; cbn [negb].
        -- rewrite <- G2. intros H _. destruct (Nat.eqb_spec (gcontrol a) (gcontrol b)); [lia|]. exact H.
        -- rewrite !Nat.ltb_lt. intros. destruct (Nat.eqb_spec (gcontrol a) (gcontrol c)); cbn [negb]; [lia|]. apply Nat.ltb_lt; lia.
    + destruct (Nat.eqb_spec (gtarget b) (gtarget c)) as [F2|F2]; cbn [negb].
      -- rewrite <- F2. intros H _. destruct (Nat.eqb_spec (gtarget a) (gtarget b)); [lia|]. exact H.
      -- rewrite !Nat.ltb_lt. intros. destruct (Nat.eqb_spec (gtarget a) (gtarget c)); cbn [negb]; [lia|]. apply Nat.ltb_lt; lia.
  - destruct (String.eqb_spec (glabel b) (glabel c)) as [E2|E2]; cbn [negb].
    + rewrite <- E2. intros H _. destruct (String.eqb_spec (glabel a) (glabel b)); [congruence|]. exact H.
    + intros H1 H2. pose proof (str_ltb_trans _ _ _ H1 H2) as H3. pose proof (str_ltb_neq _ _ H3).
      destruct (String.eqb_spec (glabel a) (glabel c)); [congruence|]. exact H3.
Qed.
Lemma std_determined a b : stdg a -> stdg b -> glabel a = glabel b -> gtarget a = gtarget b -> gcontrol a = gcontrol b ->
  parameter a = parameter b -> a = b.
Proof.
  intros (t1 & p1 & S1) (t2 & p2 & S2) E1 E2 E3 E4.
  assert (t1 = t2) as ->. { rewrite <- (sg_type _ _ _ S1), <- (sg_type _ _ _ S2). unfold gate_type. rewrite E1. reflexivity. }
  pose proof (sg_param _ _ _ S1) as P1. pose proof (sg_param _ _ _ S2) as P2.
  pose proof (sg_mat _ _ _ S1) as M1. pose proof (sg_mat _ _ _ S2) as M2.
  unfold parameter in E4. rewrite P1, P2 in E4. unfold std_param in *.
  destruct a as [la ta ca ma pa], b as [lb tb cb mb pb]; cbn in *. subst.
  destruct (type_param t2) eqn:TP; cbn in E4.
  - injection E4 as ->. reflexivity.
  - rewrite (type_mat_noparam t2 p1 p2 TP). reflexivity.
Qed.
Lemma gate_ltb_total a b : stdg a -> stdg b -> gate_ltb a b = false -> gate_ltb b a = false -> a = b.
Proof.
  intros Sa Sb. unfold gate_ltb. rewrite (String.eqb_sym (glabel b)), (Nat.eqb_sym (gtarget b)), (Nat.eqb_sym (gcontrol b)).
  destruct (String.eqb_spec (glabel a) (glabel b)) as [E1|E1]; cbn [negb].
  2:{ intros H1 H2. exfalso. apply E1, str_ltb_total; assumption. }
  destruct (Nat.eqb_spec (gtarget a) (gtarget b)) as [E2|E2]; cbn [negb].
  2:{ rewrite !Nat.ltb_ge. lia. }
  destruct (Nat.eqb_spec (gcontrol a) (gcontrol b)) as [E3|E3]; cbn [negb].
  2:{ rewrite !Nat.ltb_ge. lia. }
  intros H1 H2. apply std_determined; auto. pose proof (std_same_kind a b Sa Sb E1) as K.
  unfold has_parameter, parameter in *. destruct (gparam a), (gparam b); try discriminate; cbn [option_map] in *; [|reflexivity].
  f_equal. destruct (Rltb_spec (fst p) (fst p0)); [discriminate|]. destruct (Rltb_spec (fst p0) (fst p)); [discriminate|]. lra.
Qed.

(** circuits *)
Lemma circuit_ltb_irrefl c : circuit_ltb c c = false.
Proof. induction c as [|g c IH]; simpl; [reflexivity|]. rewrite gate_ltb_irrefl. exact IH. Qed.
Lemma circuit_ltb_total : forall a b, Forall stdg a -> Forall stdg b -> circuit_ltb a b = false -> circuit_ltb b a = false -> a = b.
Proof.
  induction a as [|g a IH]; intros [|h b] Ha Hb; simpl; try discriminate; [reflexivity|].
  inversion Ha; inversion Hb; subst. destruct (gate_ltb g h) eqn:E1; [discriminate|]. destruct (gate_ltb h g) eqn:E2; [discriminate|].
  intros. f_equal; [apply gate_ltb_total; assumption|apply IH; assumption].
Qed.
Lemma circuit_ltb_trans : forall a b c, Forall stdg a -> Forall stdg b -> Forall stdg c ->
  circuit_ltb a b = true -> circuit_ltb b c = true -> circuit_ltb a c = true.
Proof.
  induction a as [|g a IH]; intros [|h b] [|k c] Ha Hb Hc; simpl; try discriminate; try reflexivity.
  inversion Ha; inversion Hb; inversion Hc; subst.
  destruct (gate_ltb g h) eqn:E1.
  - intros _. destruct (gate_ltb h k) eqn:E2.
    + rewrite (gate_ltb_trans g h k) by assumption. reflexivity.
    + destruct (gate_ltb k h) eqn:E3; [discriminate|].
      assert (h = k) as <- by (apply gate_ltb_total; assumption). rewrite E1. reflexivity.
  - destruct (gate_ltb h g) eqn:E1'; [discriminate|]. assert (g = h) as <- by (apply gate_ltb_total; assumption).
    intros HA. destruct (gate_ltb g k) eqn:E2; [reflexivity|]. destruct (gate_ltb k g) eqn:E3; [discriminate|].
    intros HB. apply (IH b c); assumption.
Qed.

(** operator== *)
Lemma gate_eqb_refl g : gate_eqb g g = true.
Proof.
  unfold gate_eqb. rewrite String.eqb_refl, !Nat.eqb_refl. cbn [negb]. destruct (parameter g); [|reflexivity].
  apply Rltb_true. rewrite Rminus_diag_eq by reflexivity. rewrite Rabs_R0. lra.
Qed.
Lemma gate_eqb_sym a b : gate_eqb a b = gate_eqb b a.
Proof.
  unfold gate_eqb. rewrite (String.eqb_sym (glabel b)), (Nat.eqb_sym (gtarget b)), (Nat.eqb_sym (gcontrol b)).
  destruct (String.eqb (glabel a) (glabel b)), (Nat.eqb (gtarget a) (gtarget b)), (Nat.eqb (gcontrol a) (gcontrol b)); cbn [negb]; try reflexivity. destruct (parameter a), (parameter b); try reflexivity.
  rewrite Rabs_minus_sym. reflexivity.
Qed.
Lemma circuit_eqb_refl c : circuit_eqb c c = true.
Proof. induction c as [|g c IH]; simpl; [reflexivity|]. rewrite gate_eqb_refl. exact IH. Qed.
Lemma circuit_eqb_sym : forall a b, circuit_eqb a b = circuit_eqb b a.
Proof. induction a as [|g a IH]; intros [|h b]; simpl; try reflexivity. rewrite gate_eqb_sym, IH. reflexivity. Qed.
(** without parameters it is identity *)
Lemma gate_eqb_exact a b : stdg a -> stdg b -> has_parameter a = false -> gate_eqb a b = true -> a = b.
Proof.
  intros Sa Sb Hp. unfold gate_eqb.
  destruct (String.eqb_spec (glabel a) (glabel b)) as [E1|E1]; cbn [negb]; [|discriminate].
  destruct (Nat.eqb_spec (gtarget a) (gtarget b)) as [E2|E2]; cbn [negb]; [|discriminate].
  destruct (Nat.eqb_spec (gcontrol a) (gcontrol b)) as [E3|E3]; cbn [negb]; [|discriminate].
  intros _. apply std_determined; auto. pose proof (std_same_kind a b Sa Sb E1) as K.
  unfold has_parameter, parameter in *. destruct (gparam a), (gparam b); try discriminate; reflexivity.
Qed.

Lemma pi3 : (3 < PI)%R.
Proof. pose proof PI2_3_2; lra. Qed.
Lemma norm_small x : (-6 <= x <= 6)%R -> normalize_angle x (4 * PI) = x.
Proof. intros H. pose proof pi3. apply normalize_angle_id; lra. Qed.
Definition rzg (x : R) : gate := mkGate "Rz" 0 0 (m_Rz x) (Some (x, true)).
Lemma make_rzg x : (-6 <= x <= 6)%R -> make_gate "Rz" 0 0 x = Ok (rzg x).
Proof. intros H. cbn [make_gate Nat.eqb String.eqb Ascii.eqb Bool.eqb]. rewrite norm_small by exact H. reflexivity. Qed.
Lemma rzg_eqb x y : gate_eqb (rzg x) (rzg y) = Rltb (Rabs (x - y)) 1e-12.
Proof. reflexivity. Qed.
Lemma gate_eqb_not_trans : exists a b c, library_gate a /\ library_gate b /\ library_gate c /\
  gate_eqb a b = true /\ gate_eqb b c = true /\ gate_eqb a c = false.
Proof.
  exists (rzg 0), (rzg 0.6e-12), (rzg 1.2e-12).
  repeat split; try (eapply lib_make, make_rzg; lra); rewrite rzg_eqb; [apply Rltb_true|apply Rltb_true|apply Rltb_false];
  rewrite Rabs_left; lra.
Qed.
Lemma gate_ltb_eqb_clash : exists a b, library_gate a /\ library_gate b /\ gate_eqb a b = true /\ gate_ltb a b = true.
Proof.
  exists (rzg 0), (rzg 0.6e-12). repeat split; try (eapply lib_make, make_rzg; lra).
  - rewrite rzg_eqb. apply Rltb_true. rewrite Rabs_left; lra.
  - apply Rltb_true. cbn. lra.
Qed.
Lemma cU_eqb_clash : exists a b, library_gate a /\ library_gate b /\ gate_eqb a b = true /\
  gate_act a (ket 2) 3 = C1 /\ gate_act b (ket 2) 3 = C0.
Proof.
  set (gx := mkGate "X" 0 0 m_X None). set (gz := mkGate "Z" 0 0 m_Z None).
  assert (Lx : library_gate gx) by (eapply (lib_make "X" 0 0 0); reflexivity).
  assert (Lz : library_gate gz) by (eapply (lib_make "Z" 0 0 0); reflexivity).
  exists (mkGate "cU" 0 1 (ctrl4 m_X) None), (mkGate "cU" 0 1 (ctrl4 m_Z) None). repeat split.
  - eapply (lib_control 1 gx); [exact Lx|reflexivity|reflexivity].
  - eapply (lib_control 1 gz); [exact Lz|reflexivity|reflexivity].
  - unfold gate_act, act2. cbn. apply C_ext; cbn; ring.
  - unfold gate_act, act2. cbn. apply C_ext; cbn; ring.
Qed.

(** *** C09: an exception from simplify leaves a different circuit behind *)
Lemma simplify_exception_changes : exists gs gs' e, Forall library_gate gs /\ simplify gs = (gs', Some e) /\
  circ_act gs (ket 0) 2 = (- C1)%C /\ circ_act gs' (ket 0) 2 = Ci.
Proof.
  pose proof pi3 as P3. pose proof PI_RGT_0 as P0.
  assert (N1 : normalize_angle PI (4 * PI) = PI) by (apply normalize_angle_id; lra).
  assert (N2 : normalize_angle (PI + PI) (4 * PI) = (PI + PI)%R) by (apply normalize_angle_id; lra).
  set (gx := mkGate "X" 1 1 m_X None).
  assert (Lx : library_gate gx) by (eapply (lib_make "X" 1 1 0); reflexivity).
  set (cu := mkGate "cU" 1 2 (ctrl4 m_X) None).
  assert (Lc : library_gate cu) by (eapply (lib_control 2 gx); [exact Lx|reflexivity|reflexivity]).
  assert (MR : make_gate "Rz" 0 0 (PI + PI) = Ok (rzg (PI + PI))).
  { cbn [make_gate Nat.eqb String.eqb Ascii.eqb Bool.eqb]. rewrite N2. reflexivity. }
  assert (LR : library_gate (rzg PI)).
  { eapply (lib_make "Rz" 0 0 PI). cbn [make_gate Nat.eqb String.eqb Ascii.eqb Bool.eqb]. rewrite N1. reflexivity. }
  exists [rzg PI; rzg PI; cu; gx], [rzg PI; rzg (PI + PI); cu; gx], OutOfRange.
  split; [repeat constructor; assumption|].
  assert (PS : pair_step (rzg PI) (rzg PI) = Ok (Merge (rzg (PI + PI)))).
  { unfold pair_step. change (evaluate_gate_interaction (rzg PI) (rzg PI)) with (@Ok (bool * nat) (true, 1)). cbn [bind negb Nat.eqb].
    change (tmem (gate_type (rzg PI)) involutory_gates) with false. change (tmem (gate_type (rzg PI)) parametrized_gates) with true.
    cbv iota. change (parameter (rzg PI)) with (Some PI). cbn [std_optional_value bind].
    change (glabel (rzg PI)) with "Rz"%string. change (gtarget (rzg PI)) with 0. change (gcontrol (rzg PI)) with 0. rewrite MR. reflexivity. }
  split.
  - unfold simplify. cbn [length seq simplify_outer nmem existsb vget nth_error Nat.sub simplify_inner].
    rewrite PS. cbn [app list_set nmem existsb Nat.eqb orb vget nth_error].
    change (pair_step (rzg (PI + PI)) cu) with (@Ok pair_action Continue).
    change (pair_step (rzg (PI + PI)) gx) with (@Ok pair_action Continue).
    change (pair_step cu gx) with (@Throw pair_action OutOfRange). reflexivity.
  - assert (AX : forall phi, gate_act gx phi 2 = phi 0).
    { intros phi. unfold gate_act, gx, act1. cbn [gtarget gcontrol gmat Nat.eqb]. 
      change (upd 2 1 false) with 0. change (upd 2 1 true) with 2. change (b2n (bit 2 1)) with 1. cbn. ring. }
    assert (AC : forall phi, gate_act cu phi 0 = phi 0).
    { intros phi. unfold gate_act, cu, act2. cbn [gtarget gcontrol gmat Nat.eqb].
      change (2 * b2n (bit 0 2) + b2n (bit 0 1)) with 0. change (upd (upd 0 2 false) 1 false) with 0. cbn. ring. }
    assert (AR : forall x phi, gate_act (rzg x) phi 0 = (Ccis (- (0.5 * x)) * phi 0)%C).
    { intros x phi. unfold gate_act, rzg, act1. cbn [gtarget gcontrol gmat Nat.eqb].
      change (upd 0 0 false) with 0. change (b2n (bit 0 0)) with 0. cbn. ring. }
    unfold circ_act. cbn [fold_left]. rewrite !AX, !AC, !AR.
    replace (0.5 * PI)%R with (PI / 2)%R by lra. replace (0.5 * (PI + PI))%R with PI by lra.
    unfold Ccis. rewrite !cos_neg, !sin_neg, cos_PI2, sin_PI2, cos_PI, sin_PI.
    split; apply C_ext; cbn; ring.
Qed.
