(** Circuit::simplify preserves the action (C09). *)
From Coq Require Import Reals String List Arith Lia Bool Lra Permutation.
From Verif Require Import CBase Result Bits Spec GateModel ComputerModel ApplyProofs SafeProofs GateProofs LibProofs SimProofs InteractProofs CircuitModel.
Import ListNotations.
Local Open Scope C_scope.

Lemma type_mat_noparam ty p q : type_param ty = false -> type_mat ty p = type_mat ty q.
Proof. destruct ty; intros H; try discriminate H; reflexivity. Qed.

Lemma make_gate_mat type t c x g : make_gate type t c x = Ok g -> gmat g = type_mat (mapLabelToType type) x.
Proof.
  intros H. destruct (make_gate_std _ _ _ _ _ H) as (p & HS & _).
  destruct (type_param (mapLabelToType type)) eqn:E.
  - pose proof (sg_param _ _ _ HS) as HP. unfold std_param in HP. rewrite E in HP.
    destruct (make_gate_param _ _ _ _ _ _ _ H HP) as (k & _ & HM). exact HM.
  - rewrite (sg_mat _ _ _ HS). apply type_mat_noparam, E.
Qed.

Definition k1ok (ty : gtype) : bool := tmem ty (involutory_gates ++ parametrized_gates ++ square_root_gates).
Definition VV (a b : gtype) : bool := pair_mem a b [(TadjV, TV); (TadjcV, TcV)].

Definition case_ok (g1 g2 : gate) (k : nat) : Prop :=
  exists p q, std_gate (gate_type g1) p g1 /\ std_gate (gate_type g2) q g2 /\
  ((gtarget g1 = gtarget g2 /\ gcontrol g1 = gcontrol g2 /\
    ((k = 1%nat /\ gate_type g1 = gate_type g2 /\ k1ok (gate_type g1) = true) \/
     (k = 3%nat /\ phase_1q (gate_type g1) = true /\ phase_1q (gate_type g2) = true) \/
     (k = 4%nat /\ VV (gate_type g1) (gate_type g2) = true)))
   \/
   (k = 2%nat /\ gate_type g1 = gate_type g2 /\ symmetrical_2q (gate_type g1) = true /\
    gtarget g1 <> gcontrol g1 /\ gtarget g2 <> gcontrol g2 /\
    (gtarget g1 = gtarget g2 /\ gcontrol g1 = gcontrol g2 \/ gtarget g1 = gcontrol g2 /\ gcontrol g1 = gtarget g2))).

Lemma k1_1q t : pairs_commute t t = true -> k1ok t = true.
Proof. destruct t; intros H; try discriminate H; reflexivity. Qed.
Lemma k1_2q t a : controlled_to_1q t = Ok a -> pairs_commute a a = true -> k1ok t = true.
Proof. destruct t; intros H; try discriminate H; injection H as <-; intros H; try discriminate H; reflexivity. Qed.
Lemma VV_1q t u : V_adjV t u = true -> VV t u = true.
Proof. destruct t, u; intros H; try discriminate H; reflexivity. Qed.
Lemma VV_2q t u a b : controlled_to_1q t = Ok a -> controlled_to_1q u = Ok b -> V_adjV a b = true -> VV t u = true.
Proof.
  destruct t; intros H; try discriminate H; injection H as <-; destruct u; intros H; try discriminate H; injection H as <-;
  intros H; try discriminate H; reflexivity.
Qed.
Lemma V_adjV_neq a b : V_adjV a b = true -> gtype_eqb a b = false.
Proof. destruct a, b; intros H; try discriminate H; reflexivity. Qed.
Lemma VV_ctrl_neq t u a b : controlled_to_1q t = Ok a -> controlled_to_1q u = Ok b -> V_adjV a b = true -> gtype_eqb t u = false.
Proof.
  destruct t; intros H; try discriminate H; injection H as <-; destruct u; intros H; try discriminate H; injection H as <-;
  intros H; try discriminate H; reflexivity.
Qed.

Lemma interaction_case g1 g2 k : lib_shape g1 -> lib_shape g2 ->
  evaluate_gate_interaction g1 g2 = Ok (true, k) -> k <> 0%nat -> case_ok g1 g2 k.
Proof.
  intros L1 L2 HE Hk. revert HE. unfold evaluate_gate_interaction.
  set (common := length (filter _ _)).
  destruct (Nat.eqb_spec common 0) as [E0|E0]; [intros H; injection H as <-; contradiction|].
  rewrite !qs_len.
  destruct (Nat.eqb_spec (gtarget g1) (gcontrol g1)) as [E1|E1];
  destruct (Nat.eqb_spec (gtarget g2) (gcontrol g2)) as [E2|E2]; cbn [Nat.mul Nat.add Nat.eqb].
  - assert (ET : gtarget g1 = gtarget g2).
    { unfold common in E0. sharing_tac g1 g2; simpl in E0; congruence. }
    assert (D1 : exists p, std_gate (gate_type g1) p g1).
    { destruct L1 as [(ty & p & HS)|(m & (_ & N & _) & _)]; [|contradiction]. exists p. rewrite (sg_type _ _ _ HS); exact HS. }
    assert (D2 : exists p, std_gate (gate_type g2) p g2).
    { destruct L2 as [(ty & p & HS)|(m & (_ & N & _) & _)]; [|contradiction]. exists p. rewrite (sg_type _ _ _ HS); exact HS. }
    destruct D1 as [p S1], D2 as [q S2].
    destruct (phase_1q (gate_type g1) && phase_1q (gate_type g2)) eqn:EP.
    + apply andb_true_iff in EP. destruct EP as [P1 P2].
      destruct (gtype_eqb_spec (gate_type g1) (gate_type g2)) as [Ety|Ety]; intros H; injection H as <-;
      exists p, q; (split; [exact S1|]); (split; [exact S2|]); left; repeat split; try congruence.
      * left. repeat split; auto. destruct (gate_type g1); try discriminate P1; reflexivity.
      * right; left. auto.
    + intros H. injection H as HP Hk'.
      destruct (V_adjV (gate_type g1) (gate_type g2)) eqn:EV.
      * rewrite (V_adjV_neq _ _ EV) in Hk'. simpl in Hk'. subst k. exists p, q; (split; [exact S1|]); (split; [exact S2|]); left; repeat split; try congruence.
        right; right. split; [reflexivity|]. apply VV_1q, EV.
      * destruct (gtype_eqb_spec (gate_type g1) (gate_type g2)) as [Ety|Ety]; simpl in Hk'; [|congruence]. subst k.
        exists p, q; (split; [exact S1|]); (split; [exact S2|]); left; repeat split; try congruence. left; repeat split; auto.
        apply k1_1q. rewrite <- Ety in HP. exact HP.
  - destruct (is_type TSWAP g1 || is_type TSWAP g2 || is_type TA g1 || is_type TA g2); [discriminate|].
    destruct (Nat.eqb (gtarget g1) (gtarget g2)).
    + destruct (controlled_to_1q (gate_type g2)); simpl; intros H; [injection H as _ <-; contradiction|discriminate].
    + intros H; injection H as _ <-; contradiction.
  - destruct (is_type TSWAP g1 || is_type TSWAP g2 || is_type TA g1 || is_type TA g2); [discriminate|].
    destruct (Nat.eqb (gtarget g2) (gtarget g1)).
    + destruct (controlled_to_1q (gate_type g1)); simpl; intros H; [injection H as _ <-; contradiction|discriminate].
    + intros H; injection H as _ <-; contradiction.
  - destruct (Nat.eqb_spec common 1) as [EQ1|EQ1].
    + destruct (is_type TSWAP g1 || is_type TSWAP g2 || is_type TA g1 || is_type TA g2); [discriminate|].
      destruct (Nat.eqb (gcontrol g1) (gcontrol g2)); [intros H; injection H as <-; contradiction|].
      destruct (Nat.eqb (gtarget g1) (gtarget g2)).
      * destruct (controlled_to_1q (gate_type g1)); [|discriminate].
        destruct (controlled_to_1q (gate_type g2)); [|discriminate]. simpl. intros H; injection H as _ <-; contradiction.
      * destruct (Nat.eqb (gtarget g1) (gcontrol g2)).
        -- destruct (controlled_to_1q (gate_type g1)); [|discriminate]. simpl. intros H; injection H as _ <-; contradiction.
        -- destruct (controlled_to_1q (gate_type g2)); [|discriminate]. simpl. intros H; injection H as _ <-; contradiction.
    + assert (HO : gtarget g1 = gtarget g2 /\ gcontrol g1 = gcontrol g2 \/ gtarget g1 = gcontrol g2 /\ gcontrol g1 = gtarget g2).
      { unfold common in E0, EQ1. sharing_tac g1 g2; simpl in *; try congruence; try lia; auto. }
      destruct (symmetrical_2q (gate_type g1) && symmetrical_2q (gate_type g2)) eqn:EY.
      * apply andb_true_iff in EY. destruct EY as [Y1 Y2].
        assert (U1 : gate_type g1 <> TUndefined) by (intros H; rewrite H in Y1; discriminate).
        assert (U2 : gate_type g2 <> TUndefined) by (intros H; rewrite H in Y2; discriminate).
        destruct (lib_type_std g1 L1 U1) as [p S1]. destruct (lib_type_std g2 L2 U2) as [q S2].
        destruct (gtype_eqb_spec (gate_type g1) (gate_type g2)) as [Ety|Ety]; intros H; injection H as <-; [|contradiction].
        exists p, q. split; [exact S1|]. split; [exact S2|]. right. repeat split; auto.
      * destruct (is_type TSWAP g1 || is_type TSWAP g2); [discriminate|].
        destruct (is_type TA g1 || is_type TA g2).
        -- destruct (symmetrical_2q (gate_type g1) || symmetrical_2q (gate_type g2)); intros H; [injection H as <-; contradiction|discriminate H].
        -- destruct (Nat.eqb_spec (gtarget g1) (gtarget g2)) as [T12|T12].
           ++ destruct (controlled_to_1q (gate_type g1)) as [a|] eqn:EC1; [|discriminate].
              destruct (controlled_to_1q (gate_type g2)) as [b|] eqn:EC2; [|discriminate]. cbn [bind].
              intros H. injection H as H Hk'.
              destruct (lib_type_std g1 L1 (ctrl_defined _ _ EC1)) as [p S1].
              destruct (lib_type_std g2 L2 (ctrl_defined _ _ EC2)) as [q S2].
              assert (CC : gcontrol g1 = gcontrol g2) by (destruct HO as [[? ?]|[? ?]]; congruence).
              exists p, q. split; [exact S1|]. split; [exact S2|]. left. repeat split; auto.
              destruct (V_adjV a b) eqn:EV.
              ** rewrite (VV_ctrl_neq _ _ _ _ EC1 EC2 EV) in Hk'. simpl in Hk'. right; right. split; [auto|].
                 apply (VV_2q _ _ _ _ EC1 EC2 EV).
              ** destruct (gtype_eqb_spec (gate_type g1) (gate_type g2)) as [Ety|Ety]; simpl in Hk'; [|congruence].
                 left. repeat split; auto. apply (k1_2q _ a EC1). rewrite <- Ety, EC1 in EC2. injection EC2 as ->. exact H.
           ++ destruct (controlled_to_1q (gate_type g1)) as [a|] eqn:EC1; [|discriminate]. cbn [bind].
              destruct (diagonal_1q a) eqn:DA; [|discriminate].
              destruct (controlled_to_1q (gate_type g2)) as [b|] eqn:EC2; [|discriminate]. cbn [bind].
              intros H; injection H as _ <-; contradiction.
Qed.

(** matrix identities behind the merges *)
Definition tdim (ty : gtype) : nat := if type_1q ty then 2 else 4.
Ltac prod_tac :=
  intros i j Hi Hj; revert i Hi j Hj;
  first [ refine (lt2_cases _ _ _); refine (lt2_cases _ _ _)
        | refine (lt4_cases _ _ _ _ _); refine (lt4_cases _ _ _ _ _) ];
  unfold mmul; cbn [seq]; rewrite !Csum_cons, !Csum_nil; mat_entry.
Lemma invol_sq ty p q : tmem ty involutory_gates = true ->
  meq (tdim ty) (mmul (tdim ty) (type_mat ty p) (type_mat ty q)) mid.
Proof.
  destruct ty; intros H; try discriminate H; unfold tdim; cbn [type_mat type_1q]; prod_tac;
  unfold mid; cbn [Nat.eqb]; try (csolve; fail); apply C_ext; simpl; pose proof rsqrt2_sq; try lra.
Qed.
Lemma param_add ty p q : tmem ty parametrized_gates = true ->
  meq (tdim ty) (mmul (tdim ty) (type_mat ty p) (type_mat ty q)) (type_mat ty (q + p)).
Proof.
  destruct ty; intros H; try discriminate H; unfold tdim; cbn [type_mat type_1q]; prod_tac.
  all: try (csolve; fail).
  all: try match goal with |- context [Rmult ?h (Rplus ?a ?b)] =>
     replace (h * (a + b))%R with (h * a + h * b)%R by ring end.
  all: rewrite ?Ropp_plus_distr, ?Ccis_add.
  all: try (csolve; fail).
  all: apply C_ext; simpl; rewrite ?cos_plus, ?sin_plus; try ring.
Qed.
Lemma sqrt_sq ty p q l : tmem ty square_root_gates = true -> simplify_square_root ty = Ok l ->
  meq (tdim ty) (mmul (tdim ty) (type_mat ty p) (type_mat ty q)) (type_mat (mapLabelToType l) 0).
Proof.
  destruct ty; intros H; try discriminate H; intros E; injection E as <-; unfold tdim; cbn [type_1q];
  match goal with |- context [mapLabelToType ?l] => let r := eval vm_compute in (mapLabelToType l) in change (mapLabelToType l) with r end;
  cbn [type_mat]; prod_tac;
  try (csolve; fail); apply C_ext; simpl; pose proof rsqrt2_sq; try lra.
Qed.
Lemma VV_inv t u p q : VV t u = true -> tdim t = tdim u /\ meq (tdim t) (mmul (tdim t) (type_mat t p) (type_mat u q)) mid.
Proof.
  destruct t, u; intros H; try discriminate H; (split; [reflexivity|]); unfold tdim; cbn [type_1q type_mat]; prod_tac;
  csolve.
Qed.
Lemma phase_param ty p g a : std_gate ty p g -> phase_1q ty = true -> get_phase_gate_parameter g = Ok a ->
  meq 2 (gmat g) (m_R a).
Proof.
  intros HS HP. unfold get_phase_gate_parameter, parameter.
  rewrite (sg_param _ _ _ HS), (sg_type _ _ _ HS), (sg_mat _ _ _ HS).
  destruct ty; try discriminate HP; cbn [std_param type_param option_map type_mat gtype_eqb negb fst]; unfold std_param; cbn [type_param option_map fst];
  intros E; injection E as <-; intros i j Hi Hj; revert i Hi j Hj; refine (lt2_cases _ _ _); refine (lt2_cases _ _ _); mat_entry;
  try reflexivity; apply C_ext; simpl; rewrite ?cos_PI, ?sin_PI, ?cos_PI2, ?sin_PI2, ?cos_PI4, ?sin_PI4; unfold rsqrt2; try lra.
Qed.
Lemma phase_param_ok ty p g : std_gate ty p g -> phase_1q ty = true -> exists a, get_phase_gate_parameter g = Ok a.
Proof.
  intros HS HP. unfold get_phase_gate_parameter, parameter.
  rewrite (sg_param _ _ _ HS), (sg_type _ _ _ HS).
  destruct ty; try discriminate HP; eexists; reflexivity.
Qed.

Lemma act_two g1 g2 m psi : gtarget g1 = gtarget g2 -> gcontrol g1 = gcontrol g2 ->
  meq (gdim g2) (mmul (gdim g2) (gmat g2) (gmat g1)) m ->
  gate_act g2 (gate_act g1 psi) ==
  (if Nat.eqb (gtarget g2) (gcontrol g2) then act1 m (gtarget g2) psi else act2 m (gtarget g2) (gcontrol g2) psi).
Proof.
  intros Et Ec H. unfold gate_act, gdim in *. rewrite Et, Ec.
  destruct (Nat.eqb_spec (gtarget g2) (gcontrol g2)) as [E|E].
  - eapply seq_trans; [apply act1_mmul|]. apply act1_meq, H.
  - eapply seq_trans; [apply act2_mmul; exact E|]. apply act2_meq, H.
Qed.
Lemma gdim_tdim ty p g : std_gate ty p g -> gdim g = tdim ty.
Proof. intros H. unfold gdim, tdim. rewrite (sg_q _ _ _ H). reflexivity. Qed.

(** effect of a pair action *)
Definition pair_sound (g1 g2 : gate) (a : pair_action) : Prop :=
  match a with
  | Break => True
  | Continue => gates_commute g1 g2
  | DropBoth => forall psi, gate_act g2 (gate_act g1 psi) == psi
  | Merge g => (forall psi, gate_act g2 (gate_act g1 psi) == gate_act g psi) /\
               (exists ty p, std_gate ty p g) /\ gtarget g = gtarget g2 /\ gcontrol g = gcontrol g2
  end.

Lemma merge_sound g1 g2 l x g : make_gate l (gtarget g2) (gcontrol g2) x = Ok g ->
  gtarget g1 = gtarget g2 -> gcontrol g1 = gcontrol g2 ->
  meq (gdim g2) (mmul (gdim g2) (gmat g2) (gmat g1)) (type_mat (mapLabelToType l) x) ->
  pair_sound g1 g2 (Merge g).
Proof.
  intros HM Et Ec H. destruct (make_gate_std _ _ _ _ _ HM) as (p & HS & HL & HT & HC).
  split; [|split; [eauto|auto]]. intros psi. eapply seq_trans; [apply act_two; eassumption|].
  rewrite <- (make_gate_mat _ _ _ _ _ HM). unfold gate_act. rewrite HT, HC. apply seq_refl.
Qed.
Lemma drop_sound g1 g2 : gtarget g1 = gtarget g2 -> gcontrol g1 = gcontrol g2 ->
  meq (gdim g2) (mmul (gdim g2) (gmat g2) (gmat g1)) mid -> pair_sound g1 g2 DropBoth.
Proof.
  intros Et Ec H psi. eapply seq_trans; [apply act_two; eassumption|].
  destruct (Nat.eqb_spec (gtarget g2) (gcontrol g2)) as [E|E]; [apply act1_mid|apply act2_mid; exact E].
Qed.

Lemma std_parameter ty p g v : std_gate ty p g -> parameter g = Some v -> v = p.
Proof.
  intros H. unfold parameter. rewrite (sg_param _ _ _ H). unfold std_param. destruct (type_param ty); simpl; congruence.
Qed.

(** for two symmetric gates of the same type, whatever the orientation *)
Lemma sym_two g1 g2 ty p q m psi : std_gate ty p g1 -> std_gate ty q g2 -> symmetrical_2q ty = true ->
  gtarget g1 <> gcontrol g1 -> gtarget g2 <> gcontrol g2 ->
  (gtarget g1 = gtarget g2 /\ gcontrol g1 = gcontrol g2 \/ gtarget g1 = gcontrol g2 /\ gcontrol g1 = gtarget g2) ->
  meq 4 (mmul 4 (type_mat ty q) (type_mat ty p)) m ->
  gate_act g2 (gate_act g1 psi) == act2 m (gtarget g2) (gcontrol g2) psi.
Proof.
  intros S1 S2 HY N1 N2 HO HM.
  rewrite (gate_act_2 g2) by exact N2. rewrite (sg_mat _ _ _ S2).
  eapply seq_trans; [apply act2_ext, (sym_reorient g1 ty p psi (gtarget g2) (gcontrol g2) S1 HY N1 HO)|].
  eapply seq_trans; [apply act2_mmul; exact N2|]. apply act2_meq, HM.
Qed.

Lemma pair_step_sound g1 g2 a : lib_shape g1 -> lib_shape g2 -> pair_step g1 g2 = Ok a -> pair_sound g1 g2 a.
Proof.
  intros L1 L2. unfold pair_step.
  destruct (evaluate_gate_interaction g1 g2) as [[co k]|e] eqn:EE; [|discriminate]. cbn [bind].
  destruct co; cbn [negb]; [|intros H; injection H as <-; exact I].
  pose proof (interaction_commute g1 g2 k L1 L2 EE) as HC.
  destruct (Nat.eqb_spec k 0) as [K0|K0]; [intros H; injection H as <-; exact HC|].
  destruct (interaction_case g1 g2 k L1 L2 EE K0) as (p & q & S1 & S2 & [(ET & EC & HK)|(K2 & Ety & HY & N1 & N2 & HO)]).
  - pose proof (gdim_tdim _ _ _ S2) as HD.
    destruct HK as [(K & Ety & HK)|[(K & P1 & P2)|(K & HV)]]; subst k; cbn [Nat.eqb].
    + rewrite <- Ety in S2, HD. rewrite <- ?Ety.
      destruct (tmem (gate_type g1) involutory_gates) eqn:EI.
      { intros H; injection H as <-. apply drop_sound; auto. rewrite HD, (sg_mat _ _ _ S1), (sg_mat _ _ _ S2). apply invol_sq, EI. }
      destruct (tmem (gate_type g1) parametrized_gates) eqn:EP.
      { destruct (parameter g1) as [x|] eqn:X1; [|discriminate]. destruct (parameter g2) as [y|] eqn:X2; [|discriminate]. cbn [std_optional_value bind].
        apply (std_parameter _ _ _ _ S1) in X1. apply (std_parameter _ _ _ _ S2) in X2. subst x y.
        destruct (make_gate _ _ _ _) as [g|] eqn:EM; [|discriminate]. cbn [bind]. intros H; injection H as <-.
        apply (merge_sound g1 g2 _ _ g EM); auto. rewrite HD, (sg_mat _ _ _ S1), (sg_mat _ _ _ S2).
        change (mapLabelToType (glabel g2)) with (gate_type g2). rewrite <- Ety. apply param_add, EP. }
      destruct (tmem (gate_type g1) square_root_gates) eqn:EQ.
      { destruct (simplify_square_root (gate_type g1)) as [l|] eqn:ES; [|discriminate]. cbn [bind].
        destruct (make_gate _ _ _ _) as [g|] eqn:EM; [|discriminate]. cbn [bind]. intros H; injection H as <-.
        apply (merge_sound g1 g2 _ _ g EM); auto. rewrite HD, (sg_mat _ _ _ S1), (sg_mat _ _ _ S2). apply sqrt_sq; assumption. }
      intros H; injection H as <-. exact HC.
    + destruct (get_phase_gate_parameter g1) as [a1|] eqn:A1; [|discriminate].
      destruct (get_phase_gate_parameter g2) as [a2|] eqn:A2; [|discriminate]. cbn [bind].
      destruct (make_gate _ _ _ _) as [g|] eqn:EM; [|discriminate]. cbn [bind]. intros H; injection H as <-.
      apply (merge_sound g1 g2 _ _ g EM); auto.
      assert (D2 : gdim g2 = 2%nat) by (rewrite HD; destruct (gate_type g2); try discriminate P2; reflexivity).
      rewrite D2. eapply meq_trans; [apply mmul_meq; [apply (phase_param _ _ _ _ S2 P2 A2)|apply (phase_param _ _ _ _ S1 P1 A1)]|].
      exact (param_add TR a2 a1 eq_refl).
    + intros H; injection H as <-. apply drop_sound; auto.
      rewrite HD, (sg_mat _ _ _ S1), (sg_mat _ _ _ S2).
      assert (HV' : VV (gate_type g2) (gate_type g1) = true).
      { destruct (gate_type g1), (gate_type g2); try discriminate HV; reflexivity. }
      apply (VV_inv _ _ q p HV').
  - subst k. cbn [Nat.eqb]. rewrite <- Ety in S2.
    destruct (tmem (gate_type g1) involutory_gates) eqn:EI.
    + intros H; injection H as <-. intros psi.
      eapply seq_trans; [apply (sym_two g1 g2 _ p q mid psi S1 S2 HY N1 N2 HO)|apply act2_mid; exact N2].
      pose proof (invol_sq (gate_type g1) q p EI) as HI. unfold tdim in HI.
      destruct (gate_type g1); try discriminate HY; exact HI.
    + destruct (controlled_to_1q (gate_type g1)) as [u|] eqn:EU; [|discriminate]. cbn [bind].
      destruct (phase_1q u) eqn:PU; [|intros H; injection H as <-; exact HC].
      destruct (parameter g1) as [x|] eqn:X1; [|discriminate]. destruct (parameter g2) as [y|] eqn:X2; [|discriminate]. cbn [std_optional_value bind].
      apply (std_parameter _ _ _ _ S1) in X1. apply (std_parameter _ _ _ _ S2) in X2. subst x y.
      destruct (make_gate _ _ _ _) as [g|] eqn:EM; [|discriminate]. cbn [bind]. intros H; injection H as <-.
      destruct (make_gate_std _ _ _ _ _ EM) as (pp & HS & HL & HT & HCc).
      split; [|split; [eauto|auto]]. intros psi.
      assert (ER : gate_type g1 = TcR) by (destruct (gate_type g1); try discriminate HY; try discriminate EI; reflexivity).
      eapply seq_trans; [apply (sym_two g1 g2 _ p q (m_cR (p + q)%R) psi S1 S2 HY N1 N2 HO)|].
      * rewrite ER. exact (param_add TcR q p eq_refl).
      * rewrite gate_act_2 by congruence. rewrite HT, HCc, (make_gate_mat _ _ _ _ _ EM).
        change (mapLabelToType (glabel g2)) with (gate_type g2). rewrite <- Ety, ER. apply seq_refl.
Qed.

(** no exception for gates other than cU *)
Lemma std_controlled ty p g : std_gate ty p g -> gtarget g <> gcontrol g -> is_type TSWAP g = false -> is_type TA g = false ->
  exists u, controlled_to_1q (gate_type g) = Ok u.
Proof.
  intros HS N H1 H2. unfold is_type in *. rewrite (sg_type _ _ _ HS) in *.
  assert (HQ : type_1q ty = false) by (rewrite <- (sg_q _ _ _ HS); apply Nat.eqb_neq; exact N).
  pose proof (sg_def _ _ _ HS). destruct ty; try discriminate; try congruence; eexists; reflexivity.
Qed.
Lemma interaction_total g1 g2 : (exists ty p, std_gate ty p g1) -> (exists ty p, std_gate ty p g2) ->
  exists c k, evaluate_gate_interaction g1 g2 = Ok (c, k).
Proof.
  intros (ty1 & p & S1) (ty2 & q & S2). unfold evaluate_gate_interaction.
  destruct (Nat.eqb _ 0); [eauto|]. rewrite !qs_len.
  destruct (Nat.eqb_spec (gtarget g1) (gcontrol g1)) as [E1|E1];
  destruct (Nat.eqb_spec (gtarget g2) (gcontrol g2)) as [E2|E2]; cbn [Nat.mul Nat.add Nat.eqb].
  - destruct (_ && _); [destruct (gtype_eqb _ _)|]; eauto.
  - destruct (is_type TSWAP g1 || is_type TSWAP g2 || is_type TA g1 || is_type TA g2) eqn:ES; [eauto|].
    apply orb_false_iff in ES. destruct ES as [ES ES4]. apply orb_false_iff in ES. destruct ES as [ES ES3].
    apply orb_false_iff in ES. destruct ES as [ES1 ES2].
    destruct (std_controlled _ _ _ S2 E2 ES2 ES4) as [u ->]. destruct (Nat.eqb _ _); cbn; eauto.
  - destruct (is_type TSWAP g1 || is_type TSWAP g2 || is_type TA g1 || is_type TA g2) eqn:ES; [eauto|].
    apply orb_false_iff in ES. destruct ES as [ES ES4]. apply orb_false_iff in ES. destruct ES as [ES ES3].
    apply orb_false_iff in ES. destruct ES as [ES1 ES2].
    destruct (std_controlled _ _ _ S1 E1 ES1 ES3) as [u ->]. destruct (Nat.eqb _ _); cbn; eauto.
  - destruct (Nat.eqb _ 1).
    + destruct (is_type TSWAP g1 || is_type TSWAP g2 || is_type TA g1 || is_type TA g2) eqn:ES; [eauto|].
      apply orb_false_iff in ES. destruct ES as [ES ES4]. apply orb_false_iff in ES. destruct ES as [ES ES3].
      apply orb_false_iff in ES. destruct ES as [ES1 ES2].
      destruct (std_controlled _ _ _ S1 E1 ES1 ES3) as [u ->]. destruct (std_controlled _ _ _ S2 E2 ES2 ES4) as [w ->].
      cbn [bind]. repeat destruct (Nat.eqb _ _); eauto.
    + destruct (symmetrical_2q (gate_type g1) && symmetrical_2q (gate_type g2)); [eauto|].
      destruct (is_type TSWAP g1 || is_type TSWAP g2) eqn:ES; [eauto|].
      destruct (is_type TA g1 || is_type TA g2) eqn:EA; [destruct (symmetrical_2q (gate_type g1) || symmetrical_2q (gate_type g2)); eauto|].
      apply orb_false_iff in ES, EA. destruct ES as [ES1 ES2], EA as [EA1 EA2].
      destruct (std_controlled _ _ _ S1 E1 ES1 EA1) as [u ->]. destruct (std_controlled _ _ _ S2 E2 ES2 EA2) as [w ->].
      cbn [bind]. destruct (Nat.eqb _ _); [eauto|]. destruct (diagonal_1q u); eauto.
Qed.

Lemma label_param ty l : mapLabelToType l = ty -> tmem ty parametrized_gates = true ->
  match ty with TR => l = "R" | TRx => l = "Rx" | TRy => l = "Ry" | TRz => l = "Rz" | TcR => l = "cR" | TcRz => l = "cRz"
  | _ => False end%string.
Proof.
  unfold mapLabelToType.
  repeat match goal with |- context [String.eqb ?a ?b] => destruct (String.eqb_spec a b) as [?|?] end;
  intros <-; intros H; try discriminate H; assumption.
Qed.
Lemma make_same_label ty p g x : std_gate ty p g -> tmem ty parametrized_gates = true ->
  exists g', make_gate (glabel g) (gtarget g) (gcontrol g) x = Ok g'.
Proof.
  intros HS HP. pose proof (sg_q _ _ _ HS) as HQ.
  pose proof (label_param _ _ (sg_type _ _ _ HS) HP) as HL. unfold make_gate. rewrite HQ.
  destruct ty; try discriminate HP; cbn [type_1q]; rewrite HL; eexists; reflexivity.
Qed.
Lemma make_sqrt ty p g l : std_gate ty p g -> simplify_square_root ty = Ok l ->
  exists g', make_gate l (gtarget g) (gcontrol g) 0 = Ok g'.
Proof.
  intros HS HL. pose proof (sg_q _ _ _ HS) as HQ. unfold make_gate. rewrite HQ.
  destruct ty; try discriminate HL; injection HL as <-; eexists; reflexivity.
Qed.
Lemma make_R ty p g x : std_gate ty p g -> phase_1q ty = true ->
  exists g', make_gate "R" (gtarget g) (gcontrol g) x = Ok g'.
Proof.
  intros HS HL. pose proof (sg_q _ _ _ HS) as HQ. unfold make_gate. rewrite HQ.
  destruct ty; try discriminate HL; eexists; reflexivity.
Qed.
Lemma std_has_param ty p g : std_gate ty p g -> tmem ty parametrized_gates = true -> parameter g = Some p.
Proof. intros HS H. unfold parameter. rewrite (sg_param _ _ _ HS). destruct ty; try discriminate H; reflexivity. Qed.

Lemma pair_step_total g1 g2 : (exists ty p, std_gate ty p g1) -> (exists ty p, std_gate ty p g2) ->
  exists a, pair_step g1 g2 = Ok a.
Proof.
  intros H1 H2. destruct (interaction_total g1 g2 H1 H2) as (co & k & EE). unfold pair_step. rewrite EE. cbn [bind].
  destruct co; cbn [negb]; [|eauto]. destruct (Nat.eqb_spec k 0) as [K0|K0]; [eauto|].
  assert (L1 : lib_shape g1) by (left; exact H1). assert (L2 : lib_shape g2) by (left; exact H2).
  destruct (interaction_case g1 g2 k L1 L2 EE K0) as (p & q & S1 & S2 & [(ET & EC & HK)|(K2 & Ety & HY & N1 & N2 & HO)]).
  - destruct HK as [(K & Ety & HK)|[(K & P1 & P2)|(K & HV)]]; subst k; cbn [Nat.eqb]; [| |eauto].
    + rewrite <- Ety in S2. rewrite <- ?Ety. destruct (tmem (gate_type g1) involutory_gates) eqn:EI; [eauto|].
      destruct (tmem (gate_type g1) parametrized_gates) eqn:EP.
      * rewrite (std_has_param _ _ _ S1 EP), (std_has_param _ _ _ S2 EP). cbn [std_optional_value bind].
        destruct (make_same_label _ _ _ (p + q)%R S2 EP) as [g' ->]. cbn; eauto.
      * destruct (tmem (gate_type g1) square_root_gates) eqn:EQ; [|eauto].
        destruct (simplify_square_root (gate_type g1)) as [l|] eqn:ES; cbn [bind].
        -- destruct (make_sqrt _ _ _ _ S2 ES) as [g' ->]. cbn; eauto.
        -- destruct (gate_type g1); try discriminate EQ; discriminate ES.
    + destruct (phase_param_ok _ _ _ S1 P1) as [a1 ->]. destruct (phase_param_ok _ _ _ S2 P2) as [a2 ->]. cbn [bind].
      destruct (make_R _ _ _ (a1 + a2)%R S2 P2) as [g' ->]. cbn; eauto.
  - subst k. cbn [Nat.eqb]. rewrite <- Ety in S2.
    destruct (tmem (gate_type g1) involutory_gates) eqn:EI; [eauto|].
    assert (ER : gate_type g1 = TcR) by (destruct (gate_type g1); try discriminate HY; try discriminate EI; reflexivity).
    rewrite ER in *. cbn [controlled_to_1q bind phase_1q tmem existsb gtype_eqb orb].
    rewrite (std_has_param _ _ _ S1 eq_refl), (std_has_param _ _ _ S2 eq_refl). cbn [std_optional_value bind].
    destruct (make_same_label _ _ _ (p + q)%R S2 eq_refl) as [g' ->]. cbn; eauto.
Qed.
