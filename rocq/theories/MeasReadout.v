(** perfect_measure_circuit, measure_circuit, measure_readouts, measure_z_readouts_fast. *)
From Coq Require Import Reals String List Arith Lia Bool Lra Permutation.
From Verif Require Import CBase Result Bits Spec GateModel ComputerModel CircuitModel OperatorModel SparseModel MeasureModel OpSpec
  ApplyProofs SafeProofs GateProofs LibProofs CleanProofs SimProofs InteractProofs PauliProofs PauliIdx SparseProofs SparseApply SparseNorm MeasureProofs PauliExp.
Import ListNotations.
Local Open Scope string_scope.

(** *** the rotation circuit *)
Definition rotg (g : gate) : list gate :=
  let t := gtarget g in
  if glabel g =? "Z" then [mkGate "I" t t m_I None]
  else if glabel g =? "X" then [mkGate "H" t t m_H None]
  else if glabel g =? "Y" then [mkGate "Rx" t t (m_Rx (PI / 2)) (Some ((PI / 2)%R, true))]
  else [].
Lemma norm_pi2 : normalize_angle (PI / 2) (4 * PI) = (PI / 2)%R.
Proof. apply normalize_angle_id; pose proof PI_RGT_0; lra. Qed.
Lemma make_I t : make_gate "I" t t 0 = Ok (mkGate "I" t t m_I None).
Proof. unfold make_gate. rewrite Nat.eqb_refl. reflexivity. Qed.
Lemma make_H t : make_gate "H" t t 0 = Ok (mkGate "H" t t m_H None).
Proof. unfold make_gate. rewrite Nat.eqb_refl. reflexivity. Qed.
Lemma make_Rx t : make_gate "Rx" t t (PI / 2) = Ok (mkGate "Rx" t t (m_Rx (PI / 2)) (Some ((PI / 2)%R, true))).
Proof. unfold make_gate. rewrite Nat.eqb_refl. cbn [String.eqb Ascii.eqb Bool.eqb]. rewrite norm_pi2. reflexivity. Qed.
Lemma rotator_ok gs : basis_rotator gs = Ok (flat_map rotg gs).
Proof.
  induction gs as [|g r IH]; [reflexivity|]. cbn [basis_rotator flat_map]. rewrite IH, make_I, make_H, make_Rx. unfold rotg.
  destruct (_ =? _); [reflexivity|]. destruct (_ =? _); [reflexivity|]. destruct (_ =? _); reflexivity.
Qed.
Lemma cos4 : cos (0.5 * (PI / 2)) = (1 / sqrt 2)%R.
Proof. replace (0.5 * (PI / 2))%R with (PI / 4)%R by lra. apply cos_PI4. Qed.
Lemma sin4 : sin (0.5 * (PI / 2)) = (1 / sqrt 2)%R.
Proof. replace (0.5 * (PI / 2))%R with (PI / 4)%R by lra. apply sin_PI4. Qed.
Lemma half_sqrt2 : (1 / 2 < 1 / sqrt 2)%R.
Proof.
  assert (H : (0 < sqrt 2)%R) by (apply sqrt_lt_R0; lra). assert (H2 : (sqrt 2 < 2)%R).
  { rewrite <- (sqrt_square 2) at 2 by lra. apply sqrt_lt_1; lra. }
  apply Rmult_lt_reg_r with (sqrt 2); [exact H|]. replace (1 / sqrt 2 * sqrt 2)%R with 1%R by (field; lra). lra.
Qed.
Lemma rotg_ok g h : In h (rotg g) -> library_gate h /\ sharp h /\ gtarget h = gtarget g /\ gcontrol h = gtarget g.
Proof.
  unfold rotg. destruct (_ =? _); [|destruct (_ =? _); [|destruct (_ =? _)]]; intros []; subst; try contradiction.
  - split; [apply (lib_make "I" (gtarget g) (gtarget g) 0), make_I|]. split; [|auto]. apply (no_angle_sharp "I" (gtarget g) (gtarget g) 0); [reflexivity|apply make_I].
  - split; [apply (lib_make "H" (gtarget g) (gtarget g) 0), make_H|]. split; [|auto]. apply (no_angle_sharp "H" (gtarget g) (gtarget g) 0); [reflexivity|apply make_H].
  - pose proof (make_Rx (gtarget g)) as HM. split; [apply (lib_make "Rx" (gtarget g) (gtarget g) (PI / 2)), HM|]. split; [|auto].
    destruct (make_gate_std _ _ _ _ _ HM) as (p & HS & _).
    assert (HP : p = (PI / 2)%R). { pose proof (sg_def _ _ _ HS) as HD. pose proof (sg_param _ _ _ HS) as HP. cbn in HP. congruence. }
    subst p. apply (sharp_std _ _ _ HS). cbn. unfold sharp_angle. rewrite cos4, sin4. pose proof half_sqrt2. pose proof thr_lt_half.
    assert (HA : (thr < Rabs (1 / sqrt 2))%R) by (rewrite Rabs_pos_eq; lra). repeat split; auto. lra.
Qed.

(** *** products of one-qubit operators on distinct qubits *)
Section Inter.
Context {A : Type} (tg : A -> nat).
Definition macts (f : A -> mat) (l : list A) (psi : state) : state := fold_left (fun psi x => act1 (f x) (tg x) psi) l psi.
Lemma macts_ext f l : forall a b, a == b -> macts f l a == macts f l b.
Proof. induction l as [|x l IH]; intros a b H; [exact H|]. cbn. apply IH, act1_ext, H. Qed.
Lemma macts_comm f m t l : ~ In t (map tg l) -> forall psi, act1 m t (macts f l psi) == macts f l (act1 m t psi).
Proof.
  induction l as [|x l IH]; intros H psi; [apply seq_refl|]. cbn. eapply seq_trans; [apply IH; intros HH; apply H; right; exact HH|].
  apply macts_ext, act1_comm_diff. intros E; apply H; left; symmetry; exact E.
Qed.
Lemma intertwine u p z l : NoDup (map tg l) -> (forall x, In x l -> meq 2 (mmul 2 (z x) (u x)) (mmul 2 (u x) (p x))) ->
  forall psi, macts z l (macts u l psi) == macts u l (macts p l psi).
Proof.
  induction l as [|x l IH]; intros HN H psi; [apply seq_refl|]. inversion HN as [|? ? Hn HN']; subst. cbn.
  fold (macts u l (act1 (u x) (tg x) psi)). fold (macts p l (act1 (p x) (tg x) psi)).
  eapply seq_trans; [apply (macts_ext z l), macts_comm; exact Hn|].
  eapply seq_trans; [apply IH; [exact HN'|intros; apply H; right; assumption]|]. apply macts_ext.
  eapply seq_trans; [apply macts_ext|apply seq_sym, macts_comm; exact Hn].
  eapply seq_trans; [apply act1_mmul|]. eapply seq_trans; [|apply seq_sym, act1_mmul]. apply act1_meq, H. left; reflexivity.
Qed.
Lemma macts_diag z l : (forall x, In x l -> z x 0%nat 1%nat = C0 /\ z x 1%nat 0%nat = C0) ->
  forall psi k, macts z l psi k = (Cprod (fun x => z x (b2n (bit k (tg x))) (b2n (bit k (tg x)))) l * psi k)%C.
Proof.
  induction l as [|x l IH]; intros H psi k; cbn [macts fold_left Cprod]; [ring|]. fold (macts z l (act1 (z x) (tg x) psi)).
  rewrite IH by (intros; apply H; right; assumption). destruct (H x (or_introl eq_refl)) as [H1 H2]. unfold act1.
  destruct (bit k (tg x)) eqn:E; cbn [b2n]; rewrite ?H1, ?H2, (upd_id' _ _ _ E); ring.
Qed.
End Inter.

(** *** Pauli strings *)
Definition um (s : string) : mat := if s =? "Z" then m_I else if s =? "X" then m_H else if s =? "Y" then m_Rx (PI / 2) else m_I.
Lemma rot_acts gs : Forall pauli_gate gs -> forall psi, circ_act (flat_map rotg gs) psi = macts gtarget (fun g => um (glabel g)) gs psi.
Proof.
  induction 1 as [|g r Hg HF IH]; intros psi; [reflexivity|]. cbn [flat_map macts fold_left]. rewrite circ_act_app, IH. f_equal.
  unfold rotg, um. destruct (pauli_label_cases _ (proj1 Hg)) as [E|[E|E]]; rewrite E; cbn [String.eqb Ascii.eqb Bool.eqb]; unfold circ_act; cbn [fold_left];
    unfold gate_act; cbn [gtarget gcontrol gmat]; rewrite Nat.eqb_refl; reflexivity.
Qed.
Lemma gs_acts gs : Forall pauli_gate gs -> forall psi, circ_act gs psi == macts gtarget (fun g => pm (glabel g)) gs psi.
Proof.
  induction 1 as [|g r Hg HF IH]; intros psi; [apply seq_refl|]. rewrite circ_act_cons. cbn [macts fold_left]. eapply seq_trans; [apply IH|].
  apply macts_ext. rewrite (pauli_act g psi Hg). apply pact_pm.
Qed.
(** a + b Z and a + b P *)
Definition lin (a b : C) (m : mat) : mat := fun i j => ((if Nat.eqb i j then a else C0) + b * m i j)%C.
Lemma um_inter s a b : is_pauli_label s = true -> meq 2 (mmul 2 (lin a b m_Z) (um s)) (mmul 2 (um s) (lin a b (pm s))).
Proof.
  intros H i j Hi Hj. unfold mmul. cbn [seq]. rewrite !Csum_cons, !Csum_nil.
  destruct (pauli_label_cases _ H) as [E|[E|E]]; subst s; unfold um, pm, lin; cbn [String.eqb Ascii.eqb Bool.eqb];
    assert (HI2 : (i = 0 \/ i = 1)%nat) by lia; assert (HJ2 : (j = 0 \/ j = 1)%nat) by lia; destruct HI2, HJ2; subst; cbn; rewrite ?cos4, ?sin4; apply C_ext; cbn; ring.
Qed.
Lemma um_inter0 s : is_pauli_label s = true -> meq 2 (mmul 2 m_Z (um s)) (mmul 2 (um s) (pm s)).
Proof.
  intros H i j Hi Hj. unfold mmul. cbn [seq]. rewrite !Csum_cons, !Csum_nil.
  destruct (pauli_label_cases _ H) as [E|[E|E]]; subst s; unfold um, pm; cbn [String.eqb Ascii.eqb Bool.eqb];
    assert (HI2 : (i = 0 \/ i = 1)%nat) by lia; assert (HJ2 : (j = 0 \/ j = 1)%nat) by lia; destruct HI2, HJ2; subst; cbn; rewrite ?cos4, ?sin4; apply C_ext; cbn; ring.
Qed.
Lemma z_diag gs psi k : macts gtarget (fun _ => m_Z) gs psi k = (RtoC (outcome_value gs k) * psi k)%C.
Proof.
  rewrite macts_diag by (intros; split; reflexivity). f_equal. unfold outcome_value.
  assert (H : forall v, RtoC (fold_left (fun value g => (value * (1 - 2 * INR (b2n (bit k (gtarget g)))))%R) gs v) = (RtoC v * Cprod (fun x => m_Z (b2n (bit k (gtarget x))) (b2n (bit k (gtarget x)))) gs)%C).
  { induction gs as [|g r IH]; intros v; cbn [fold_left Cprod]; [ring|]. rewrite IH.
    replace (m_Z (b2n (bit k (gtarget g))) (b2n (bit k (gtarget g)))) with (RtoC (1 - 2 * INR (b2n (bit k (gtarget g))))).
    - apply C_ext; cbn; ring.
    - destruct (bit k (gtarget g)); apply C_ext; cbn; ring. }
  rewrite H. change (RtoC 1) with C1. ring.
Qed.

(** *** the measured distribution *)
Lemma rot_ok n gs : Forall (fun g => gtarget g < n) gs -> term_ok n (flat_map rotg gs) /\ Forall library_gate (flat_map rotg gs).
Proof.
  intros H. rewrite Forall_forall in H. assert (HR : forall h, In h (flat_map rotg gs) -> library_gate h /\ sharp h /\ in_range n h).
  { intros h Hh. apply in_flat_map in Hh. destruct Hh as (g & Hg & Hh). destruct (rotg_ok g h Hh) as (A & B & D & E). split; [exact A|]. split; [exact B|].
    unfold in_range. rewrite D, E. split; apply H, Hg. }
  split; [split|]; apply Forall_forall; intros h Hh; destruct (HR h Hh) as (A & B & D); [exact D|apply library_clean; assumption|exact A].
Qed.
Lemma rot_applied q gs : wf_computer q -> Forall (fun g => gtarget g < nqubit q) gs ->
  exists q', apply_circuit q (flat_map rotg gs) = Ok q' /\ amp (coeff q') == circ_act (flat_map rotg gs) (amp (coeff q)) /\ length (coeff q') = 2 ^ nqubit q /\ nqubit q' = nqubit q /\
    same_state q (set_coeff q' (coeff q)).
Proof. intros HQ HR. apply circuit_restore; [exact HQ|]. apply (rot_ok _ _ HR). Qed.
Lemma z_rot_pauli gs psi : Forall pauli_gate gs -> NoDup (map gtarget gs) ->
  circ_act (flat_map rotg gs) (circ_act gs psi) == (fun k => (RtoC (outcome_value gs k) * circ_act (flat_map rotg gs) psi k)%C).
Proof.
  intros HP HN. rewrite !(rot_acts gs HP). eapply seq_trans; [apply macts_ext, (gs_acts gs HP)|].
  eapply seq_trans; [apply seq_sym, (intertwine gtarget (fun g => um (glabel g)) (fun g => pm (glabel g)) (fun _ => m_Z) gs HN)|].
  - intros g Hg. apply um_inter0. rewrite Forall_forall in HP. apply (HP g Hg).
  - intros k. apply z_diag.
Qed.
Lemma foreach_rsum {A} (body : A -> res R) (f : A -> C) l : (forall x, In x l -> exists y, body x = Ok y /\ RtoC y = f x) -> forall acc,
  exists r, foreach l (fun x acc => do y <- body x; Ok (acc + y)%R) acc = Ok r /\ RtoC r = (RtoC acc + Csum f l)%C.
Proof.
  induction l as [|x l IH]; intros H acc; cbn [foreach].
  - exists acc. rewrite Csum_nil, Cadd_0_r. auto.
  - destruct (H x (or_introl eq_refl)) as (y & E & Ey). rewrite E. cbn [bind]. destruct (IH (fun x Hx => H x (or_intror Hx)) (acc + y)%R) as (r & E' & Er).
    exists r. split; [exact E'|]. rewrite Er, Csum_cons, <- Ey. apply C_ext; cbn; ring.
Qed.
Lemma perfect_ok q gs : wf_computer q -> Forall pauli_gate gs -> NoDup (map gtarget gs) -> Forall (fun g => gtarget g < nqubit q) gs ->
  exists r q', perfect_measure_circuit q gs = Ok (r, q') /\ RtoC r = inner (nqubit q) (amp (coeff q)) (circ_act gs (amp (coeff q))) /\ same_state q q'.
Proof.
  intros HQ HP HN HR. unfold perfect_measure_circuit. rewrite rotator_ok. cbv zeta. cbn [bind].
  destruct (rot_applied q gs HQ HR) as (q' & E & A & L & N & S). rewrite E. cbn [bind].
  destruct (foreach_rsum (fun k => do x <- vget (coeff q') k; Ok (Re (RtoC (outcome_value gs k) * x * Cconj x)%C))
     (fun k => (Cconj (amp (coeff q') k) * (RtoC (outcome_value gs k) * amp (coeff q') k))%C) (basis q')) with (acc := 0%R) as (r & Er & Hr).
  { intros k Hk. unfold basis in Hk. apply in_seq in Hk. rewrite (vget_ok (coeff q') k C0) by (rewrite L, <- N; unfold nbasis in Hk; lia). cbn [bind].
    eexists; split; [reflexivity|]. fold (amp (coeff q') k). apply C_ext; cbn; ring. }
  exists r, (set_coeff q' (coeff q)). split; [|split; [|exact S]].
  - etransitivity; [|etransitivity; [apply (f_equal (fun s => bind s (fun sum => Ok (sum, set_coeff q' (coeff q))))); exact Er|reflexivity]].
    f_equal. apply foreach_ext. intros k acc Hk. rewrite bind_bind. reflexivity.
  - rewrite Hr. change (RtoC 0) with C0. rewrite Cadd_0_l. destruct (rot_ok _ _ HR) as [[HR1 _] HR2].
    rewrite <- (circ_preserves_inner (nqubit q) (flat_map rotg gs) (amp (coeff q)) (circ_act gs (amp (coeff q))) HR2 HR1).
    unfold basis, nbasis. rewrite N. unfold inner. apply Csum_ext. intros k _. rewrite (z_rot_pauli gs _ HP HN k), (A k). reflexivity.
Qed.

(** *** Born rule *)
From Verif Require Import MeasSpec.
Lemma outcome_pm gs k : outcome_value gs k = 1%R \/ outcome_value gs k = (-1)%R.
Proof.
  unfold outcome_value. assert (H : forall v, (v = 1 \/ v = -1)%R -> (fold_left (fun value g => value * (1 - 2 * INR (b2n (bit k (gtarget g))))) gs v = 1 \/ fold_left (fun value g => value * (1 - 2 * INR (b2n (bit k (gtarget g))))) gs v = -1)%R).
  { induction gs as [|g r IH]; intros v Hv; cbn [fold_left]; [exact Hv|]. apply IH. destruct (bit k (gtarget g)); cbn; destruct Hv; subst; [right|left|left|right]; ring. }
  apply H. left; reflexivity.
Qed.
Lemma total_sum (probs : list R) (test : nat -> bool) (f : nat -> C) n : length probs = 2 ^ n -> (forall k, k < 2 ^ n -> (if test k then nth k probs 0 else 0)%R = Cnorm2 (f k)) -> total probs test = born n f.
Proof.
  intros HL H. unfold born. fold (normsq n f). rewrite normsq_sum. unfold total. rewrite HL.
  assert (HG : forall l, (forall k, In k l -> k < 2 ^ n) -> fold_right (fun k acc => ((if test k then nth k probs 0 else 0) + acc)%R) 0%R l = fold_right (fun I acc => (Cnorm2 (f I) + acc)%R) 0%R l).
  { induction l as [|k l IH]; intros Hl; [reflexivity|]. cbn. rewrite IH by (intros; apply Hl; right; assumption). rewrite H by (apply Hl; left; reflexivity). reflexivity. }
  apply HG. intros k Hk. apply in_seq in Hk. lia.
Qed.
Lemma born_ext n a b : a == b -> born n a = born n b.
Proof. intros H. unfold born. rewrite (inner_ext n _ _ _ _ H H). reflexivity. Qed.
Lemma born_rot n gs psi : Forall (fun g => gtarget g < n) gs -> born n (circ_act (flat_map rotg gs) psi) = born n psi.
Proof. intros H. destruct (rot_ok n gs H) as [[H1 _] H2]. unfold born. rewrite circ_preserves_inner by assumption. reflexivity. Qed.
Lemma probs_nth q k : nth k (probabilities q) 0%R = Cnorm2 (amp (coeff q) k).
Proof.
  unfold probabilities, amp. set (F := fun x => Re (Cconj x * x)%C). assert (HF : F C0 = 0%R) by (unfold F; cbn; ring). rewrite <- HF, map_nth. unfold F. rewrite Cmul_conj. reflexivity.
Qed.
Lemma Cnorm2_0 : Cnorm2 C0 = 0%R.
Proof. unfold Cnorm2; cbn; ring. Qed.
Lemma value_rot gs r psi : Forall pauli_gate gs -> NoDup (map gtarget gs) ->
  circ_act (flat_map rotg gs) (value_projector gs r psi) == (fun k => (RtoC (1 / 2 * (1 + r * outcome_value gs k)) * circ_act (flat_map rotg gs) psi k)%C).
Proof.
  intros HP HN. change (value_projector gs r psi) with (sscale (RtoC (1 / 2)) (sadd psi (sscale (RtoC r) (circ_act gs psi)))).
  eapply seq_trans; [apply circ_act_scale|]. intros k. unfold sscale at 1. rewrite (circ_act_add _ _ _ k). unfold sadd. rewrite (circ_act_scale _ _ _ k). unfold sscale.
  rewrite (z_rot_pauli gs psi HP HN k). set (x := circ_act _ psi k). clearbody x. apply C_ext; cbn; ring.
Qed.
Definition Rdec (a b : R) : bool := if Req_EM_T a b then true else false.
Lemma value_born q gs r : wf_computer q -> Forall pauli_gate gs -> NoDup (map gtarget gs) -> Forall (fun g => gtarget g < nqubit q) gs -> (r = 1 \/ r = -1)%R ->
  exists probs, rotated_probabilities q gs = Ok probs /\ length probs = 2 ^ nqubit q /\
    total probs (fun k => Rdec (outcome_value gs k) r) = born (nqubit q) (value_projector gs r (amp (coeff q))).
Proof.
  intros HQ HP HN HR Hr. unfold rotated_probabilities. rewrite rotator_ok. cbn [bind]. destruct (rot_applied q gs HQ HR) as (q' & E & A & L & N & S). rewrite E. cbn [bind].
  eexists; split; [reflexivity|]. assert (HL : length (probabilities q') = 2 ^ nqubit q) by (unfold probabilities; rewrite map_length; exact L). split; [exact HL|].
  rewrite <- (born_rot (nqubit q) gs _ HR). rewrite (born_ext _ _ _ (value_rot gs r _ HP HN)). apply total_sum; [exact HL|]. intros k _.
  rewrite probs_nth, (A k). set (x := circ_act _ _ k). clearbody x. unfold Rdec. destruct (Req_EM_T (outcome_value gs k) r) as [Ev|Ev].
  - rewrite Ev. replace (1 / 2 * (1 + r * r))%R with 1%R by (destruct Hr; subst r; lra). unfold Cnorm2; cbn; ring.
  - replace (1 / 2 * (1 + r * outcome_value gs k))%R with 0%R by (destruct Hr as [-> | ->]; destruct (outcome_pm gs k) as [H|H]; try (exfalso; apply Ev; exact H); rewrite H; lra). unfold Cnorm2; cbn; ring.
Qed.
(** readouts *)
Definition readout (gs : list gate) (k : nat) : list nat := map (fun g => b2n (bit k (gtarget g))) gs.
Lemma value_lin g s psi : pauli_gate g -> value_projector [g] s psi == act1 (lin (RtoC (1 / 2)) (RtoC (s / 2)) (pm (glabel g))) (gtarget g) psi.
Proof.
  intros Hg k. unfold value_projector. change (circ_act [g] psi) with (gate_act g psi). rewrite (pauli_act g psi Hg). rewrite (pact_pm (glabel g) (gtarget g) psi k).
  unfold act1, lin. generalize (pm (glabel g)). intros m. replace (psi k) with (psi (upd k (gtarget g) (bit k (gtarget g)))) by (rewrite upd_id; reflexivity).
  destruct (bit k (gtarget g)); cbn [b2n Nat.eqb]; generalize (psi (upd k (gtarget g) true)) (psi (upd k (gtarget g) false)); intros x y; apply C_ext; cbn; field.
Qed.
Lemma joint_ext gs : forall bs a b, a == b -> joint_projector gs bs a == joint_projector gs bs b.
Proof.
  induction gs as [|g gs IH]; intros [|b bs] x y H; cbn; try exact H. apply IH. intros k. unfold value_projector. rewrite (H k), (circ_act_ext [g] _ _ H k). reflexivity.
Qed.
Definition ptg (x : gate * nat) : nat := gtarget (fst x).
Lemma joint_lin gs : Forall pauli_gate gs -> forall bs psi, length bs = length gs -> joint_projector gs bs psi ==
  macts ptg (fun x => lin (RtoC (1 / 2)) (RtoC (sign_of (snd x) / 2)) (pm (glabel (fst x)))) (combine gs bs) psi.
Proof.
  induction 1 as [|g r Hg HF IH]; intros [|b bs] psi HL; try discriminate; [apply seq_refl|]. cbn [joint_projector combine].
  eapply seq_trans; [apply joint_ext, (value_lin g (sign_of b) psi Hg)|]. cbn [macts fold_left fst snd]. apply IH. cbn in HL; congruence.
Qed.
Lemma rot_combine gs : forall bs psi, length bs = length gs -> macts gtarget (fun g => um (glabel g)) gs psi = macts ptg (fun x => um (glabel (fst x))) (combine gs bs) psi.
Proof. induction gs as [|g gs IH]; intros [|b bs] psi HL; try discriminate; [reflexivity|]. cbn [macts combine fold_left]. apply IH. cbn in HL; congruence. Qed.
Lemma map_combine_fst {A B} (gs : list A) : forall (bs : list B), length bs = length gs -> map fst (combine gs bs) = gs.
Proof. induction gs as [|g gs IH]; intros [|b bs] HL; try discriminate; [reflexivity|]. cbn. rewrite IH by (cbn in HL; congruence). reflexivity. Qed.
Lemma joint_rot gs bs psi : Forall pauli_gate gs -> NoDup (map gtarget gs) -> length bs = length gs -> Forall (fun b => b < 2) bs ->
  circ_act (flat_map rotg gs) (joint_projector gs bs psi) == (fun k => if list_eq_dec Nat.eq_dec (readout gs k) bs then circ_act (flat_map rotg gs) psi k else C0).
Proof.
  intros HP HN HL HB. rewrite !(rot_acts gs HP), !(rot_combine gs bs _ HL).
  eapply seq_trans; [apply macts_ext, (joint_lin gs HP bs psi HL)|].
  assert (HT : map ptg (combine gs bs) = map gtarget gs). { unfold ptg. rewrite <- (map_map fst gtarget), map_combine_fst by exact HL. reflexivity. }
  eapply seq_trans; [apply seq_sym, (intertwine ptg (fun x => um (glabel (fst x))) _ (fun x => lin (RtoC (1 / 2)) (RtoC (sign_of (snd x) / 2)) m_Z))|].
  - rewrite HT. exact HN.
  - intros [g b] Hx. apply in_combine_l in Hx. apply um_inter. rewrite Forall_forall in HP. apply (HP g Hx).
  - intros k. rewrite macts_diag.
    2: { intros x _. unfold lin. cbn. split; apply C_ext; cbn; ring. }
    set (x := macts _ _ _ _ k). clearbody x.
    assert (HC : Cprod (fun x => lin (RtoC (1 / 2)) (RtoC (sign_of (snd x) / 2)) m_Z (b2n (bit k (ptg x))) (b2n (bit k (ptg x)))) (combine gs bs) = if list_eq_dec Nat.eq_dec (readout gs k) bs then C1 else C0).
    { clear - HL HB. revert bs HL HB. induction gs as [|g gs IH]; intros [|b bs] HL HB; try discriminate; [reflexivity|]. cbn [combine Cprod readout map].
      inversion HB as [|? ? Hb HB']; subst. rewrite IH by (try exact HB'; cbn in HL; congruence). fold (readout gs k). unfold ptg at 1 2; cbn [fst snd].
      assert (HH : lin (RtoC (1 / 2)) (RtoC (sign_of b / 2)) m_Z (b2n (bit k (gtarget g))) (b2n (bit k (gtarget g))) = if Nat.eq_dec (b2n (bit k (gtarget g))) b then C1 else C0).
      { assert (b = 0 \/ b = 1)%nat as [->| ->] by lia; destruct (bit k (gtarget g)); unfold lin, sign_of; cbn; apply C_ext; cbn; field. }
      rewrite HH. destruct (Nat.eq_dec (b2n (bit k (gtarget g))) b), (list_eq_dec Nat.eq_dec (readout gs k) bs), (list_eq_dec Nat.eq_dec (b2n (bit k (gtarget g)) :: readout gs k) (b :: bs)); try congruence; ring. }
    rewrite HC. destruct (list_eq_dec _ _ _); ring.
Qed.
Definition ldec (a b : list nat) : bool := if list_eq_dec Nat.eq_dec a b then true else false.
Lemma joint_born q gs bs : wf_computer q -> Forall pauli_gate gs -> NoDup (map gtarget gs) -> Forall (fun g => gtarget g < nqubit q) gs ->
  length bs = length gs -> Forall (fun b => b < 2) bs ->
  exists probs, rotated_probabilities q gs = Ok probs /\ length probs = 2 ^ nqubit q /\
    total probs (fun k => ldec (readout gs k) bs) = born (nqubit q) (joint_projector gs bs (amp (coeff q))).
Proof.
  intros HQ HP HN HR HL2 HB. unfold rotated_probabilities. rewrite rotator_ok. cbn [bind]. destruct (rot_applied q gs HQ HR) as (q' & E & A & L & N & S). rewrite E. cbn [bind].
  eexists; split; [reflexivity|]. assert (HL : length (probabilities q') = 2 ^ nqubit q) by (unfold probabilities; rewrite map_length; exact L). split; [exact HL|].
  rewrite <- (born_rot (nqubit q) gs _ HR). rewrite (born_ext _ _ _ (joint_rot gs bs _ HP HN HL2 HB)). apply total_sum; [exact HL|]. intros k _.
  rewrite probs_nth, (A k). unfold ldec. destruct (list_eq_dec _ _ _); [reflexivity|]. symmetry; apply Cnorm2_0.
Qed.

(** *** shots *)
Lemma total_pos (probs : list R) test k : (forall j, (0 <= nth j probs 0)%R) -> k < length probs -> test k = true -> (0 < nth k probs 0)%R -> (0 < total probs test)%R.
Proof.
  intros H0 Hk Ht Hp. unfold total. apply Rlt_le_trans with (nth k probs 0%R); [exact Hp|].
  pose proof (sum_bound (fun k => if test k then nth k probs 0%R else 0%R) (seq 0 (length probs)) k) as HB. cbv beta in HB. rewrite Ht in HB. apply HB.
  - intros x. destruct (test x); [apply H0|lra].
  - apply in_seq. lia.
Qed.
Lemma probs_nonneg q j : (0 <= nth j (probabilities q) 0)%R.
Proof. rewrite probs_nth. unfold Cnorm2. nra. Qed.
Lemma rotated_nonneg q gs probs j : rotated_probabilities q gs = Ok probs -> (0 <= nth j probs 0)%R.
Proof.
  unfold rotated_probabilities. destruct (basis_rotator gs); cbn [bind]; [|discriminate]. destruct (apply_circuit q a); cbn [bind]; [|discriminate].
  intros E. injection E as <-. apply probs_nonneg.
Qed.
Lemma measure_ok q gs draws : wf_computer q -> Forall (fun g => gtarget g < nqubit q) gs ->
  exists q', measure_circuit q gs draws = Ok (map (outcome_value gs) draws, q') /\ same_state q q'.
Proof.
  intros HQ HR. unfold measure_circuit. rewrite rotator_ok. cbv zeta. cbn [bind]. destruct (rot_applied q gs HQ HR) as (q' & E & _ & _ & _ & S). rewrite E. cbn [bind].
  eexists; split; [reflexivity|exact S].
Qed.
Lemma readouts_ok q gs draws : wf_computer q -> Forall (fun g => gtarget g < nqubit q) gs ->
  exists q', measure_readouts q gs draws = Ok (map (readout gs) draws, q') /\ same_state q q'.
Proof.
  intros HQ HR. unfold measure_readouts. rewrite rotator_ok. cbv zeta. cbn [bind]. destruct (rot_applied q gs HQ HR) as (q' & E & _ & _ & _ & S). rewrite E. cbn [bind].
  eexists; split; [reflexivity|exact S].
Qed.
Lemma rotated_defined q gs : wf_computer q -> Forall (fun g => gtarget g < nqubit q) gs -> exists probs, rotated_probabilities q gs = Ok probs /\ length probs = 2 ^ nqubit q.
Proof.
  intros HQ HR. unfold rotated_probabilities. rewrite rotator_ok. cbn [bind]. destruct (rot_applied q gs HQ HR) as (q' & E & A & L & N & S). rewrite E. cbn [bind].
  eexists; split; [reflexivity|]. unfold probabilities; rewrite map_length; exact L.
Qed.
Lemma readout_bits gs k : length (readout gs k) = length gs /\ Forall (fun b => b < 2) (readout gs k).
Proof.
  unfold readout. rewrite map_length. split; [reflexivity|]. apply Forall_forall. intros b Hb. apply in_map_iff in Hb. destruct Hb as (g & <- & _). destruct (bit _ _); cbn; lia.
Qed.
Lemma shot_value q gs probs draws : wf_computer q -> Forall pauli_gate gs -> NoDup (map gtarget gs) -> Forall (fun g => gtarget g < nqubit q) gs ->
  rotated_probabilities q gs = Ok probs -> legal probs draws -> Forall (fun r => (0 < born (nqubit q) (value_projector gs r (amp (coeff q))))%R) (map (outcome_value gs) draws).
Proof.
  intros HQ HP HN HR E HL. apply Forall_forall. intros r Hr. apply in_map_iff in Hr. destruct Hr as (k & <- & Hk). unfold legal in HL. rewrite Forall_forall in HL. destruct (HL k Hk) as [Hl Hp].
  destruct (value_born q gs (outcome_value gs k) HQ HP HN HR (outcome_pm gs k)) as (probs' & E' & L & HB). assert (probs' = probs) by congruence. subst probs'. rewrite <- HB.
  apply (total_pos probs _ k); try assumption. - intros j. eapply rotated_nonneg; exact E. - unfold Rdec. destruct (Req_EM_T _ _); congruence.
Qed.
Lemma shot_readout q gs probs draws : wf_computer q -> Forall pauli_gate gs -> NoDup (map gtarget gs) -> Forall (fun g => gtarget g < nqubit q) gs ->
  rotated_probabilities q gs = Ok probs -> legal probs draws -> Forall (fun bs => (0 < born (nqubit q) (joint_projector gs bs (amp (coeff q))))%R) (map (readout gs) draws).
Proof.
  intros HQ HP HN HR E HL. apply Forall_forall. intros r Hr. apply in_map_iff in Hr. destruct Hr as (k & <- & Hk). unfold legal in HL. rewrite Forall_forall in HL. destruct (HL k Hk) as [Hl Hp].
  destruct (readout_bits gs k) as [B1 B2].
  destruct (joint_born q gs (readout gs k) HQ HP HN HR B1 B2) as (probs' & E' & L & HB). assert (probs' = probs) by congruence. subst probs'. rewrite <- HB.
  apply (total_pos probs _ k); try assumption. - intros j. eapply rotated_nonneg; exact E. - unfold ldec. destruct (list_eq_dec _ _ _); congruence.
Qed.
