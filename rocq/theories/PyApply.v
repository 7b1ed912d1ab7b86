(** The circuits of the Python helpers on the simulator; reference determinants; Trotter
    products. *)
From Coq Require Import Reals String List Arith NArith ZArith Lia Bool Lra Psatz.
From Verif Require Import CBase Result Bits Spec GateModel ComputerModel ApplyProofs SafeProofs GateProofs LibProofs CleanProofs SimProofs CircuitModel PauliProofs GateEval ExpSpec SQPoolModel PyModel ThreeQubit ExpProofs ExpCircuit QftSpec.
From Verif Require QftProofs.
Import ListNotations.
Local Open Scope nat_scope.

Lemma sharp_adjoint g : library_gate g -> sharp g -> sharp (gate_adjoint g).
Proof.
  intros HL [HC HP]. pose proof (adjoint_matrix g HL) as HM. destruct (adjoint_qubits g) as [E1 E2]. split.
  - intros i j Hi Hj. rewrite (HM i j Hi Hj). unfold madj. apply clean_conj, HC; assumption.
  - unfold phased_X in *. assert (EB : blk (gate_adjoint g) = blk g) by (unfold blk; rewrite E1, E2; reflexivity). rewrite EB.
    assert (HB : blk g + 1 < 4) by (unfold blk; destruct (_ =? _); lia).
    intros (A & B & D & E). rewrite !HM in * by lia. unfold madj in *. apply HP. repeat split.
    + rewrite <- (Cconj_invol (gmat g _ _)), A. apply Cconj_C0.
    + rewrite <- (Cconj_invol (gmat g _ _)), B. apply Cconj_C0.
    + rewrite <- (Cconj_invol (gmat g (blk g) (blk g + 1))), <- D. apply Cconj_invol.
    + intros H. apply E. rewrite D, H. apply Cconj_C1.
Qed.
Definition applicable (n : nat) (gs : list gate) : Prop := Forall library_gate gs /\ Forall sharp gs /\ Forall (in_range n) gs.
Lemma applicable_adjoint n gs : applicable n gs -> applicable n (circuit_adjoint gs).
Proof.
  intros (A & B & D). unfold circuit_adjoint. repeat split; apply Forall_rev; rewrite Forall_map; rewrite Forall_forall in *; intros g Hg.
  - apply lib_adjoint; auto.
  - apply sharp_adjoint; auto.
  - apply in_range_adjoint; auto.
Qed.
Lemma applicable_app n a b : applicable n a -> applicable n b -> applicable n (a ++ b).
Proof. intros (A & B & D) (A' & B' & D'). repeat split; apply Forall_app; auto. Qed.
Lemma applicable_cons n g b : library_gate g -> sharp g -> in_range n g -> applicable n b -> applicable n (g :: b).
Proof. intros ? ? ? (A' & B' & D'). repeat split; constructor; auto. Qed.
Lemma applicable_nil n : applicable n [].
Proof. repeat split; constructor. Qed.
Lemma sim_apply q gs : wf_computer q -> applicable (nqubit q) gs ->
  exists q', apply_circuit q gs = Ok q' /\ wf_computer q' /\ nqubit q' = nqubit q /\ amp (coeff q') == circ_act gs (amp (coeff q)).
Proof.
  intros HQ (A & B & D). destruct (apply_circuit_correct gs q HQ D) as (q' & E & H).
  - rewrite Forall_forall in *. intros g Hg. apply library_clean; auto.
  - exists q'. split; [exact E|]. destruct H as (H1 & H2 & H3 & _ & _ & H4). split; [|auto]. unfold wf_computer, nbasis. rewrite H1. auto.
Qed.

(** ---- sharpness of the exponential and QFT circuits ---- *)
Lemma made_sharp type t c x g : no_angle_condition type = true -> make_gate type t c x = Ok g -> sharp g.
Proof. apply no_angle_sharp. Qed.
Lemma Rx2_sharp t : sharp (gRx2 t).
Proof.
  assert (HM : make_gate "Rx" t t (PI / 2) = Ok (gRx2 t)) by (unfold make_gate; rewrite Nat.eqb_refl; reflexivity).
  assert (HS : std_gate TRx (PI / 2) (gRx2 t)).
  { destruct (make_gate_std _ _ _ _ _ HM) as (p & HS & _). revert HS. change (mapLabelToType "Rx") with TRx. intros HS.
    assert (Ep : normalize_angle (PI / 2) (4 * PI) = (PI / 2)%R) by (apply normalize_angle_id; pose proof PI_RGT_0; lra).
    destruct HS as [A B D E F]. unfold gRx2 in *. cbv zeta in *. rewrite Ep in *. cbn [gparam gmat] in *. constructor; auto. }
  apply (sharp_std _ _ _ HS). cbn [sharp_type]. replace (0.5 * (PI / 2))%R with (PI / 4)%R by lra. unfold sharp_angle. rewrite cos_PI4, sin_PI4. fold rsqrt2. pose proof rsqrt2_pos as HP.
  assert (HT : (thr < Rabs rsqrt2)%R). { rewrite Rabs_right by lra. pose proof thr_lt_half. pose proof rsqrt2_sq. nra. }
  split; [split; right; exact HT|lra].
Qed.
Lemma W_applicable n gs : NoDup (map gtarget gs) -> (forall g, In g gs -> gtarget g < n) -> applicable n (Wgates gs).
Proof.
  intros HN HR. split; [apply W_library, HN|]. 
  assert (G : forall h, In h (Wgates gs) -> sharp h /\ in_range n h).
  { intros h Hh. unfold Wgates in Hh. apply in_app_or in Hh. destruct Hh as [Hh|Hh].
    - apply in_flat_map in Hh. destruct Hh as (g & Hg & Hh). split; [|destruct (change_on g h Hh) as [E1 E2]; unfold in_range; rewrite E1, E2; auto].
      unfold basis_change in Hh. destruct (String.eqb _ _); [destruct Hh as [<-|[]]|destruct (String.eqb _ _); [destruct Hh as [<-|[]]; apply Rx2_sharp|destruct Hh]].
      apply (made_sharp "H" (gtarget g) (gtarget g) 0); [reflexivity|]. unfold make_gate. rewrite Nat.eqb_refl. reflexivity.
    - assert (HT : forall t, In t (map gtarget gs) -> t < n) by (intros t Ht; apply in_map_iff in Ht; destruct Ht as (g & <- & Hg); auto).
      pose proof (nodup_chain None _ HN) as HC. assert (HP : match @None nat with Some p => p < n | None => True end) by exact Logic.I. revert HC HP Hh. generalize (@None nat).
      revert HT. clear. induction (map gtarget gs) as [|t r IH]; intros HT prev HC HP Hh; [destruct Hh|]. cbn [ladder chain_ok] in *. destruct HC as [H1 H2]. apply in_app_or in Hh. destruct Hh as [Hh|Hh].
      + destruct prev as [p|]; [|destruct Hh]. destruct Hh as [<-|[]]. split; [|split; [apply HT; left; reflexivity|exact HP]].
        apply (made_sharp "cX" t p 0); [reflexivity|]. unfold make_gate. rewrite (neq_eqb _ _ H1). reflexivity.
      + apply (IH ltac:(intros; apply HT; right; assumption) (Some t)); [exact H2|apply HT; left; reflexivity|exact Hh]. }
  split; apply Forall_forall; intros h Hh; apply G, Hh.
Qed.
Lemma Rz_sharp t x : sharp (gRz t x).
Proof. apply (made_sharp "Rz" t t x); [reflexivity|]. exact (make_Rz t x). Qed.
Lemma cRz_sharp t a x : t <> a -> sharp (gcRz t a x).
Proof. intros H. apply (made_sharp "cRz" t a x); [reflexivity|]. exact (make_cRz t a x H). Qed.
Lemma X1_sharp t : sharp (gX1 t).
Proof. apply (made_sharp "X" t t 0); [reflexivity|]. unfold make_gate. rewrite Nat.eqb_refl. reflexivity. Qed.
Lemma qft_applicable n na k : na + k <= n -> applicable n (QftProofs.qft_gates na k).
Proof.
  intros H. split; [apply QftProofs.gates_lib|]. split; [|apply QftProofs.qft_range, H]. unfold QftProofs.qft_gates. apply Forall_app. split.
  - clear H. revert na. induction k as [|k IH]; intros na; cbn [QftProofs.stages]; [constructor|]. apply Forall_app. split; [|apply IH]. unfold QftProofs.stage. constructor.
    + apply (made_sharp "H" na na 0); [reflexivity|]. unfold make_gate. rewrite Nat.eqb_refl. reflexivity.
    + apply Forall_map, Forall_forall. intros j Hj. apply in_seq in Hj. eapply (made_sharp "cR"); [reflexivity|]. apply QftProofs.py_cR. lia.
  - apply Forall_map, Forall_forall. intros i Hi. apply in_seq in Hi. pose proof (Nat.mul_div_le k 2). apply (made_sharp "SWAP" (i + na) (k - 1 - i + na) 0); [reflexivity|].
    unfold make_gate. rewrite neq_eqb by lia. reflexivity.
Qed.
