(** Corollaries about the simulator used by the property file. *)
From Coq Require Import Reals String List Arith Lia Bool Lra.
From Verif Require Import CBase Result Bits Spec GateModel ComputerModel LoopProofs ApplyProofs SafeProofs GateProofs LibProofs CleanProofs.
Import ListNotations.

Lemma one_qubit_action q g : wf_computer q -> library_gate g -> sharp g ->
  gtarget g = gcontrol g -> gtarget g < nqubit q ->
  exists q', apply_gate q g = Ok q' /\ nqubit q' = nqubit q /\ length (coeff q') = 2 ^ nqubit q /\
    (forall I, amp (coeff q') I = act1 (gmat g) (gtarget g) (amp (coeff q)) I) /\
    none_ops q' = S (none_ops q) /\ ntwo_ops q' = ntwo_ops q /\ wf_computer q'.
Proof.
  intros HQ HL HS E Ht.
  destruct (apply_gate_correct q g HQ) as (q' & EQ & A).
  { split; [exact Ht|rewrite <- E; exact Ht]. }
  { apply library_clean; assumption. }
  exists q'; split; [exact EQ|]. pose proof (applied_wf _ _ _ A) as W.
  destruct A as (N & L & S & O & T & _). unfold gate_act in S. rewrite E, Nat.eqb_refl in *.
  repeat split; auto; try lia; apply W.
Qed.

Lemma two_qubit_action q g : wf_computer q -> library_gate g -> sharp g ->
  gtarget g <> gcontrol g -> gtarget g < nqubit q -> gcontrol g < nqubit q ->
  exists q', apply_gate q g = Ok q' /\ nqubit q' = nqubit q /\ length (coeff q') = 2 ^ nqubit q /\
    (forall I, amp (coeff q') I = act2 (gmat g) (gtarget g) (gcontrol g) (amp (coeff q)) I) /\
    none_ops q' = none_ops q /\ ntwo_ops q' = S (ntwo_ops q) /\ wf_computer q'.
Proof.
  intros HQ HL HS E Ht Hc.
  destruct (apply_gate_correct q g HQ) as (q' & EQ & A).
  { split; assumption. }
  { apply library_clean; assumption. }
  exists q'; split; [exact EQ|]. pose proof (applied_wf _ _ _ A) as W.
  apply Nat.eqb_neq in E. destruct A as (N & L & S & O & T & _). unfold gate_act in S. rewrite E in *.
  repeat split; auto; try lia; apply W.
Qed.

(** gate types for which no angle condition is needed *)
Definition no_angle_condition (type : string) : bool :=
  negb (String.eqb type "Rx" || String.eqb type "Ry" || String.eqb type "A").
Lemma no_angle_sharp type t c x g : no_angle_condition type = true -> make_gate type t c x = Ok g -> sharp g.
Proof.
  intros HN HM. destruct (make_gate_std _ _ _ _ _ HM) as (p & HS & HL & _).
  apply (sharp_std _ p g HS). unfold no_angle_condition in HN.
  unfold mapLabelToType.
  repeat match goal with |- context [String.eqb ?a ?b] => destruct (String.eqb_spec a b) as [->|?]; try exact Logic.I; try discriminate HN end.
Qed.

Lemma fast_safe_agree q gs : wf_computer q -> Forall library_gate gs -> Forall sharp gs ->
  Forall (in_range (nqubit q)) gs ->
  exists q', apply_circuit q gs = Ok q' /\ apply_circuit_safe q gs = Ok q' /\
    (forall I, amp (coeff q') I = circ_act gs (amp (coeff q)) I) /\ wf_computer q'.
Proof.
  intros HQ HL HS HR.
  destruct (apply_circuit_correct gs q HQ HR) as (q1 & E1 & A1).
  { rewrite Forall_forall in *. intros g Hg. apply library_clean; auto. }
  destruct (apply_circuit_safe_correct gs q HQ HR) as (q2 & E2 & A2).
  { rewrite Forall_forall in *. intros g Hg. apply library_clean_safe. apply (HS g Hg). }
  destruct A1 as (N1 & L1 & S1 & O1 & T1 & W1), A2 as (N2 & L2 & S2 & O2 & T2 & W2).
  assert (EQ : q1 = q2).
  { destruct q1 as [n1 v1 w1 o1 t1], q2 as [n2 v2 w2 o2 t2]; simpl in *. f_equal; try congruence.
    apply (coeff_eq _ _ (nqubit q)); auto. intros I. rewrite S1, S2; reflexivity. }
  subst q2. exists q1; repeat split; auto; unfold nbasis; rewrite N1; auto.
Qed.

(** squared norm of a register *)
Definition norm2 (n : nat) (psi : state) : R := Re (inner n psi psi).
Lemma circuit_norm q gs : wf_computer q -> Forall library_gate gs -> Forall sharp gs ->
  Forall (in_range (nqubit q)) gs ->
  exists q', apply_circuit q gs = Ok q' /\
    inner (nqubit q) (amp (coeff q')) (amp (coeff q')) = inner (nqubit q) (amp (coeff q)) (amp (coeff q)).
Proof.
  intros HQ HL HS HR. destruct (fast_safe_agree q gs HQ HL HS HR) as (q' & E & _ & S & _).
  exists q'; split; [exact E|]. rewrite (inner_ext _ _ _ _ _ S S). apply circ_preserves_inner; assumption.
Qed.

(** *** out-of-range targets *)
Lemma target_n_oob n (q : computer) (g : gate) : wf_computer q -> nqubit q = n ->
  make_gate "X" n n 0 = Ok g -> apply_gate q g = Throw UB_oob.
Proof.
  intros [Hv _] Hn HM. unfold make_gate in HM. 
  destruct (Nat.eqb_spec n n) as [_|]; [|congruence]. simpl in HM. injection HM as <-.
  unfold apply_gate, gnqubits. cbn [gtarget gcontrol]. rewrite Nat.eqb_refl. cbn [Nat.eqb].
  unfold apply_1qubit_gate, apply1_vec. cbn [gtarget gmat]. unfold nbasis in *. rewrite Hn in *.
  change (m_X 0 0) with C0. change (m_X 1 1) with C0. change (m_X 0 1) with C1. change (m_X 1 0) with C1.
  assert (A : above (abs2 C0 C0) = false).
  { unfold above, abs2. apply Rltb_false. rewrite Cabs_C0. unfold thr; lra. }
  rewrite A. cbn [andb]. rewrite chained_spec, Ceqb_refl. unfold blocks1.
  cbn [while_]. rewrite Nat.add_0_l, Nat.leb_refl. unfold inner1. rewrite Nat.sub_0_r.
  pose proof (pow2_pos n) as P. destruct (2 ^ n) as [|N] eqn:EN; [lia|].
  cbn [seq foreach]. unfold body_swap. rewrite (vget_ok _ _ C0) by lia. rewrite bind_Ok.
  rewrite vget_oob by lia. reflexivity.
Qed.

(** every one-qubit gate with a non-diagonal matrix writes out of bounds *)
Lemma target_above_noop q g : wf_computer q -> gtarget g = gcontrol g -> nqubit q < gtarget g ->
  exists q', apply_gate q g = Ok q' /\ coeff q' = coeff q.
Proof.
  intros [Hv _] E Ht. unfold apply_gate, gnqubits. rewrite <- E, Nat.eqb_refl. cbn [Nat.eqb].
  unfold apply_1qubit_gate, apply1_vec, nbasis.
  assert (P : 2 ^ nqubit q < 2 ^ gtarget g) by (apply Nat.pow_lt_mono_r; lia).
  assert (B1 : forall s body v, 2 ^ nqubit q < s + 2 ^ gtarget g ->
     (do r <- blocks1 (S (2 ^ nqubit q)) (2 ^ nqubit q) s (s + 2 ^ gtarget g) (2 * 2 ^ gtarget g) body v; Ok (snd r)) = Ok v).
  { intros s body v H. unfold blocks1. cbn [while_]. destruct (Nat.leb_spec (s + 2 ^ gtarget g) (2 ^ nqubit q)); [lia|]. reflexivity. }
  assert (B2 : forall body v, 
     (do r <- blocks2 (S (2 ^ nqubit q)) (2 ^ nqubit q) 0 (2 ^ gtarget g) (0 + 2 ^ gtarget g) (2 * 2 ^ gtarget g) body v; Ok (snd r)) = Ok v).
  { intros body v. unfold blocks2. cbn [while_]. destruct (Nat.leb_spec (0 + 2 ^ gtarget g) (2 ^ nqubit q)); [lia|]. reflexivity. }
  destruct (above _ && above _).
  - rewrite B2, !bind_Ok. eexists; split; [reflexivity|]. reflexivity.
  - destruct (above _).
    + destruct (negb (Ceqb (gmat g 0 0) C1)); rewrite ?B1 by lia; rewrite bind_Ok;
      destruct (negb (Ceqb (gmat g 1 1) C1)); rewrite ?B1 by lia; rewrite !bind_Ok; eexists; split; reflexivity.
    + destruct (cpp_chained_eq_one _ _); rewrite B1 by lia; rewrite !bind_Ok; eexists; split; reflexivity.
Qed.

(** *** initialisation (C26) *)
Lemma new_computer_ket0 n I : amp (coeff (new_computer n)) I = ket 0 I.
Proof.
  unfold amp, new_computer, ket; simpl. pose proof (pow2_pos n) as P.
  rewrite nth_list_set by (unfold zeros; rewrite repeat_length; exact P).
  destruct (I =? 0); [reflexivity|]. unfold zeros. apply nth_repeat.
Qed.
Lemma new_computer_wf n : wf_computer (new_computer n).
Proof. unfold wf_computer, nbasis; simpl. rewrite list_set_length. unfold zeros. rewrite repeat_length. auto. Qed.
Lemma nth_map_zero {A} (l : list A) I : nth I (map (fun _ => C0) l) C0 = C0.
Proof. revert I; induction l; destruct I; simpl; auto. Qed.
Lemma null_state_zero q I : amp (coeff (null_state q)) I = C0.
Proof. unfold amp, null_state, set_coeff; simpl. apply nth_map_zero. Qed.
Lemma reset_ket0 q : wf_computer q -> exists q', reset q = Ok q' /\
  (forall I, amp (coeff q') I = ket 0 I) /\ nqubit q' = nqubit q /\ wf_computer q'.
Proof.
  intros [Hv Hw]. unfold reset, null_state, set_coeff; simpl. pose proof (pow2_pos (nqubit q)) as P. unfold nbasis in *.
  rewrite vset_ok by (rewrite map_length; lia). rewrite bind_Ok. eexists; split; [reflexivity|].
  simpl. repeat split; simpl; auto.
  - intros I. unfold amp, ket. rewrite nth_list_set by (rewrite map_length; lia).
    destruct (I =? 0); [reflexivity|apply nth_map_zero].
  - rewrite list_set_length, map_length; exact Hv.
Qed.
(** amplitude list given to set_state: the last entry for an index wins *)
Definition last_entry (l : list (nat * C)) (I : nat) : C :=
  match find (fun p => fst p =? I) (rev l) with Some p => snd p | None => C0 end.
Lemma set_state_spec q l : wf_computer q -> Forall (fun p => fst p < 2 ^ nqubit q) l ->
  exists q', set_state q l = Ok q' /\ (forall I, amp (coeff q') I = last_entry l I) /\
    nqubit q' = nqubit q /\ wf_computer q' /\ none_ops q' = none_ops q /\ ntwo_ops q' = ntwo_ops q.
Proof.
  intros [Hv Hw] HL. unfold set_state, nbasis in *.
  assert (G : forall l v, length v = 2 ^ nqubit q -> Forall (fun p => fst p < 2 ^ nqubit q) l ->
     exists v', foreach l (fun p v => vset v (fst p) (snd p)) v = Ok v' /\ length v' = 2 ^ nqubit q /\
       forall I, nth I v' C0 = match find (fun p => fst p =? I) (rev l) with Some p => snd p | None => nth I v C0 end).
  { clear l HL. induction l as [|[i x] l IH]; intros v Hl HF.
    - exists v; split; [reflexivity|]. split; [exact Hl|]. reflexivity.
    - inversion HF as [|? ? H1 H2]; subst. cbn [foreach fst snd]. simpl in H1. rewrite vset_ok by lia. rewrite bind_Ok.
      destruct (IH (list_set v i x)) as (v' & E & L & H); auto.
      { rewrite list_set_length; exact Hl. }
      exists v'; split; [exact E|]. split; [exact L|]. intros I. rewrite H. cbn [rev].
      assert (FA : forall (P : nat * C -> bool) l1 l2, find P (l1 ++ l2) =
        match find P l1 with Some y => Some y | None => find P l2 end).
      { intros P l1 l2. induction l1 as [|y l1 IHl]; simpl; [reflexivity|]. destruct (P y); auto. }
      rewrite FA. destruct (find (fun p => fst p =? I) (rev l)); [reflexivity|].
      rewrite nth_list_set by lia. cbn [find fst]. rewrite (Nat.eqb_sym I i). destruct (i =? I); reflexivity. }
  destruct (G l (map (fun _ => C0) (coeff q))) as (v' & E & L & H); [rewrite map_length; exact Hv|exact HL|].
  rewrite E, bind_Ok. eexists; split; [reflexivity|]. simpl. repeat split; simpl; auto.
  intros I. unfold amp, last_entry. rewrite H. destruct (find _ _); [reflexivity|apply nth_map_zero].
Qed.
Lemma set_state_oob q l p : wf_computer q -> In p l -> 2 ^ nqubit q <= fst p -> set_state q l = Throw UB_oob.
Proof.
  intros [Hv Hw] HI HP. unfold set_state, nbasis in *.
  assert (G : forall l v, length v = 2 ^ nqubit q -> In p l -> foreach l (fun p v => vset v (fst p) (snd p)) v = Throw UB_oob).
  { clear l HI. induction l as [|x l IH]; intros v Hl HI; [contradiction|]. cbn [foreach].
    destruct (Nat.lt_ge_cases (fst x) (2 ^ nqubit q)) as [L|L].
    - rewrite vset_ok by lia. rewrite bind_Ok. apply IH; [rewrite list_set_length; exact Hl|].
      destruct HI as [->|HI]; [lia|exact HI].
    - rewrite vset_oob by lia. reflexivity. }
  rewrite G; auto. rewrite map_length; exact Hv.
Qed.

(** *** make_gate rejects everything else (C05) *)
Definition one_qubit_labels := ["X"; "Y"; "Z"; "H"; "R"; "Rx"; "Ry"; "Rz"; "V"; "S"; "T"; "I"]%string.
Definition two_qubit_labels := ["A"; "cX"; "CNOT"; "acX"; "aCNOT"; "cY"; "cZ"; "cR"; "cV"; "cRz"; "SWAP"]%string.
Lemma make_gate_accepts type t c x :
  if in_dec String.string_dec type (if t =? c then one_qubit_labels else two_qubit_labels)
  then exists g, make_gate type t c x = Ok g /\ glabel g = type /\ gtarget g = t /\ gcontrol g = c
  else make_gate type t c x = Throw InvalidArg.
Proof.
  unfold make_gate. destruct (t =? c).
  - destruct (in_dec String.string_dec type one_qubit_labels) as [H|H].
    + simpl in H. repeat (destruct H as [<-|H]; [eexists; split; [reflexivity|auto]|]). contradiction.
    + repeat match goal with |- context [String.eqb ?a ?b] => destruct (String.eqb_spec a b) as [->|?];
        [exfalso; apply H; simpl; tauto|] end. reflexivity.
  - destruct (in_dec String.string_dec type two_qubit_labels) as [H|H].
    + simpl in H. repeat (destruct H as [<-|H]; [eexists; split; [reflexivity|auto]|]). contradiction.
    + repeat match goal with |- context [String.eqb ?a ?b] => destruct (String.eqb_spec a b) as [->|?];
        [exfalso; apply H; simpl; tauto|] end. reflexivity.
Qed.

(** parameters after construction (C11) *)
Lemma make_gate_param type t c x g v b : make_gate type t c x = Ok g -> gparam g = Some (v, b) ->
  exists (k : Z), let T := (if (String.eqb type "R" || String.eqb type "cR" || String.eqb type "A")%bool then 2 * PI else 4 * PI)%R in
    (v = x - T * IZR k /\ - T / 2 <= v <= T / 2)%R /\ gmat g = type_mat (mapLabelToType type) x.
Proof.
  assert (P2 : (0 < 2 * PI)%R) by (pose proof PI_RGT_0; lra).
  assert (P4 : (0 < 4 * PI)%R) by (pose proof PI_RGT_0; lra).
  destruct (normalize_angle_spec x _ P2) as (k2 & E2 & B2).
  destruct (normalize_angle_spec x _ P4) as (k4 & E4 & B4).
  unfold make_gate. destruct (t =? c);
  repeat (match goal with |- context [if ?b then _ else _] =>
    match b with
    | (String.eqb ?a ?l) => destruct (String.eqb_spec a l) as [->|?]
    | (String.eqb ?a ?l || String.eqb ?a ?l')%bool =>
        destruct (String.eqb_spec a l) as [->|?]; [|destruct (String.eqb_spec a l') as [->|?]]; cbn [orb]
    end end); intros E EP; try discriminate E; injection E as <-; simpl in EP; try discriminate EP; injection EP as <- <-;
  cbn [String.eqb Ascii.eqb Bool.eqb orb gmat].
  all: first [ exists k2; split; [split; assumption|]; cbn;
                 first [apply m_R_norm|apply m_cR_norm|apply m_A_norm]
             | exists k4; split; [split; assumption|]; cbn;
                 first [apply m_Rx_norm|apply m_Ry_norm|apply m_Rz_norm|apply m_cRz_norm] ].
Qed.
