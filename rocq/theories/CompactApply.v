(** The compact excitation circuits on the simulator: every gate is a library gate on the
    register, and all gates are sharp when the rotation angles are. *)
From Coq Require Import Reals String List Arith Bool Lia Lra.
From Verif Require Import CBase Result Bits Spec GateModel ComputerModel ApplyProofs SafeProofs GateProofs LibProofs CleanProofs SimProofs CircuitModel PyModel ExpCircuit PyApply CompactModel CompactRot CompactAct AnsatzSa.
Import ListNotations.
Local Open Scope nat_scope.

(** the rotation angles that occur for the angle [th] and rank [r] have cosines and sines that
    are 0 or above the threshold 1e-16 of the simulator *)
Definition sharp_amplitude (r : nat) (th : R) : Prop := forall k, 1 <= k <= 2 * r -> sharp_angle (th / 2 ^ k).

Lemma add_fixed n l t c circ circ' : no_angle_condition l = true -> t < n -> c < n -> applicable n circ -> add_gate (py_gate2 l t c) circ = Ok circ' -> applicable n circ'.
Proof.
  intros Hl Ht Hc HA E. unfold add_gate in E. destruct (py_gate2 l t c) as [g|] eqn:G; cbn [bind] in E; [|discriminate]. injection E as <-.
  assert (M : make_gate l t c 0 = Ok g). { unfold py_gate2 in G. destruct (existsb _ _); [exact G|]. destruct (Nat.eqb t c && _)%bool; [exact G|discriminate]. }
  apply applicable_app; [exact HA|]. destruct (make_gate_std _ _ _ _ _ M) as (p & _ & _ & E1 & E2). apply applicable_cons; [eapply lib_make; exact M|eapply made_sharp; eassumption|unfold in_range; rewrite E1, E2; now split|apply applicable_nil].
Qed.
Lemma sharp_angle_neg x : sharp_angle x -> sharp_angle (- x).
Proof. unfold sharp_angle. rewrite cos_neg, sin_neg, Rabs_Ropp. intros (H1 & H2). split; [exact H1|]. destruct H2 as [->|H2]; [left; lra|now right]. Qed.
Lemma Ry_sharp t x : sharp_angle (x / 2) -> sharp (gRy t x).
Proof.
  intros H. assert (M : make_gate "Ry" t t x = Ok (gRy t x)) by (unfold make_gate; rewrite Nat.eqb_refl; reflexivity).
  destruct (norm_4pi_half x) as (k & Ek). apply (sharp_std TRy (normalize_angle x (4 * PI))).
  - destruct (make_gate_std _ _ _ _ _ M) as (p & HS & _). revert HS. change (mapLabelToType "Ry") with TRy. intros [A B D E F]. constructor; try assumption; reflexivity.
  - cbn [sharp_type]. rewrite Ek. unfold sharp_angle in *. replace (0.5 * x)%R with (x / 2)%R by lra.
    assert (P : cos (x / 2 + 2 * PI * IZR k) = cos (x / 2) /\ sin (x / 2 + 2 * PI * IZR k) = sin (x / 2)).
    { destruct (Z_le_dec 0 k) as [Hk|Hk].
      - rewrite <- (Z2Nat.id k Hk), <- INR_IZR_INZ. replace (x / 2 + 2 * PI * INR (Z.to_nat k))%R with (x / 2 + 2 * INR (Z.to_nat k) * PI)%R by ring. now rewrite cos_period, sin_period.
      - set (m := Z.to_nat (- k)). assert (Em : IZR k = (- INR m)%R) by (unfold m; rewrite INR_IZR_INZ, Z2Nat.id by lia; rewrite opp_IZR; ring). rewrite Em.
        rewrite <- (cos_period (x / 2 + 2 * PI * - INR m) m), <- (sin_period (x / 2 + 2 * PI * - INR m) m). replace (x / 2 + 2 * PI * - INR m + 2 * INR m * PI)%R with (x / 2)%R by ring. tauto. }
    destruct P as (-> & ->). exact H.
Qed.
Lemma add_Ry n t z circ circ' x : z = RtoC x -> t < n -> sharp_angle (x / 2) -> applicable n circ -> add_gate (py_gate3c "Ry" t t z) circ = Ok circ' -> applicable n circ'.
Proof.
  intros -> Ht Hs HA E. rewrite py_Ry in E. unfold add_gate in E. cbn [bind] in E. injection E as <-. apply applicable_app; [exact HA|].
  assert (M : make_gate "Ry" t t x = Ok (gRy t x)) by (unfold make_gate; rewrite Nat.eqb_refl; reflexivity).
  apply applicable_cons; [eapply lib_make; exact M|now apply Ry_sharp|split; exact Ht|apply applicable_nil].
Qed.
Lemma add_control_applicable n num i t gsd cs : t < n -> Forall (fun c => c < n) cs -> forall j circ circ', applicable n circ -> add_control num i j t gsd cs circ = Ok circ' -> applicable n circ'.
Proof.
  intros Ht. induction 1 as [|c cs Hc _ IH]; intros j circ circ' HA E; cbn [add_control] in E; [injection E as <-; exact HA|].
  destruct (Nat.eqb _ 0); [|now apply (IH (S j) circ)]. destruct (_ || _)%bool; [|destruct gsd]; (eapply add_fixed; [| | |exact HA|exact E]; [reflexivity|exact Ht|exact Hc]).
Qed.
Lemma ry_sign_unit i r gs qe : (gs = 1 \/ gs = -1)%R -> (ry_sign i r gs qe = 1 \/ ry_sign i r gs qe = -1)%R.
Proof.
  intros Hg. unfold ry_sign. rewrite even_sign. assert (P : (ry_prefactor r = 1 \/ ry_prefactor r = -1)%R) by (unfold ry_prefactor; repeat destruct (_ && _)%bool; try destruct (Nat.eqb r 1); auto).
  destruct qe, (Nat.even i); auto; destruct P as [-> | ->], Hg as [-> | ->]; ((left; ring) || (right; ring)).
Qed.
Lemma mcRy_applicable n r th t cc ca gc gs qe circ : (gs = 1 \/ gs = -1)%R -> ca <> [] -> length ca + length cc + length gc <= 2 * r -> t < n -> Forall (fun c => c < n) (ca ++ rev cc ++ gc) -> sharp_amplitude r th ->
  multi_qubit_controlled_Ry (RtoC th) t cc ca gc gs qe = Ok circ -> applicable n circ.
Proof.
  intros Hg Na L Ht Hc Hs. unfold multi_qubit_controlled_Ry. cbv zeta. set (cs := (ca ++ rev cc ++ gc)%list) in *.
  assert (Lc : 1 <= length cs <= 2 * r) by (unfold cs; rewrite !app_length, rev_length; destruct ca; [contradiction|cbn [length] in *; lia]).
  apply (foreach_inv (applicable n)); [|apply applicable_nil]. intros i s s' _ HA E.
  destruct (add_gate _ s) as [s1|] eqn:E1; cbn [bind] in E; [|discriminate].
  eapply add_control_applicable; [exact Ht|exact Hc| |exact E].
  set (sg := ry_sign i (length ca) gs qe) in *. eapply (add_Ry n t _ s s1 (sg * (th * / INR (2 ^ (length cs - 1))))); [|exact Ht| |exact HA|exact E1]; [generalize (/ INR (2 ^ (length cs - 1)))%R, sg; intros w v; apply C_ext; cbn; ring|].
  assert (Ea : (th * / INR (2 ^ (length cs - 1)) / 2 = th / 2 ^ length cs)%R).
  { rewrite pow_INR. change (INR 2) with 2%R. replace (length cs) with (S (length cs - 1)) at 2 by lia. cbn [pow]. field. apply pow_nonzero. lra. }
  pose proof (Hs (length cs) Lc) as HS. destruct (ry_sign_unit i (length ca) gs qe Hg) as [Eg|Eg]; fold sg in Eg; rewrite Eg.
  - replace (1 * (th * / INR (2 ^ (length cs - 1))) / 2)%R with (th / 2 ^ length cs)%R by (rewrite <- Ea; field; apply not_0_INR, Nat.pow_nonzero; lia). exact HS.
  - replace (-1 * (th * / INR (2 ^ (length cs - 1))) / 2)%R with (- (th / 2 ^ length cs))%R by (rewrite <- Ea; field; apply not_0_INR, Nat.pow_nonzero; lia). now apply sharp_angle_neg.
Qed.
Lemma qexc_applicable n r th cre ann gc gs qe circ : (gs = 1 \/ gs = -1)%R -> length ann + length cre - 1 + length gc <= 2 * r -> Forall (fun c => c < n) cre -> Forall (fun c => c < n) ann -> Forall (fun c => c < n) gc -> sharp_amplitude r th ->
  qubit_excitation (RtoC th) cre ann gc gs qe = Ok circ -> applicable n circ.
Proof.
  intros Hg L HC HA HG Hs. unfold qubit_excitation. destruct cre as [|c0 cr].
  { cbn [tl foreach bind]. destruct (foreach (tl ann) _ []) as [x|]; cbn [bind]; [|discriminate]. destruct (py_head ann); cbn [bind py_head]; discriminate. }
  destruct ann as [|a0 ar]; [cbn [tl foreach bind]; destruct (foreach cr _ []); cbn [bind py_head]; discriminate|].
  cbn [tl py_head bind]. inversion HC as [|? ? C1 C2]; subst. inversion HA as [|? ? A1 A2]; subst. rewrite Forall_forall in C2, A2.
  destruct (foreach cr _ []) as [x|] eqn:E1; cbn [bind]; [|discriminate]. destruct (foreach ar _ x) as [y|] eqn:E2; cbn [bind]; [|discriminate]. destruct (add_gate _ y) as [z|] eqn:E3; cbn [bind]; [|discriminate].
  destruct (multi_qubit_controlled_Ry _ _ _ _ _ _ _) as [ry|] eqn:E4; cbn [bind]; [|discriminate]. intros E. injection E as <-.
  assert (X : applicable n x) by (revert E1; apply (foreach_inv (applicable n)); [|apply applicable_nil]; intros t s s' It HS E; eapply add_fixed; [| | |exact HS|exact E]; [reflexivity|now apply C2|exact C1]).
  assert (Y : applicable n y) by (revert E2; apply (foreach_inv (applicable n)); [|exact X]; intros t s s' It HS E; eapply add_fixed; [| | |exact HS|exact E]; [reflexivity|now apply A2|exact A1]).
  assert (Z : applicable n z) by (eapply add_fixed; [| | |exact Y|exact E3]; [reflexivity|exact A1|exact C1]).
  apply applicable_app; [exact Z|]. apply applicable_app; [|now apply applicable_adjoint].
  eapply (mcRy_applicable n r); [exact Hg| | |exact C1| |exact Hs|exact E4]; [discriminate|cbn [length] in *; lia|].
  apply Forall_app. split; [exact HA|]. apply Forall_app. split; [apply Forall_rev, Forall_forall; exact C2|exact HG].
Qed.
Lemma indices_lt n idxs : Forall (fun c => c < n) idxs -> idxs <> [] -> Forall (fun c => c < n) (cnot_indices idxs).
Proof.
  intros H Ne. unfold cnot_indices. apply Forall_rev. apply Forall_forall. intros k Ik. apply filter_In in Ik. destruct Ik as (Ik & _). apply in_seq in Ik.
  assert (M : list_max idxs < n). { apply list_max_lt; assumption. } lia.
Qed.
Lemma stair_applicable n l : Forall (fun c => c < n) l -> forall circ circ', applicable n circ -> add_stair l circ = Ok circ' -> applicable n circ'.
Proof.
  induction 1 as [|x l Hx HF IH]; intros circ circ' HA E; [injection E as <-; exact HA|]. destruct l as [|y r]; [injection E as <-; exact HA|]. cbn [add_stair] in E.
  destruct (add_gate _ circ) as [c|] eqn:E1; cbn [bind] in E; [|discriminate]. apply (IH c); [|exact E]. inversion HF; subst. eapply add_fixed; [| | |exact HA|exact E1]; [reflexivity|assumption|exact Hx].
Qed.
Lemma sign_applicable n cre ann circ : Forall (fun c => c < n) cre -> Forall (fun c => c < n) ann -> fermion_sign_circuit cre ann = Ok circ -> applicable n circ.
Proof.
  intros HC HA. unfold fermion_sign_circuit. cbv zeta. set (idxs := (cre ++ ann)%list). assert (HI : Forall (fun c => c < n) idxs) by now apply Forall_app.
  destruct idxs as [|i0 ir] eqn:Ei; [discriminate|]. pose proof (indices_lt n (i0 :: ir) HI ltac:(discriminate)) as HL. destruct (cnot_indices (i0 :: ir)) as [|x l] eqn:El; [intros E; injection E as <-; apply applicable_nil|].
  destruct (add_stair (x :: l) []) as [c|] eqn:E1; cbn [bind]; [|discriminate]. destruct cre as [|c0 cr]; [cbn [py_head bind]; discriminate|]. cbn [py_head bind]. intros E.
  eapply add_fixed; [| | |eapply stair_applicable; [exact HL|apply applicable_nil|exact E1]|exact E]; [reflexivity|now inversion HC|]. rewrite Forall_forall in HL. apply HL. apply last_In. discriminate.
Qed.
Theorem compact_applicable n th cre ann qe circ : Forall (fun c => c < n) cre -> Forall (fun c => c < n) ann -> sharp_amplitude (length ann) th ->
  compact_excitation_circuit (RtoC th) cre ann qe = Ok circ -> applicable n circ.
Proof.
  intros HC HA Hs. unfold compact_excitation_circuit. destruct (Nat.eqb_spec (length cre) (length ann)) as [EL|]; cbn [negb]; [|discriminate]. cbv zeta.
  set (cu := filter (fun x => negb (mem x ann)) cre). set (au := filter (fun x => negb (mem x cre)) ann). set (gc := nodup Nat.eq_dec (filter (fun x => mem x ann) cre)).
  assert (Fsub : forall f l, Forall (fun c => c < n) l -> Forall (fun c => c < n) (filter f l)) by (intros f l Hl; rewrite Forall_forall in *; intros x Ix; apply filter_In in Ix; now apply Hl).
  assert (Hcu : Forall (fun c => c < n) cu) by now apply Fsub. assert (Hau : Forall (fun c => c < n) au) by now apply Fsub.
  assert (Hgc : Forall (fun c => c < n) gc). { rewrite Forall_forall in *. intros x Ix. apply nodup_In in Ix. apply filter_In in Ix. now apply HC. }
  destruct (Nat.ltb_spec 1 (length gc)) as [|Lg]; [discriminate|].
  destruct (match gc with [] => Ok false | q :: _ => _ end) as [u|]; cbn [bind]; [|discriminate].
  destruct (if qe then Ok [] else if u then fermion_sign_circuit cu au else fermion_sign_circuit cre ann) as [st|] eqn:E1; cbn [bind]; [|discriminate].
  destruct (qubit_excitation _ _ _ _ _ _) as [ex|] eqn:E2; cbn [bind]; [|discriminate]. intros E. injection E as <-.
  assert (LL : forall f (l : list nat), length (filter f l) <= length l) by (intros f l; induction l as [|x l IH]; [reflexivity|]; cbn [filter]; destruct (f x); cbn [length]; lia).
  pose proof (LL (fun x => negb (mem x ann)) cre) as L1. pose proof (LL (fun x => negb (mem x cre)) ann) as L2. fold cu in L1. fold au in L2.
  assert (ST : applicable n st). { destruct qe; [injection E1 as <-; apply applicable_nil|]. destruct u; eapply sign_applicable; [| |exact E1| | |exact E1]; assumption. }
  assert (EX : applicable n ex).
  { eapply (qexc_applicable n (length ann)); [| |exact Hcu|exact Hau|exact Hgc|exact Hs|exact E2].
    - destruct gc; auto.
    - destruct cu as [|x cu'] eqn:Ecu; [exfalso; unfold qubit_excitation in E2; cbn [tl foreach bind] in E2; destruct (foreach (tl au) _ []); cbn [bind] in E2; [|discriminate]; destruct (py_head au); cbn [bind py_head] in E2; discriminate|]. cbn [length] in *. lia. }
  apply applicable_app; [exact ST|]. apply applicable_app; [exact EX|]. destruct qe; [apply applicable_nil|now apply applicable_adjoint].
Qed.
