(** Hadamard tests: an ancilla qubit a entangled with two branches. *)
From Coq Require Import Reals String List Arith Bool Lia Lra.
From Verif Require Import CBase Result Bits Spec OpSpec GateModel ComputerModel SafeProofs GateProofs LibProofs CleanProofs SimProofs CircuitModel PauliProofs OperatorModel MeasureModel MeasureProofs QftSpec GateEval ThreeQubit PyModel PyApply ExpSpec ExpProofs ExpCircuit FermiProofs EigModel GradModel GradSpec GradProofs QkModel QkProofs PropOperator PropMeasure PropGrad PropQk.
From Verif Require TrotterProofs PropPy QftProofs.
Import ListNotations.
Local Open Scope nat_scope.

(** a state that does not depend on qubit a *)
Definition blind (a : nat) (psi : state) : Prop := forall I, psi (flip I a) = psi I.
Lemma upd_flip I t a b : t <> a -> upd (flip I a) t b = flip (upd I t b) a.
Proof. intros H. apply bits_ext. intros k. rewrite bit_upd, !bit_flip, bit_upd. destruct (Nat.eqb_spec k t), (Nat.eqb_spec k a); subst; try reflexivity. lia. Qed.
Lemma blind_gate a g psi : off a g -> blind a psi -> blind a (gate_act g psi).
Proof.
  intros [H1 H2] HB I. unfold gate_act. destruct (Nat.eqb (gtarget g) (gcontrol g)).
  - unfold act1. rewrite bit_flip, (neq_eqb (gtarget g) a), !upd_flip, !HB by auto. reflexivity.
  - unfold act2. rewrite !bit_flip, (neq_eqb (gtarget g) a), (neq_eqb (gcontrol g) a), !(upd_flip I), !upd_flip, !HB by auto. reflexivity.
Qed.
Lemma blind_circ a gs : Forall (off a) gs -> forall psi, blind a psi -> blind a (circ_act gs psi).
Proof. induction 1 as [|g gs Hg _ IH]; intros psi HB; [exact HB|]. rewrite circ_act_cons. apply IH. now apply blind_gate. Qed.
Lemma blind_ext a p q : p == q -> blind a p -> blind a q.
Proof. intros H HB I. rewrite <- !(H _). apply HB. Qed.
Lemma blind_scale a k p : blind a p -> blind a (sscale k p).
Proof. intros H I. unfold sscale. now rewrite H. Qed.
Lemma string_off n P : StringOn n P -> Forall (off n) P.
Proof. intros H. destruct (string_on n P H) as (HP & _ & HR). rewrite Forall_forall in *. intros g Hg. pose proof (pauli_gate_1q g (HP g Hg)) as E. specialize (HR g Hg). split; lia. Qed.
Lemma range_off n gs : Forall (in_range n) gs -> Forall (off n) gs.
Proof. apply Forall_impl. intros g (A & B). split; lia. Qed.
Lemma blind_euler n y P psi : StringOn n P -> blind n psi -> blind n (euler y (circ_act P) psi).
Proof. intros HP HB I. unfold euler, sadd, sscale. rewrite HB. now rewrite (blind_circ n P (string_off n P HP) psi HB). Qed.
Lemma blind_eulers n l : Forall (fun t => StringOn n (snd t)) l -> forall psi, blind n psi -> blind n (TrotterProofs.eulers l psi).
Proof. induction 1 as [|[y P] l HP _ IH]; intros psi HB; [exact HB|]. cbn [TrotterProofs.eulers]. apply IH. now apply blind_euler. Qed.
Lemma eulers_scale l : forall k psi, TrotterProofs.eulers l (sscale k psi) == sscale k (TrotterProofs.eulers l psi).
Proof.
  induction l as [|[y P] l IH]; intros k psi; [apply seq_refl|]. cbn [TrotterProofs.eulers]. eapply seq_trans; [|apply IH]. apply TrotterProofs.eulers_ext. intros I. unfold euler, sadd.
  pose proof (circ_act_scale P k psi I) as E. unfold sscale in *. rewrite E. ring.
Qed.
Lemma eulers_controlled n l phi psi : Forall (fun t => StringOn n (snd t)) l ->
  TrotterProofs.eulers l (controlled (fun I => bit I n) phi psi) == controlled (fun I => bit I n) (TrotterProofs.eulers l phi) (TrotterProofs.eulers l psi).
Proof.
  intros H. revert phi psi. induction H as [|[y P] l HP _ IH]; intros phi psi; [apply seq_refl|]. cbn [TrotterProofs.eulers]. eapply seq_trans; [|apply IH]. apply TrotterProofs.eulers_ext.
  intros I. unfold euler, sadd, sscale. rewrite (circ_controlled n (fun b => b) P (string_off n P HP) phi psi I). unfold controlled. destruct (bit I n); reflexivity.
Qed.
Lemma eulers_zero_state l : TrotterProofs.eulers l szero == szero.
Proof. eapply seq_trans; [apply TrotterProofs.eulers_ext with (b := sscale C0 szero)|]; [intros I; unfold sscale, szero; ring|]. eapply seq_trans; [apply eulers_scale|]. intros I. unfold sscale, szero. ring. Qed.

(** ---- the gates of the test ---- *)
Lemma X_swap a A B : blind a A -> blind a B -> gate_act (gX1 a) (controlled (fun I => bit I a) A B) == controlled (fun I => bit I a) B A.
Proof.
  intros HA HB I. unfold gX1. rewrite act_1, ev_X. unfold controlled. rewrite bit_flip, Nat.eqb_refl, HA, HB. destruct (bit I a); reflexivity.
Qed.
Lemma H_split a phi : blind a phi -> gate_act (gHd a) (controlled (fun I => bit I a) szero phi) == sscale (RtoC rsqrt2) phi.
Proof.
  intros HB I. unfold gHd. rewrite act_1, ev_H. unfold controlled, sscale, szero. rewrite !bit_upd, Nat.eqb_refl. f_equal.
  assert (E : phi (upd I a false) = phi I). { destruct (bit I a) eqn:EB; [rewrite <- (HB I), flip_upd, EB; reflexivity|]. rewrite <- EB, upd_id. reflexivity. } rewrite E. ring.
Qed.
Definition gctl (P : gate) (a : nat) : gate :=
  mkGate ("c" ++ glabel P)%string (gtarget P) a (if String.eqb (glabel P) "X" then m_cX else if String.eqb (glabel P) "Y" then m_cY else m_cZ) None.
Lemma make_ctl P a : pauli_gate P -> gtarget P <> a -> py_gate2 ("c" ++ glabel P)%string (gtarget P) a = Ok (gctl P a) /\ make_gate ("c" ++ glabel P)%string (gtarget P) a 0 = Ok (gctl P a).
Proof.
  intros (HP & _) H. unfold gctl, py_gate2, make_gate. destruct (pauli_label_cases _ HP) as [-> |[-> | ->]]; cbn [String.append String.eqb Ascii.eqb Bool.eqb existsb orb]; rewrite (neq_eqb _ _ H); split; reflexivity.
Qed.
Lemma ev_cY t c psi I : act2 m_cY t c psi I = if bit I c then act1 m_Y t psi I else psi I.
Proof.
  unfold act1, act2, m_cY, m_Y, mk44. destruct (bit I c) eqn:E, (bit I t) eqn:F; cbn [b2n nth Nat.mul Nat.add andb]; rewrite ?(upd_id' I c _ E), ?(upd_id' I t _ F); ring.
Qed.
Lemma ctl_gate P a A B : pauli_gate P -> gtarget P <> a -> gate_act (gctl P a) (controlled (fun I => bit I a) A B) == controlled (fun I => bit I a) (gate_act P A) B.
Proof.
  intros HP H I. assert (EB : forall (f : bool -> bool) I, bit (upd I (gtarget P) (f (bit I (gtarget P)))) a = bit I a) by (intros; rewrite bit_upd, (neq_eqb a (gtarget P)) by auto; reflexivity).
  assert (EA : bit I a = true -> forall psi, gate_act P (controlled (fun I => bit I a) A psi) I = gate_act P A I).
  { intros E psi. assert (HO : off a P) by (pose proof (pauli_gate_1q P HP); split; lia). rewrite (gate_controlled a (fun b => b) P A psi HO I). unfold controlled. now rewrite E. }
  assert (EP : gate_act P (controlled (fun I => bit I a) A B) I = act1 (gmat P) (gtarget P) (controlled (fun I => bit I a) A B) I) by (unfold gate_act; rewrite (pauli_gate_1q P HP), Nat.eqb_refl; reflexivity).
  unfold gctl. destruct HP as (HL & HE). unfold gate_act at 1. cbn [gtarget gcontrol gmat]. rewrite (neq_eqb _ _ H).
  assert (EM : act2 (if String.eqb (glabel P) "X" then m_cX else if String.eqb (glabel P) "Y" then m_cY else m_cZ) (gtarget P) a (controlled (fun I => bit I a) A B) I =
    if bit I a then act1 (gmat P) (gtarget P) (controlled (fun I => bit I a) A B) I else controlled (fun I => bit I a) A B I).
  { unfold make_gate in HE. rewrite Nat.eqb_refl in HE. destruct (pauli_label_cases _ HL) as [E|[E|E]]; rewrite E in *; cbn [String.eqb Ascii.eqb Bool.eqb orb] in *; injection HE as <-; cbn [gmat gtarget] in *.
    - rewrite ev_cX by exact H. destruct (bit I a); [rewrite ev_X|]; reflexivity.
    - apply ev_cY.
    - rewrite ev_cZ. destruct (bit I a); cbn [andb]; [rewrite ev_Z; reflexivity|unfold sgn; ring]. }
  rewrite EM. unfold controlled at 2 3. destruct (bit I a) eqn:Ea; [|reflexivity]. rewrite <- EP. now apply EA.
Qed.
Definition ctl_string (V : list gate) (a : nat) : list gate := map (fun g => gctl g a) V.
Lemma controlled_string_ok n V : StringOn n V -> controlled_string n V = Ok (ctl_string V n) /\ applicable (n + 1) (ctl_string V n) /\
  forall A B, circ_act (ctl_string V n) (controlled (fun I => bit I n) A B) == controlled (fun I => bit I n) (circ_act V A) B.
Proof.
  intros HV. destruct (string_on n V HV) as (HP & _ & HR). clear HV. unfold controlled_string.
  assert (G : forall c0, foreach V (fun g c => do cg <- py_gate2 ("c" ++ glabel g)%string (gtarget g) n; Ok (c ++ [cg])%list) c0 = Ok (c0 ++ ctl_string V n)%list).
  { induction V as [|g V IH]; intros c0; [cbn; now rewrite app_nil_r|]. inversion HP; inversion HR; subst. cbn [foreach ctl_string map]. destruct (make_ctl g n) as (E & _); [assumption|lia|]. rewrite E. cbn [bind]. rewrite IH by assumption. rewrite <- app_assoc. reflexivity. }
  split; [exact (G [])|]. clear G. split.
  - apply applicable_made.
    + apply Forall_map. rewrite Forall_forall in *. intros g Hg. destruct (make_ctl g n) as (_ & E); [auto|specialize (HR g Hg); lia|]. exists ("c" ++ glabel g)%string, (gtarget g), n, 0%R. split; [|exact E]. destruct (pauli_label_cases _ (proj1 (HP g Hg))) as [-> |[-> | ->]]; reflexivity.
    + apply Forall_map. rewrite Forall_forall in *. intros g Hg. specialize (HR g Hg). split; cbn; lia.
  - induction V as [|g V IH]; intros A B; [apply seq_refl|]. inversion HP; inversion HR; subst. cbn [ctl_string map]. rewrite !circ_act_cons. eapply seq_trans; [apply circ_act_ext, ctl_gate; [assumption|lia]|]. now apply IH.
Qed.

(** ---- controlled evolution with identity terms ---- *)
Lemma ctl_all n l : Forall (fun t => StringOn n (snd t)) l -> forall g0 p0, exists gs ph l',
  foreach (TrotterProofs.opened l) (fun t s => do r <- exponentiate_pauli_string (fst t) (snd t) true (Some n) false; Ok ((fst s ++ fst r)%list, (snd s * snd r)%C)) (g0, p0) = Ok ((g0 ++ gs)%list, (p0 * ph)%C) /\
  (forall psi, circ_act gs psi == controlled (fun I => bit I n) (TrotterProofs.eulers l' psi) psi) /\ applicable (n + 1) gs /\
  (forall psi, TrotterProofs.eulers l psi == sscale ph (TrotterProofs.eulers l' psi)) /\ Forall (fun t => StringOn n (snd t)) l'.
Proof.
  induction 1 as [|[y P] l HP _ IH]; intros g0 p0; cbn [TrotterProofs.opened map foreach fst snd] in *.
  - exists [], C1, []. rewrite app_nil_r. split; [do 2 f_equal; ring|]. split; [intros psi I; unfold controlled, circ_act; cbn; destruct (bit I n); reflexivity|]. split; [apply applicable_nil|]. split; [intros psi I; unfold sscale; cbn; ring|constructor].
  - destruct P as [|g P].
    + unfold exponentiate_pauli_string at 1. cbn [Re fst snd]. rewrite Rabs_R0, Rltb_false by lra. rewrite TrotterProofs.Cexp_imag. cbn [bind fst snd]. rewrite app_nil_r.
      destruct (IH g0 (p0 * Ccis y)%C) as (gs & ph & l' & E & A & HA & HE & HS). unfold TrotterProofs.opened in E. rewrite E. exists gs, (Ccis y * ph)%C, l'. split; [do 2 f_equal; ring|]. split; [exact A|]. split; [exact HA|]. split; [|exact HS].
      intros psi. cbn [TrotterProofs.eulers]. eapply seq_trans; [apply TrotterProofs.eulers_ext, TrotterProofs.euler_nil|]. eapply seq_trans; [apply eulers_scale|]. intros I. unfold sscale at 1. rewrite (HE psi I). unfold sscale. ring.
    + set (Q := g :: P) in *. pose proof (string_word n Q HP) as HW. assert (HN : sup Q <> []) by (destruct (string_term n Q HP) as (_ & [|]); [discriminate|assumption]).
      assert (HO : ~ In n (map gtarget (sup Q))). { intros Hi. apply in_map_iff in Hi. destruct Hi as (h & E & Hh). apply filter_In in Hh. destruct HP as (_ & HR). rewrite Forall_forall in HR. specialize (HR h (proj1 Hh)). lia. }
      destruct (TrotterProofs.ctl_term y Q n false HW HN HO) as (gs1 & E1 & _ & A1' & R1). rewrite E1. cbn [bind fst snd].
      assert (A1 : forall psi, circ_act gs1 psi == controlled (fun I => bit I n) (euler y (circ_act Q) psi) psi) by (intros psi I; rewrite (A1' psi I); unfold controlled; destruct (bit I n); reflexivity).
      destruct (IH (g0 ++ gs1)%list (p0 * C1)%C) as (gs & ph & l' & E & A & HA & HE & HS). unfold TrotterProofs.opened in E. rewrite E. exists (gs1 ++ gs)%list, ph, ((y, Q) :: l'). rewrite app_assoc. split; [do 2 f_equal; ring|]. split; [|split; [|split]].
      * intros psi. rewrite circ_act_app. eapply seq_trans; [apply circ_act_ext, A1|]. eapply seq_trans; [apply A|]. cbn [TrotterProofs.eulers]. intros I. unfold controlled at 1 3 4. destruct (bit I n) eqn:EB; [|reflexivity].
        rewrite (eulers_controlled n l' _ psi HS I). unfold controlled. rewrite EB. reflexivity.
      * apply applicable_app; [|exact HA]. apply R1; [|lia]. intros h Hh. destruct HP as (_ & HR). rewrite Forall_forall in HR. specialize (HR h Hh). lia.
      * intros psi. cbn [TrotterProofs.eulers]. apply HE.
      * constructor; assumption.
Qed.
(** the controlled circuit of the evolution by k steps *)
Definition temp_op (o : qk_options) (k : nat) : qop := map (fun t => (mkC 0 (- (INR k * qk_dt o)) * fst t, snd t)%C) (qk_ham o).
Lemma temp_scaled o k r : TrotterProofs.scaled C1 r (temp_op o k) = TrotterProofs.scaled (mkC 0 (- (INR k * qk_dt o))) r (qk_ham o).
Proof. unfold TrotterProofs.scaled, temp_op. rewrite map_map. do 2 f_equal. apply map_ext. intros t. cbn [fst snd]. f_equal. ring. Qed.
Lemma ctl_evolution o k : qk_ready o -> exists gs ph l, trotterize_w_cRz (temp_op o k) (qk_nqb o) C1 false (qk_trotter o) 1 = Ok (gs, ph) /\ applicable (qk_nqb o + 1) gs /\
  (forall psi, circ_act gs psi == controlled (fun I => bit I (qk_nqb o)) (TrotterProofs.eulers l psi) psi) /\ Forall (fun t => StringOn (qk_nqb o) (snd t)) l /\
  Reached o k (sscale ph (TrotterProofs.eulers l (circ_act (qk_Uprep o) (ket 0)))).
Proof.
  intros [HU HH Hr]. set (n := qk_nqb o) in *. unfold Hamiltonian in HH. rewrite Forall_forall in HH. unfold trotterize_w_cRz. rewrite TrotterProofs.trotter_scaled, temp_scaled by exact Hr.
  destruct (TrotterProofs.scaled_opened (mkC 0 (- (INR k * qk_dt o))) (qk_trotter o) (qk_ham o)) as (l & E & HI).
  { apply Forall_forall. intros t Ht. destruct (HH t Ht) as (_ & HR). cbn [Re Im Cmul]. rewrite HR. ring. }
  assert (HS : Forall (fun t => StringOn n (snd t)) l). { apply Forall_forall. intros t Ht. destruct (HI t Ht) as [c Hc]. apply (HH _ Hc). }
  rewrite E. destruct (ctl_all n l HS [] C1) as (gs & ph & l' & EF & A & HA & HE & HS'). unfold exp_terms. rewrite EF. exists gs, (C1 * ph)%C, l'. split; [reflexivity|]. split; [exact HA|]. split; [exact A|]. split; [exact HS'|].
  unfold Reached. rewrite PropPy.factors_acting, E. apply TrotterProofs.eulers_product; [eapply Forall_impl; [|exact HS]; intros t Ht; exact (string_word n _ Ht)|].
  eapply seq_trans; [|apply seq_sym, HE]. intros I. unfold sscale. ring.
Qed.

(** ---- the test ---- *)
Lemma flip_add n I : I < 2 ^ n -> 2 ^ n + I = flip I n.
Proof.
  intros H. unfold flip. rewrite Nat.add_comm. apply Nat.add_nocarry_lxor. apply bits_ext. intros k. unfold bit. rewrite Nat.land_spec, Nat.bits_0. destruct (Nat.eq_dec k n) as [->|N].
  - change (Nat.testbit I n) with (bit I n). rewrite (proj1 (lt_pow2_bits n I) H n (Nat.le_refl n)). reflexivity.
  - rewrite Nat.pow2_bits_false by auto. apply andb_false_r.
Qed.
Lemma bit_low n I : I < 2 ^ n -> bit I n = false.
Proof. intros H. exact (proj1 (lt_pow2_bits n I) H n (Nat.le_refl n)). Qed.
Lemma inner_split n A B A' B' : blind n A -> blind n B -> blind n A' -> blind n B' ->
  inner (n + 1) (controlled (fun I => bit I n) A B) (controlled (fun I => bit I n) A' B') = (inner n B B' + inner n A A')%C.
Proof.
  intros H1 H2 H3 H4. unfold inner. replace (2 ^ (n + 1)) with (2 ^ n + 2 ^ n) by (rewrite Nat.add_1_r; cbn; lia). rewrite QftProofs.Csum_double. f_equal; apply Csum_ext; intros I HI; apply in_seq in HI; unfold controlled.
  - rewrite bit_low by lia. reflexivity.
  - rewrite flip_add by lia. rewrite bit_flip, Nat.eqb_refl, bit_low by lia. cbn [negb]. rewrite H1, H3. reflexivity.
Qed.
Lemma Y_swap a A B : blind a A -> blind a B -> gate_act (mkGate "Y" a a m_Y None) (controlled (fun I => bit I a) A B) == controlled (fun I => bit I a) (sscale Ci B) (sscale (- Ci) A).
Proof.
  intros HA HB I. rewrite act_1, LibProofs.act1_flip. unfold bi, nbi, controlled, sscale. rewrite bit_flip, Nat.eqb_refl, HA, HB. destruct (bit I a); unfold m_Y, mk44; cbn [b2n negb nth]; ring.
Qed.
Definition ketb (n : nat) : state := fun I => ket 0 (upd I n false).
Lemma upd_absorb I n b : upd (flip I n) n b = upd I n b.
Proof. apply bits_ext. intros k. rewrite !bit_upd, bit_flip. destruct (Nat.eqb_spec k n); reflexivity. Qed.
Lemma ketb_blind n : blind n (ketb n).
Proof. intros I. unfold ketb. now rewrite upd_absorb. Qed.
Lemma ket_ketb n : ket 0 == controlled (fun I => bit I n) szero (ketb n).
Proof.
  intros I. unfold controlled, ketb. destruct (bit I n) eqn:E; [|now rewrite <- E, upd_id].
  unfold ket, szero. destruct (Nat.eqb_spec I 0) as [->|]; [unfold bit in E; rewrite Nat.bits_0 in E; discriminate|reflexivity].
Qed.
Section test.
Context (o : qk_options) (HR : qk_ready o).
Let n := qk_nqb o.
Let ref := circ_act (qk_Uprep o) (ket 0).
Let phi := circ_act (qk_Uprep o) (ketb n).
Lemma prep_off : Forall (off n) (qk_Uprep o).
Proof. destruct HR as [(_ & _ & H) _ _]. now apply range_off. Qed.
Lemma phi_blind : blind n phi.
Proof. apply blind_circ; [apply prep_off|apply ketb_blind]. Qed.
Lemma ref_split : ref == controlled (fun I => bit I n) szero phi.
Proof.
  eapply seq_trans; [apply circ_act_ext, (ket_ketb n)|]. eapply seq_trans; [apply (circ_controlled n (fun b => b) _ prep_off)|]. apply controlled_ext; [|apply seq_refl].
  eapply seq_trans; [apply circ_act_ext with (b := sscale C0 szero); intros I; unfold sscale, szero; ring|]. eapply seq_trans; [apply circ_act_scale|]. intros I. unfold sscale, szero. ring.
Qed.
(** on the register the blind state and the reference agree *)
Lemma low_agree l : Forall (fun t => StringOn n (snd t)) l -> forall V, StringOn n V -> forall I, I < 2 ^ n -> circ_act V (TrotterProofs.eulers l phi) I = circ_act V (TrotterProofs.eulers l ref) I.
Proof.
  intros HS V HV I HI. symmetry.
  rewrite (circ_act_ext V _ _ (seq_trans _ _ _ (TrotterProofs.eulers_ext l _ _ ref_split) (eulers_controlled n l _ _ HS)) I).
  rewrite (circ_controlled n (fun b => b) V (string_off n V HV) _ _ I). unfold controlled. rewrite bit_low by exact HI. reflexivity.
Qed.
Lemma inner_low l l' : Forall (fun t => StringOn n (snd t)) l -> Forall (fun t => StringOn n (snd t)) l' -> forall V, StringOn n V ->
  inner n (TrotterProofs.eulers l' phi) (circ_act V (TrotterProofs.eulers l phi)) = inner n (TrotterProofs.eulers l' ref) (circ_act V (TrotterProofs.eulers l ref)).
Proof.
  intros H1 H2 V HV. assert (H0 : StringOn n []) by (repeat split; constructor). unfold inner. apply Csum_ext. intros I HI. apply in_seq in HI. rewrite (low_agree l H1 V HV I) by lia.
  pose proof (low_agree l' H2 [] H0 I ltac:(lia)) as E. unfold circ_act at 1 2 in E. cbn [fold_left] in E. rewrite E. reflexivity.
Qed.
Context (gk gb : list gate) (lk lb : list (R * list gate)) (V : list gate) (HV : StringOn n V).
Context (Ak : applicable (n + 1) gk) (Ab : applicable (n + 1) gb).
Context (Sk : Forall (fun t => StringOn n (snd t)) lk) (Sb : Forall (fun t => StringOn n (snd t)) lb).
Context (Ek : forall psi, circ_act gk psi == controlled (fun I => bit I n) (TrotterProofs.eulers lk psi) psi).
Context (Eb : forall psi, circ_act gb psi == controlled (fun I => bit I n) (TrotterProofs.eulers lb psi) psi).
Let cir := (qk_Uprep o ++ [gHd n] ++ gk ++ ctl_string V n ++ [gX1 n] ++ gb ++ [gX1 n])%list.
Let A := sscale (RtoC rsqrt2) (circ_act V (TrotterProofs.eulers lk phi)).
Let B := sscale (RtoC rsqrt2) (TrotterProofs.eulers lb phi).
Lemma A_blind : blind n A.
Proof. apply blind_scale, blind_circ; [now apply string_off|]. apply blind_eulers; [exact Sk|apply phi_blind]. Qed.
Lemma B_blind : blind n B.
Proof. apply blind_scale, blind_eulers; [exact Sb|apply phi_blind]. Qed.
Lemma test_state : prepared cir == controlled (fun I => bit I n) A B.
Proof.
  unfold prepared, cir. rewrite !circ_act_app. fold ref. set (c := fun I => bit I n) in *. set (w := RtoC rsqrt2) in *.
  assert (S1 : circ_act [gHd n] ref == sscale w phi).
  { unfold circ_act. cbn [fold_left]. eapply seq_trans; [apply gate_act_ext, ref_split|]. apply H_split, phi_blind. }
  assert (S2 : circ_act gk (circ_act [gHd n] ref) == controlled c (sscale w (TrotterProofs.eulers lk phi)) (sscale w phi)).
  { eapply seq_trans; [apply circ_act_ext, S1|]. eapply seq_trans; [apply Ek|]. apply controlled_ext; [apply eulers_scale|apply seq_refl]. }
  destruct (controlled_string_ok n V HV) as (_ & _ & EV).
  assert (S3 : circ_act (ctl_string V n) (circ_act gk (circ_act [gHd n] ref)) == controlled c A (sscale w phi)).
  { eapply seq_trans; [apply circ_act_ext, S2|]. eapply seq_trans; [apply EV|]. apply controlled_ext; [apply circ_act_scale|apply seq_refl]. }
  assert (PB : blind n (sscale w phi)) by apply blind_scale, phi_blind.
  assert (S4 : circ_act [gX1 n] (circ_act (ctl_string V n) (circ_act gk (circ_act [gHd n] ref))) == controlled c (sscale w phi) A).
  { eapply seq_trans; [apply circ_act_ext, S3|]. unfold circ_act. cbn [fold_left]. apply X_swap; [apply A_blind|exact PB]. }
  assert (S5 : circ_act gb (circ_act [gX1 n] (circ_act (ctl_string V n) (circ_act gk (circ_act [gHd n] ref)))) == controlled c B A).
  { eapply seq_trans; [apply circ_act_ext, S4|]. eapply seq_trans; [apply Eb|]. intros I. unfold controlled at 1. unfold c at 1. destruct (bit I n) eqn:EI; [|unfold controlled, c; rewrite EI; reflexivity].
    pose proof (eulers_controlled n lb (sscale w phi) A Sb I) as EE. change (fun I => bit I n) with c in EE. rewrite EE. unfold controlled, c. rewrite EI. apply eulers_scale. }
  eapply seq_trans; [apply circ_act_ext, S5|]. unfold circ_act. cbn [fold_left]. apply X_swap; [apply B_blind|apply A_blind].
Qed.
Lemma cir_applicable : applicable (n + 1) cir.
Proof.
  unfold cir. destruct HR as [(U1 & U2 & U3) _ _]. destruct (controlled_string_ok n V HV) as (_ & AV & _).
  assert (AX : applicable (n + 1) [gX1 n]) by (apply applicable_cons; [apply X1_lib|apply X1_sharp|split; cbn; lia|apply applicable_nil]).
  apply applicable_app. { split; [exact U1|]. split; [exact U2|]. eapply Forall_impl; [|exact U3]. intros g (G1 & G2). split; unfold n; lia. }
  apply applicable_app.
  { apply applicable_made; [constructor; [|constructor]|constructor; [split; cbn; lia|constructor]]. exists "H"%string, n, n, 0%R. split; [reflexivity|]. unfold make_gate. rewrite Nat.eqb_refl. reflexivity. }
  repeat apply applicable_app; assumption.
Qed.
Lemma half_sq : (RtoC rsqrt2 * RtoC rsqrt2 = RtoC (/ 2))%C.
Proof. apply C_ext; cbn; pose proof rsqrt2_sq; nra. Qed.
Lemma hadamard_ok : hadamard_test o gk (ctl_string V n) gb = Ok (inner n (TrotterProofs.eulers lb ref) (circ_act V (TrotterProofs.eulers lk ref))).
Proof.
  set (gY := mkGate "Y" n n m_Y None). assert (MH : py_gate2 "H" n n = Ok (gHd n)) by (unfold py_gate2, make_gate; rewrite Nat.eqb_refl; reflexivity).
  assert (MX : py_gate2 "X" n n = Ok (gX1 n)) by apply make_X. assert (MY : py_gate2 "Y" n n = Ok gY) by (unfold py_gate2, make_gate; rewrite Nat.eqb_refl; reflexivity).
  assert (TX : Terms (StringOn (n + 1)) [(C1, [gX1 n])]).
  { constructor; [|constructor]. split; [split|]; cbn [snd].
    - constructor; [|constructor]. exists "X"%string, n. split; [cbn; tauto|]. unfold make_gate. rewrite Nat.eqb_refl. reflexivity.
    - repeat constructor. cbn. tauto.
    - repeat constructor; cbn; lia. }
  assert (TY : Terms (StringOn (n + 1)) [(C1, [gY])]).
  { constructor; [|constructor]. split; [split|]; cbn [snd].
    - constructor; [|constructor]. exists "Y"%string, n. split; [cbn; tauto|]. unfold make_gate. rewrite Nat.eqb_refl. reflexivity.
    - repeat constructor. cbn. tauto.
    - repeat constructor; cbn; lia. }
  unfold hadamard_test. fold n. cbv zeta. rewrite MH, MX, MY. cbn [bind]. fold cir.
  rewrite (C69_perfect_average (n + 1) cir _ cir_applicable TX), (C69_perfect_average (n + 1) cir _ cir_applicable TY). cbn [bind]. f_equal.
  pose proof A_blind as HA. pose proof B_blind as HB. pose proof test_state as HT.
  assert (EX : inner (n + 1) (prepared cir) (op_act [(C1, [gX1 n])] (prepared cir)) = (inner n B A + inner n A B)%C).
  { rewrite <- (inner_split n A B B A HA HB HB HA). apply inner_ext; [exact HT|]. intros I. unfold op_act. rewrite Csum_cons, Csum_nil. cbn [fst snd]. unfold circ_act. cbn [fold_left].
    rewrite (gate_act_ext (gX1 n) _ _ HT I), (X_swap n A B HA HB I). ring. }
  assert (EY : inner (n + 1) (prepared cir) (op_act [(C1, [gY])] (prepared cir)) = (- Ci * inner n B A + Ci * inner n A B)%C).
  { transitivity (inner n B (sscale (- Ci) A) + inner n A (sscale Ci B))%C; [|rewrite !inner_scale_r; ring].
    rewrite <- (inner_split n A B (sscale Ci B) (sscale (- Ci) A) HA HB (blind_scale _ _ _ HB) (blind_scale _ _ _ HA)). apply inner_ext; [exact HT|]. intros I. unfold op_act. rewrite Csum_cons, Csum_nil. cbn [fst snd]. unfold circ_act. cbn [fold_left].
    rewrite (gate_act_ext gY _ _ HT I). unfold gY. rewrite (Y_swap n A B HA HB I). ring. }
  rewrite EX, EY. rewrite (inner_conj n A B).
  rewrite <- (inner_low lk lb Sk Sb V HV). unfold A, B. rewrite inner_scale_l, inner_scale_r. set (z := inner n (TrotterProofs.eulers lb phi) (circ_act V (TrotterProofs.eulers lk phi))).
  assert (EZ : (Cconj (RtoC rsqrt2) * (RtoC rsqrt2 * z) = RtoC (/ 2) * z)%C).
  { rewrite <- half_sq. replace (Cconj (RtoC rsqrt2)) with (RtoC rsqrt2) by (apply C_ext; cbn; ring). ring. }
  rewrite EZ. apply C_ext; cbn; field.
Qed.
End test.
