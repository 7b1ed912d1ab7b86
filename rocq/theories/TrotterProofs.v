(** Trotter products of Pauli exponentials. *)
From Coq Require Import Reals String List Arith Lia Bool Lra.
From Verif Require Import CBase Result Bits Spec GateModel ComputerModel SafeProofs GateProofs LibProofs SimProofs InteractProofs CircuitModel PauliProofs GateEval ExpSpec PyModel ThreeQubit ExpProofs ExpCircuit PyApply.
Import ListNotations.
Local Open Scope C_scope.

Definition term_ok (P : list gate) : Prop := exp_word P /\ (P = [] \/ sup P <> []).
Fixpoint eulers (l : list (R * list gate)) (psi : state) : state :=
  match l with [] => psi | (y, P) :: r => eulers r (euler y (circ_act P) psi) end.
Definition opened (l : list (R * list gate)) : list (C * list gate) := map (fun t => (mkC 0 (fst t), snd t)) l.
Definition acting (l : list (C * list gate)) : list (C * (state -> state)) := map (fun t => (fst t, circ_act (snd t))) l.

Lemma eulers_ext l : forall a b, a == b -> eulers l a == eulers l b.
Proof. induction l as [|[y P] l IH]; intros a b H; [exact H|]. apply IH, euler_ext; [intros; apply seq_refl|apply circ_act_ext|exact H]. Qed.
Lemma eulers_product l : Forall (fun t => exp_word (snd t)) l -> forall psi phi, phi == eulers l psi -> exp_product (acting (opened l)) psi phi.
Proof.
  induction 1 as [|[y P] l HP _ IH]; intros psi phi H; [exact H|]. cbn [opened map acting exp_product fst snd]. exists (euler y (circ_act P) psi). split; [|apply IH; exact H].
  apply euler_is_exp; [apply circ_act_ext|intros a; apply word_invol, HP].
Qed.
Lemma Cexp_imag y : Cexp (mkC 0 y) = Ccis y.
Proof. unfold Cexp. cbn [Re Im]. rewrite exp_0. change (RtoC 1) with C1. ring. Qed.
Lemma euler_nil y psi : euler y (circ_act []) psi == sscale (Ccis y) psi.
Proof. intros I. unfold euler, circ_act, sadd, sscale, Ccis. cbn [fold_left]. apply C_ext; cbn; ring. Qed.

(** one term *)
Definition fits (n : nat) (P : list gate) : Prop := forall g, In g P -> (gtarget g < n)%nat.
Lemma fits_sup n P : fits n P -> fits n (sup P).
Proof. intros H g Hg. apply filter_In in Hg. apply H, Hg. Qed.
Lemma last_in (l : list nat) : l <> [] -> In (last l 0%nat) l.
Proof. destruct l as [|t ts]; [congruence|intros _]. revert t. induction ts as [|u r IH]; intros t; [left; reflexivity|]. right. apply IH. Qed.
Lemma sup_targets P : sup P <> [] -> map gtarget (sup P) <> [].
Proof. destruct (sup P); [congruence|discriminate]. Qed.
Lemma plain_term y P : term_ok P -> exists gs ph, exponentiate_pauli_string (mkC 0 y) P false None false = Ok (gs, ph) /\
  Forall library_gate gs /\ (forall psi, sscale ph (circ_act gs psi) == euler y (circ_act P) psi) /\ (forall n, fits n P -> applicable n gs).
Proof.
  intros [HW [->|HS]].
  - exists [], (Ccis y). split.
    + unfold exponentiate_pauli_string. cbn [Re]. rewrite Rabs_R0, Rltb_false by lra. rewrite Cexp_imag. reflexivity.
    + split; [constructor|]. split; [intros psi; apply seq_sym, euler_nil|]. intros n _. apply applicable_nil.
  - rewrite (exponentiate_plain y P HW HS). eexists _, _. split; [reflexivity|]. split; [|split].
    + apply Forall_app; split; [apply W_library, HW|]. apply Forall_app; split; [constructor; [apply Rz_lib|constructor]|apply adjoint_lib, W_library, HW].
    + intros psi I. unfold sscale. rewrite (plain_act y P psi HW HS I). ring.
    + intros n HF. pose proof (fits_sup _ _ HF) as HF'. pose proof (W_applicable n (sup P) (proj2 HW) HF') as HA.
      apply applicable_app; [exact HA|]. apply applicable_app; [|apply applicable_adjoint, HA]. apply applicable_cons; [apply Rz_lib|apply Rz_sharp| |apply applicable_nil].
      pose proof (last_in _ (sup_targets P HS)) as HL. apply in_map_iff in HL. destruct HL as (g & E & Hg). unfold gRz, in_range; cbn [gtarget gcontrol]. rewrite <- E. split; apply HF', Hg.
Qed.
Lemma ctl_term y P a open : exp_word P -> sup P <> [] -> ~ In a (map gtarget (sup P)) ->
  exists gs, exponentiate_pauli_string (mkC 0 y) P true (Some a) open = Ok (gs, C1) /\
  Forall library_gate gs /\ (forall psi, circ_act gs psi == controlled (fun I => xorb open (bit I a)) (euler y (circ_act P) psi) psi) /\
  (forall n, fits n P -> (a < n)%nat -> applicable n gs).
Proof.
  intros HW HS HA. rewrite (exponentiate_eq y P true a open HW HS (fun _ => HA)). eexists. split; [reflexivity|].
  pose proof (last_in _ (sup_targets P HS)) as HL. assert (Hta : last (map gtarget (sup P)) 0%nat <> a) by (intros <-; contradiction). split; [|split].
  - apply Forall_app; split; [apply W_library, HW|]. apply Forall_app; split; [|apply adjoint_lib, W_library, HW]. unfold mid_gates.
    repeat (apply Forall_app; split); [destruct open; repeat constructor; apply X1_lib|constructor; [apply cRz_lib, Hta|constructor]|destruct open; repeat constructor; apply X1_lib].
  - intros psi. apply ctl_act; assumption.
  - intros n HF Hn. pose proof (fits_sup _ _ HF) as HF'. pose proof (W_applicable n (sup P) (proj2 HW) HF') as HB.
    apply applicable_app; [exact HB|]. apply applicable_app; [|apply applicable_adjoint, HB].
    assert (HX : applicable n (if open then [gX1 a] else [])).
    { destruct open; [|apply applicable_nil]. apply applicable_cons; [apply X1_lib|apply X1_sharp|split; cbn; assumption|apply applicable_nil]. }
    unfold mid_gates. apply applicable_app; [exact HX|]. apply applicable_app; [|exact HX]. apply applicable_cons; [apply cRz_lib, Hta|apply cRz_sharp, Hta| |apply applicable_nil].
    apply in_map_iff in HL. destruct HL as (g & E & Hg). unfold gcRz, in_range; cbn [gtarget gcontrol]. rewrite <- E. split; [apply HF', Hg|exact Hn].
Qed.

(** several terms *)
Lemma plain_terms l : Forall (fun t => term_ok (snd t)) l -> forall g0 p0, exists gs ph,
  foreach (opened l) (fun t s => do r <- exponentiate_pauli_string (fst t) (snd t) false None false; Ok ((fst s ++ fst r)%list, snd s * snd r)) (g0, p0) = Ok ((g0 ++ gs)%list, p0 * ph) /\
  Forall library_gate gs /\ (forall psi, sscale ph (circ_act gs psi) == eulers l psi) /\ (forall n, Forall (fun t => fits n (snd t)) l -> applicable n gs).
Proof.
  induction 1 as [|[y P] l HP _ IH]; intros g0 p0; cbn [opened map foreach fst snd].
  - exists [], C1. rewrite app_nil_r. split; [do 2 f_equal; ring|]. split; [constructor|]. split; [intros psi I; unfold sscale, circ_act; cbn; ring|intros n _; apply applicable_nil].
  - destruct (plain_term y P HP) as (gs1 & ph1 & E1 & L1 & A1 & R1). cbn [snd fst] in *. rewrite E1. cbn [bind fst snd]. destruct (IH (g0 ++ gs1)%list (p0 * ph1)) as (gs & ph & E & L & A & R). unfold opened in E. rewrite E.
    exists (gs1 ++ gs)%list, (ph1 * ph). rewrite app_assoc. split; [do 2 f_equal; ring|]. split; [apply Forall_app; auto|]. split.
    + intros psi. cbn [eulers]. eapply seq_trans; [|eapply eulers_ext, A1]. eapply seq_trans; [|apply A]. rewrite circ_act_app. intros I. unfold sscale at 1 2. rewrite (circ_act_scale gs ph1 (circ_act gs1 psi) I). unfold sscale. ring.
    + intros n HF. inversion HF; subst. apply applicable_app; auto.
Qed.
Lemma controlled_euler y P a open phi psi : exp_word P -> ~ In a (map gtarget (sup P)) ->
  euler y (circ_act P) (controlled (fun I => xorb open (bit I a)) phi psi) == controlled (fun I => xorb open (bit I a)) (euler y (circ_act P) phi) (euler y (circ_act P) psi).
Proof.
  intros HW HA. assert (HO : Forall (off a) (sup P)).
  { pose proof (sup_pauli P (proj1 HW)) as HS. rewrite Forall_forall in *. intros g Hg. pose proof (proj2 (HS g Hg)) as HE. unfold off. assert (a <> gtarget g) by (intros ->; apply HA, in_map, Hg). split; [assumption|]. rewrite <- (pauli_gate_1q g (HS g Hg)). assumption. }
  assert (HC : circ_act P (controlled (fun I => xorb open (bit I a)) phi psi) == controlled (fun I => xorb open (bit I a)) (circ_act P phi) (circ_act P psi)).
  { eapply seq_trans; [apply sup_act, HW|]. eapply seq_trans; [apply (circ_controlled a (xorb open) _ HO)|]. apply controlled_ext; apply seq_sym, sup_act, HW. }
  intros I. unfold euler, sadd, sscale. rewrite (HC I). unfold controlled. destruct (xorb open (bit I a)); reflexivity.
Qed.
Definition ctl_ok (a : nat) (P : list gate) : Prop := exp_word P /\ sup P <> [] /\ ~ In a (map gtarget (sup P)).
Lemma controlled_eulers l a open phi psi : Forall (fun t => ctl_ok a (snd t)) l ->
  eulers l (controlled (fun I => xorb open (bit I a)) phi psi) == controlled (fun I => xorb open (bit I a)) (eulers l phi) (eulers l psi).
Proof.
  intros H. revert phi psi. induction H as [|[y P] l HP _ IH]; intros phi psi; [apply seq_refl|]. cbn [eulers]. eapply seq_trans; [apply eulers_ext, controlled_euler; apply HP|]. apply IH.
Qed.
Lemma ctl_terms a open l : Forall (fun t => ctl_ok a (snd t)) l -> forall g0 p0, exists gs,
  foreach (opened l) (fun t s => do r <- exponentiate_pauli_string (fst t) (snd t) true (Some a) open; Ok ((fst s ++ fst r)%list, snd s * snd r)) (g0, p0) = Ok ((g0 ++ gs)%list, p0) /\
  Forall library_gate gs /\ (forall psi, circ_act gs psi == controlled (fun I => xorb open (bit I a)) (eulers l psi) psi) /\ (forall n, Forall (fun t => fits n (snd t)) l -> (a < n)%nat -> applicable n gs).
Proof.
  induction 1 as [|[y P] l HP Hl IH]; intros g0 p0; cbn [opened map foreach fst snd].
  - exists []. rewrite app_nil_r. split; [reflexivity|]. split; [constructor|]. split; [intros psi I; unfold controlled, circ_act; cbn; destruct (xorb open (bit I a)); reflexivity|intros n _ _; apply applicable_nil].
  - destruct HP as (HW & HS & HA). destruct (ctl_term y P a open HW HS HA) as (gs1 & E1 & L1 & A1 & R1). cbn [snd fst] in *. rewrite E1. cbn [bind fst snd]. destruct (IH (g0 ++ gs1)%list (p0 * C1)) as (gs & E & L & A & R). unfold opened in E. rewrite E.
    exists (gs1 ++ gs)%list. rewrite app_assoc. split; [do 2 f_equal; ring|]. split; [apply Forall_app; auto|]. split.
    + intros psi. cbn [eulers]. rewrite circ_act_app. eapply seq_trans; [apply circ_act_ext, A1|]. eapply seq_trans; [apply A|]. intros I. unfold controlled at 1 3 4.
      destruct (xorb open (bit I a)) eqn:EB; [|reflexivity]. rewrite (controlled_eulers l a open _ psi Hl I). unfold controlled. rewrite EB. reflexivity.
    + intros n HF Hn. inversion HF; subst. apply applicable_app; auto.
Qed.
(** the coefficients met by exp_terms *)
Definition scaled (factor : C) (m : nat) (O : list (C * list gate)) : list (C * list gate) :=
  concat (repeat (map (fun t => (factor * fst t * RtoC (/ INR m), snd t)) O) m).
Lemma trotter_scaled ctl anc open O factor m : (1 <= m)%nat -> trotter_body ctl anc open O factor m 1 = exp_terms ctl anc open (scaled factor m O).
Proof.
  intros Hm. unfold trotter_body. destruct (Nat.eqb_spec m 1) as [->|n]; cbn [andb Nat.eqb].
  - f_equal. unfold scaled. cbn [repeat concat]. rewrite app_nil_r. apply map_ext. intros [c P]. cbn [fst snd]. f_equal. cbn [INR]. rewrite Rinv_1. change (RtoC 1) with C1. ring.
  - cbn [Nat.ltb Nat.leb]. f_equal. unfold scaled. generalize 1%nat as s. generalize (map (fun t : C * list gate => (factor * fst t * RtoC (/ INR m), snd t)) O) as b. clear. intros b. induction m as [|m IH]; intros s; [reflexivity|]. cbn [seq flat_map repeat concat]. rewrite IH. reflexivity.
Qed.
Lemma scaled_opened factor m O : Forall (fun t => Re (factor * fst t) = 0%R) O -> exists l, scaled factor m O = opened l /\ forall t, In t l -> exists c, In (c, snd t) O.
Proof.
  intros H. unfold scaled. generalize m at 2 as k. induction k as [|k (l & E & HI)]; [exists []; split; [reflexivity|intros ? []]|]. cbn [repeat concat]. rewrite E.
  exists (map (fun t => (Im (factor * fst t) * / INR m, snd t)%R) O ++ l). split.
  - unfold opened. rewrite map_app. f_equal. rewrite map_map. apply map_ext_in. intros [c P] Hc. rewrite Forall_forall in H. specialize (H _ Hc). cbn [fst snd] in *. f_equal. apply C_ext; cbn [Re Im Cmul RtoC] in *; [|ring]. rewrite H. ring.
  - intros t Ht. apply in_app_or in Ht. destruct Ht as [Ht|Ht]; [|apply HI, Ht]. apply in_map_iff in Ht. destruct Ht as ([c P] & <- & Hc). exists c. exact Hc.
Qed.
Lemma foreach_body {X S} (l : list X) (body : X -> S -> res S) s s' : foreach l body s = Ok s' -> forall x, In x l -> exists s1 s2, body x s1 = Ok s2.
Proof.
  revert s. induction l as [|a l IH]; intros s H x Hx; [destruct Hx|]. cbn [foreach] in H. destruct (body a s) as [s1|e] eqn:E; [|discriminate]. cbn [bind] in H. destruct Hx as [<-|Hx]; [eauto|eapply IH; eauto].
Qed.
