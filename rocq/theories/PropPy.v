(** Property theorems C37 (reference preparation), C38 (Pauli exponentials), C39 (Trotter
    circuits), C40 (QFT), C41 (Toffoli, Fredkin), C53 (spin-equivalent determinants). *)
From Coq Require Import Reals String List Arith NArith ZArith Lia Bool Lra.
From Verif Require Import CBase Result Bits Spec GateModel ComputerModel SafeProofs GateProofs LibProofs CleanProofs SimProofs CircuitModel PauliProofs GateEval ExpSpec SQPoolModel PyModel ThreeQubit ExpProofs ExpCircuit QftSpec PyApply StateProofs TrotterProofs.
From Verif Require QftProofs PropPool.
Import ListNotations.
Local Open Scope nat_scope.

(** ---- vocabulary ---- *)
(** circuit of gates gate("X"|"Y"|"Z"|"I", t) with no qubit carrying two of the X, Y, Z *)
Definition Word (P : list gate) : Prop :=
  Forall (fun g => exists l t, In l ["X"; "Y"; "Z"; "I"]%string /\ make_gate l t t 0 = Ok g) P /\
  NoDup (map gtarget (filter (fun g => negb (String.eqb (glabel g) "I")) P)).
(** qubits on which the word is not the identity *)
Definition support (P : list gate) : list nat := map gtarget (filter (fun g => negb (String.eqb (glabel g) "I")) P).
Definition OnQubits (n : nat) (P : list gate) : Prop := forall g, In g P -> gtarget g < n.
(** the simulator runs the circuit and performs the given transformation of amplitudes *)
Definition Runs (q : computer) (gs : list gate) (R : state -> state -> Prop) : Prop :=
  exists q', apply_circuit q gs = Ok q' /\ wf_computer q' /\ nqubit q' = nqubit q /\ R (amp (coeff q)) (amp (coeff q')).

Lemma word_iff P : Word P -> exp_word P.
Proof.
  intros [H N]. split; [|exact N]. eapply Forall_impl; [|exact H]. intros g (l & t & Hl & E). destruct Hl as [<-|[<-|[<-|[<-|[]]]]];
  [left; destruct (pauli_make "X" t eq_refl) as (g' & E' & HP & _); congruence|left; destruct (pauli_make "Y" t eq_refl) as (g' & E' & HP & _); congruence
  |left; destruct (pauli_make "Z" t eq_refl) as (g' & E' & HP & _); congruence|right; exists t]. unfold make_gate in E. rewrite Nat.eqb_refl in E. injection E as <-. reflexivity.
Qed.
Lemma support_sup P : support P = map gtarget (sup P).
Proof. reflexivity. Qed.
Lemma support_nil P : support P <> [] -> sup P <> [].
Proof. rewrite support_sup. intros H E. apply H. rewrite E. reflexivity. Qed.
Lemma runs_applicable q gs (R : state -> state -> Prop) : wf_computer q -> applicable (nqubit q) gs -> (forall phi, phi == circ_act gs (amp (coeff q)) -> R (amp (coeff q)) phi) -> Runs q gs R.
Proof. intros HQ HA HR. destruct (sim_apply q gs HQ HA) as (q' & E & W & N & A). exists q'. repeat split; auto; apply W. Qed.
Lemma is_exp_ext c A psi phi phi' : phi == phi' -> is_exp c A psi phi -> is_exp c A psi phi'.
Proof. intros H HE I. rewrite <- (H I). apply HE. Qed.
(** the specification determines the result *)
Lemma is_exp_unique c A psi phi phi' : is_exp c A psi phi -> is_exp c A psi phi' -> phi == phi'.
Proof. intros H H' I. destruct (H I) as [A1 B1], (H' I) as [A2 B2]. apply C_ext; [apply (UL_sequence _ _ _ A1 A2)|apply (UL_sequence _ _ _ B1 B2)]. Qed.

(** ---- C37 ---- *)
Theorem C37_refprep : forall ref, exists gs D, build_refprep ref = Ok gs /\
  (forall q, bit D q = negb (Nat.eqb (nth q ref 0) 0)) /\ circ_act gs (ket 0) == ket D /\
  forall n, length ref <= n -> exists q', apply_circuit (new_computer n) gs = Ok q' /\ nqubit q' = n /\ amp (coeff q') == ket D.
Proof.
  intros ref. exists (xgates 0 ref), (flips 0 ref 0). split; [apply refprep_eq|].
  assert (HK : circ_act (xgates 0 ref) (ket 0) == ket (flips 0 ref 0)) by (intros I; rewrite xgates_act; apply flips_ket). split; [|split; [exact HK|]].
  - intros q. rewrite bit_flips. unfold bit. rewrite Nat.bits_0. rewrite Nat.sub_0_r. cbn [Nat.leb andb]. apply xorb_false_l.
  - intros n Hn. destruct (sim_apply (new_computer n) (xgates 0 ref) (new_computer_wf n) (xgates_applicable n ref 0 Hn)) as (q' & E & _ & N & A). exists q'. split; [exact E|]. split; [exact N|].
    eapply seq_trans; [exact A|]. eapply seq_trans; [|exact HK]. apply circ_act_ext. intros I. apply new_computer_ket0.
Qed.
Print Assumptions C37_refprep.
(** occupation lists of 0 and 1 against basis-state indices *)
Theorem C37_index : forall ref, ref <> [] -> Forall (fun o => o = 0 \/ o = 1) ref -> exists k, ref_to_basis_idx ref = Ok k /\
  (forall q, bit (N.to_nat k) q = Nat.eqb (nth q ref 0) 1) /\ (k < 2 ^ N.of_nat (length ref))%N /\
  (length ref <= 64 -> integer_to_ref k (length ref) = Ok ref).
Proof.
  intros ref HN HB. assert (HB' : binary ref) by (eapply Forall_impl; [|exact HB]; cbn; lia). exists (idx ref). split; [apply basis_idx_eq; assumption|]. split; [|split].
  - intros q. rewrite FermiProofs.occ_bit. apply occ_idx, HB'.
  - apply idx_lt, HB'.
  - intros HL. rewrite to_ref_eq; [rewrite occ_list_idx by exact HB'; reflexivity| |exact HL]. eapply N.lt_le_trans; [apply idx_lt, HB'|]. apply N.pow_le_mono_r; lia.
Qed.
Print Assumptions C37_index.
Theorem C37_ref : forall k n, 1 <= n <= 64 -> (k < 2 ^ N.of_nat n)%N -> exists ref, integer_to_ref k n = Ok ref /\ length ref = n /\
  (forall q, q < n -> nth q ref 0 = b2n (bit (N.to_nat k) q)) /\ ref_to_basis_idx ref = Ok k.
Proof.
  intros k n Hn Hk. exists (occ_list k n). split; [|split; [apply occ_list_length|split]].
  - apply to_ref_eq; [|lia]. eapply N.lt_le_trans; [exact Hk|]. apply N.pow_le_mono_r; lia.
  - intros q Hq. rewrite nth_occ_list, FermiProofs.occ_bit by exact Hq. reflexivity.
  - rewrite basis_idx_eq; [rewrite idx_occ_list by exact Hk; reflexivity| |apply occ_list_binary]. intros E. pose proof (occ_list_length k n) as HL. rewrite E in HL. cbn in HL. lia.
Qed.
Print Assumptions C37_ref.
Theorem C37_string : forall ref n, ref <> [] -> Forall (fun o => o = 0 \/ o = 1) ref -> length ref <= n <= 64 ->
  ref_string ref n = Ok (map (fun q => Nat.eqb (nth q ref 0) 1) (seq 0 n)).
Proof.
  intros ref n HN HB HL. destruct (C37_index ref HN HB) as (k & E & HK & HLt & _). unfold ref_string. rewrite E. cbn [bind]. rewrite PropPool.C36_str; [|eapply N.lt_le_trans; [exact HLt|apply N.pow_le_mono_r; lia]|lia].
  f_equal. apply map_ext. exact HK.
Qed.
Print Assumptions C37_string.
(** the empty list and lists with other entries are rejected *)
Theorem C37_rejects : forall ref, ref = [] \/ (exists q, 1 < nth q ref 0) -> ref_to_basis_idx ref = Throw (PyError "ValueError").
Proof.
  intros ref [->|[q Hq]]; [reflexivity|]. apply bad_idx. intros HB. unfold binary in HB. rewrite Forall_forall in HB. destruct (Nat.lt_ge_cases q (length ref)) as [L|L]; [specialize (HB _ (nth_In ref 0 L)); lia|]. rewrite nth_overflow in Hq by exact L. lia.
Qed.
Print Assumptions C37_rejects.
Example C37_nonvacuous : ref_to_basis_idx [1; 1; 0; 1] = Ok 11%N /\ integer_to_ref 11 4 = Ok [1; 1; 0; 1] /\ exists g h, build_refprep [1; 0; 1] = Ok [g; h] /\ gtarget h = 2.
Proof. split; [reflexivity|]. split; [reflexivity|]. eexists _, _. split; reflexivity. Qed.

(** ---- C38 ---- *)
Local Open Scope C_scope.
Lemma imag_eq c : Re c = 0%R -> c = mkC 0 (Im c).
Proof. intros H. apply C_ext; [exact H|reflexivity]. Qed.
Theorem C38_exponential : forall c P, Re c = 0%R -> Word P -> (P = [] \/ support P <> []) ->
  exists gs phase, exponentiate_pauli_string c P false None false = Ok (gs, phase) /\ Forall library_gate gs /\
    (forall psi, is_exp c (circ_act P) psi (sscale phase (circ_act gs psi))) /\
    (forall q, wf_computer q -> OnQubits (nqubit q) P -> Runs q gs (fun psi phi => is_exp c (circ_act P) psi (sscale phase phi))).
Proof.
  intros c P Hc HW HS. rewrite (imag_eq c Hc). set (y := Im c). destruct (plain_term y P) as (gs & ph & E & L & A & F).
  - split; [apply word_iff, HW|]. destruct HS as [->|HS]; [left; reflexivity|right; apply support_nil, HS].
  - exists gs, ph. split; [exact E|]. split; [exact L|]. assert (HE : forall psi, is_exp (mkC 0 y) (circ_act P) psi (sscale ph (circ_act gs psi))).
    { intros psi. eapply is_exp_ext; [apply seq_sym, A|]. apply euler_is_exp; [apply circ_act_ext|intros a; apply word_invol, word_iff, HW]. }
    split; [exact HE|]. intros q HQ HF. apply runs_applicable; [exact HQ|apply F; exact HF|]. intros phi Hphi. eapply is_exp_ext; [|apply HE]. intros I. unfold sscale. rewrite (Hphi I). reflexivity.
Qed.
Print Assumptions C38_exponential.
(** controlled on ancilla a being 1 (open = false) or 0 (open = true) *)
Theorem C38_controlled : forall c P a open, Re c = 0%R -> Word P -> support P <> [] -> ~ In a (support P) ->
  exists gs, exponentiate_pauli_string c P true (Some a) open = Ok (gs, C1) /\ Forall library_gate gs /\
    (forall psi, exists phi, is_exp c (circ_act P) psi phi /\ circ_act gs psi == controlled (fun I => xorb open (bit I a)) phi psi) /\
    (forall q, wf_computer q -> OnQubits (nqubit q) P -> (a < nqubit q)%nat ->
       Runs q gs (fun psi psi' => exists phi, is_exp c (circ_act P) psi phi /\ psi' == controlled (fun I => xorb open (bit I a)) phi psi)).
Proof.
  intros c P a open Hc HW HS HA. rewrite (imag_eq c Hc). set (y := Im c). pose proof (word_iff P HW) as HW'. destruct (ctl_term y P a open HW' (support_nil P HS) HA) as (gs & E & L & A & F).
  exists gs. split; [exact E|]. split; [exact L|]. assert (HE : forall psi, is_exp (mkC 0 y) (circ_act P) psi (euler y (circ_act P) psi)) by (intros psi; apply euler_is_exp; [apply circ_act_ext|intros s; apply word_invol, HW']).
  split; [intros psi; exists (euler y (circ_act P) psi); split; [apply HE|apply A]|]. intros q HQ HF Ha. apply runs_applicable; [exact HQ|apply F; assumption|]. intros phi Hphi. exists (euler y (circ_act P) (amp (coeff q))). split; [apply HE|].
  eapply seq_trans; [exact Hphi|apply A].
Qed.
Print Assumptions C38_controlled.
(** coefficients with a real part raise *)
Theorem C38_real_raises : forall c P ctl anc open, (1e-14 < Rabs (Re c))%R -> exponentiate_pauli_string c P ctl anc open = Throw (PyError "ValueError").
Proof. intros c P ctl anc open H. unfold exponentiate_pauli_string. rewrite Rltb_true by exact H. reflexivity. Qed.
Print Assumptions C38_real_raises.
(** refuted: a non-empty word of identities raises instead of giving a phase; the controlled
    exponential of the empty word is an uncontrolled phase *)
Theorem C38_identity_refuted :
  (exists P, Word P /\ exponentiate_pauli_string (mkC 0 1) P false None false = Throw (PyError "TypeError")) /\
  (exists gs phase, exponentiate_pauli_string (mkC 0 PI) [] true (Some 0%nat) false = Ok (gs, phase) /\
     ~ exists phi, is_exp (mkC 0 PI) (circ_act []) (ket 0) phi /\ sscale phase (circ_act gs (ket 0)) == controlled (fun I => bit I 0) phi (ket 0)).
Proof.
  split.
  - exists [gI 0%nat]. split.
    + split; [|constructor]. constructor; [|constructor]. exists "I"%string, 0%nat. split; [cbn; tauto|reflexivity].
    + unfold exponentiate_pauli_string. cbn [Re]. rewrite Rabs_R0, Rltb_false by lra. reflexivity.
  - exists [], (Cexp (mkC 0 PI)). split; [unfold exponentiate_pauli_string; cbn [Re]; rewrite Rabs_R0, Rltb_false by lra; reflexivity|].
    intros (phi & _ & H). specialize (H 0%nat). rewrite Cexp_imag in H. apply (f_equal Re) in H. revert H. unfold controlled, sscale, circ_act, ket, Ccis, bit. cbn. rewrite cos_PI. lra.
Qed.
Print Assumptions C38_identity_refuted.
Definition gP (l : string) (t : nat) : gate := match make_gate l t t 0 with Ok g => g | Throw _ => gI 0 end.
Example C38_nonvacuous : Word [gP "X" 2; gP "I" 1; gP "Y" 0; gP "Z" 3] /\ support [gP "X" 2; gP "I" 1; gP "Y" 0; gP "Z" 3] = [2; 0; 3]%nat /\ ~ In 1%nat [2; 0; 3]%nat.
Proof.
  split; [|split; [reflexivity|cbn; lia]]. split.
  - repeat (constructor; [match goal with |- context [gP ?l ?t] => exists l, t; split; [cbn; tauto|reflexivity] end|]). constructor.
  - cbn. repeat constructor; cbn; lia.
Qed.

(** ---- C39 ---- *)
(** the exponentials of a Trotter circuit, in order: m times, for every term (c, P) of the
    operator, exp(factor * c / m * P) *)
Definition trotter_factors (factor : C) (m : nat) (O : list (C * list gate)) : list (C * (state -> state)) :=
  concat (repeat (map (fun t => (factor * fst t * RtoC (/ INR m), circ_act (snd t))) O) m).
Lemma factors_acting factor m O : trotter_factors factor m O = acting (scaled factor m O).
Proof.
  unfold trotter_factors, acting, scaled. generalize m at 2 4 as k. induction k as [|k IH]; [reflexivity|]. cbn [repeat concat]. rewrite map_app, map_map, IH. reflexivity.
Qed.
Theorem C39_trotterize : forall O factor m, (1 <= m)%nat -> Forall (fun t => Re (factor * fst t) = 0%R /\ Word (snd t) /\ (snd t = [] \/ support (snd t) <> [])) O ->
  exists gs phase, trotterize O factor m 1 = Ok (gs, phase) /\ Forall library_gate gs /\
    (forall psi, exp_product (trotter_factors factor m O) psi (sscale phase (circ_act gs psi))) /\
    (forall q, wf_computer q -> Forall (fun t => OnQubits (nqubit q) (snd t)) O -> Runs q gs (fun psi phi => exp_product (trotter_factors factor m O) psi (sscale phase phi))).
Proof.
  intros O factor m Hm HO. rewrite factors_acting. unfold trotterize. rewrite trotter_scaled by exact Hm. destruct (scaled_opened factor m O) as (l & E & HI).
  { eapply Forall_impl; [|exact HO]. intros t H. apply H. }
  rewrite E. rewrite Forall_forall in HO. assert (HT : Forall (fun t => term_ok (snd t)) l).
  { apply Forall_forall. intros t Ht. destruct (HI t Ht) as [c Hc]. destruct (HO _ Hc) as (_ & HW & HS). split; [apply word_iff, HW|]. destruct HS as [HS|HS]; [left; exact HS|right; apply support_nil, HS]. }
  destruct (plain_terms l HT [] C1) as (gs & ph & EF & L & A & F). unfold exp_terms. rewrite EF. exists gs, (C1 * ph). split; [reflexivity|]. split; [exact L|].
  assert (HP : forall psi, exp_product (acting (opened l)) psi (sscale (C1 * ph) (circ_act gs psi))).
  { intros psi. apply eulers_product; [eapply Forall_impl; [|exact HT]; intros t Ht; apply Ht|]. eapply seq_trans; [|apply A]. intros I. unfold sscale. ring. }
  split; [exact HP|]. intros q HQ HF. apply runs_applicable; [exact HQ| |].
  - apply F. apply Forall_forall. intros t Ht. destruct (HI t Ht) as [c Hc]. rewrite Forall_forall in HF. apply (HF _ Hc).
  - intros phi Hphi. apply eulers_product; [eapply Forall_impl; [|exact HT]; intros t Ht; apply Ht|]. eapply seq_trans; [|apply A]. intros I. unfold sscale. rewrite (Hphi I). ring.
Qed.
Print Assumptions C39_trotterize.
Theorem C39_controlled_partial : forall O a factor open m, (1 <= m)%nat -> Forall (fun t => Re (factor * fst t) = 0%R /\ Word (snd t) /\ support (snd t) <> [] /\ ~ In a (support (snd t))) O ->
  exists gs, trotterize_w_cRz O a factor open m 1 = Ok (gs, C1) /\ Forall library_gate gs /\
    (forall psi, exists phi, exp_product (trotter_factors factor m O) psi phi /\ circ_act gs psi == controlled (fun I => xorb open (bit I a)) phi psi) /\
    (forall q, wf_computer q -> Forall (fun t => OnQubits (nqubit q) (snd t)) O -> (a < nqubit q)%nat ->
       Runs q gs (fun psi psi' => exists phi, exp_product (trotter_factors factor m O) psi phi /\ psi' == controlled (fun I => xorb open (bit I a)) phi psi)).
Proof.
  intros O a factor open m Hm HO. rewrite factors_acting. unfold trotterize_w_cRz. rewrite trotter_scaled by exact Hm. destruct (scaled_opened factor m O) as (l & E & HI).
  { eapply Forall_impl; [|exact HO]. intros t H. apply H. }
  rewrite E. rewrite Forall_forall in HO. assert (HT : Forall (fun t => ctl_ok a (snd t)) l).
  { apply Forall_forall. intros t Ht. destruct (HI t Ht) as [c Hc]. destruct (HO _ Hc) as (_ & HW & HS & HA). split; [apply word_iff, HW|]. split; [apply support_nil, HS|exact HA]. }
  destruct (ctl_terms a open l HT [] C1) as (gs & EF & L & A & F). unfold exp_terms. rewrite EF. exists gs. split; [reflexivity|]. split; [exact L|].
  assert (HP : forall psi, exp_product (acting (opened l)) psi (eulers l psi)).
  { intros psi. apply eulers_product; [eapply Forall_impl; [|exact HT]; intros t Ht; apply Ht|apply seq_refl]. }
  split; [intros psi; exists (eulers l psi); auto|]. intros q HQ HF Ha. apply runs_applicable; [exact HQ| |].
  - apply F; [|exact Ha]. apply Forall_forall. intros t Ht. destruct (HI t Ht) as [c Hc]. rewrite Forall_forall in HF. apply (HF _ Hc).
  - intros phi Hphi. exists (eulers l (amp (coeff q))). split; [apply HP|]. eapply seq_trans; [exact Hphi|apply A].
Qed.
Print Assumptions C39_controlled_partial.
Theorem C39_raises : forall O a factor open m order,
  ((1 < order)%nat -> trotterize O factor m order = Throw (PyError "NotImplementedError") /\ trotterize_w_cRz O a factor open m order = Throw (PyError "NotImplementedError")) /\
  ((1 <= m)%nat -> (exists t, In t O /\ (1e-14 < Rabs (Re (factor * fst t * RtoC (/ INR m))))%R) ->
     (forall r, trotterize O factor m 1 <> Ok r) /\ forall r, trotterize_w_cRz O a factor open m 1 <> Ok r).
Proof.
  intros O a factor open m order. split.
  - intros H. unfold trotterize, trotterize_w_cRz, trotter_body. replace (Nat.eqb order 1) with false by (symmetry; apply Nat.eqb_neq; lia). rewrite andb_false_r. replace (Nat.ltb 1 order) with true by (symmetry; apply Nat.ltb_lt; lia). auto.
  - intros Hm (t & Ht & HR). assert (HI : In (factor * fst t * RtoC (/ INR m), snd t) (scaled factor m O)).
    { unfold scaled. destruct m as [|m']; [lia|]. cbn [repeat concat]. apply in_or_app. left. apply in_map_iff. exists t. split; [reflexivity|exact Ht]. }
    unfold trotterize, trotterize_w_cRz. rewrite !trotter_scaled by exact Hm. split; intros r E; unfold exp_terms in E;
    destruct (foreach_body _ _ _ _ E _ HI) as (s1 & s2 & E2); cbn [fst snd] in E2; rewrite C38_real_raises in E2 by exact HR; discriminate.
Qed.
Print Assumptions C39_raises.
(** refuted: an identity term of the operator multiplies the whole state by its phase, also
    when the control is not satisfied *)
Theorem C39_controlled_identity_refuted : exists gs phase, trotterize_w_cRz [(mkC 0 PI, [])] 0 C1 false 1 1 = Ok (gs, phase) /\
  ~ exists phi, exp_product (trotter_factors C1 1 [(mkC 0 PI, [])]) (ket 0) phi /\ sscale phase (circ_act gs (ket 0)) == controlled (fun I => bit I 0) phi (ket 0).
Proof.
  unfold trotterize_w_cRz. rewrite trotter_scaled by lia. unfold scaled, exp_terms, exponentiate_pauli_string. cbn [repeat concat map app fst snd foreach].
  replace (Re (C1 * mkC 0 PI * RtoC (/ INR 1))) with 0%R by (cbn; ring). rewrite Rabs_R0, Rltb_false by lra. cbn [bind fst snd app].
  eexists _, _. split; [reflexivity|]. intros (phi & _ & H). specialize (H 0%nat).
  replace (C1 * mkC 0 PI * RtoC (/ INR 1)) with (mkC 0 PI) in H by (apply C_ext; cbn; field). rewrite Cexp_imag in H. apply (f_equal Re) in H. revert H. unfold controlled, sscale, circ_act, ket, Ccis, bit. cbn. rewrite cos_PI. lra.
Qed.
Print Assumptions C39_controlled_identity_refuted.
Example C39_nonvacuous : Forall (fun t => Re (mkC 0 (-1) * fst t) = 0%R /\ Word (snd t) /\ (snd t = [] \/ support (snd t) <> [])) [(RtoC 2, [gP "X" 1; gP "Y" 0]); (RtoC (-3), []); (RtoC 5, [gP "Z" 1])].
Proof.
  assert (HW : forall l t, In l ["X"; "Y"; "Z"; "I"]%string -> make_gate l t t 0 = Ok (gP l t) -> exists l' t', In l' ["X"; "Y"; "Z"; "I"]%string /\ make_gate l' t' t' 0 = Ok (gP l t)) by eauto.
  apply Forall_cons; [|apply Forall_cons; [|apply Forall_cons; [|apply Forall_nil]]]; (split; [cbn; ring|split; [split|]]); try (right; discriminate); try (left; reflexivity); try (cbn; repeat constructor; cbn; lia);
    repeat (apply Forall_cons; [apply HW; [cbn; tauto|reflexivity]|]); apply Forall_nil.
Qed.

(** ---- C40 ---- *)
Theorem C40_qft : forall na nb, (na <= nb)%nat -> exists gs, qft_circuit na nb "forward" = Ok gs /\ Forall library_gate gs /\
  (forall psi, circ_act gs psi == dft 1 na (nb - na + 1) psi) /\
  (forall q, wf_computer q -> (nb < nqubit q)%nat -> exists q', qft q na nb = Ok q' /\ wf_computer q' /\ nqubit q' = nqubit q /\ amp (coeff q') == dft 1 na (nb - na + 1) (amp (coeff q))).
Proof.
  intros na nb H. unfold qft. rewrite QftProofs.qft_circuit_eq. cbn [String.eqb Ascii.eqb Bool.eqb bind]. replace (nb - na + 1)%nat with (nb + 1 - na)%nat by lia. set (n := (nb + 1 - na)%nat).
  exists (QftProofs.qft_gates na n). split; [reflexivity|]. split; [apply QftProofs.gates_lib|]. split; [intros psi; apply QftProofs.qft_act|]. intros q HQ Hn.
  destruct (sim_apply q (QftProofs.qft_gates na n) HQ) as (q' & E & W & N & A); [apply qft_applicable; lia|]. exists q'. split; [exact E|]. split; [exact W|]. split; [exact N|]. eapply seq_trans; [exact A|apply QftProofs.qft_act].
Qed.
Print Assumptions C40_qft.
Theorem C40_reverse_circuit : forall na nb, (na <= nb)%nat -> exists fw gs, qft_circuit na nb "forward" = Ok fw /\ qft_circuit na nb "reverse" = Ok gs /\
  (forall psi, circ_act gs psi == dft (-1) na (nb - na + 1) psi) /\
  (forall psi, circ_act gs (circ_act fw psi) == psi) /\ (forall psi, circ_act fw (circ_act gs psi) == psi) /\
  (forall q, wf_computer q -> (nb < nqubit q)%nat -> Runs q gs (fun psi phi => phi == dft (-1) na (nb - na + 1) psi)) /\
  (forall d, d <> "forward"%string -> d <> "reverse"%string -> qft_circuit na nb d = Throw (PyError "ValueError")).
Proof.
  intros na nb H. replace (nb - na + 1)%nat with (nb + 1 - na)%nat by lia. set (n := (nb + 1 - na)%nat). exists (QftProofs.qft_gates na n), (circuit_adjoint (QftProofs.qft_gates na n)).
  split; [rewrite QftProofs.qft_circuit_eq; reflexivity|]. split; [rewrite QftProofs.qft_circuit_eq; reflexivity|]. split; [intros psi; apply QftProofs.qft_adjoint_act|].
  split; [intros psi; apply circuit_adjoint_undoes, QftProofs.gates_lib|]. split; [intros psi; apply circuit_adjoint_undoes, QftProofs.gates_lib|]. split.
  - intros q HQ Hn. apply runs_applicable; [exact HQ|apply applicable_adjoint, qft_applicable; lia|]. intros phi Hphi. eapply seq_trans; [exact Hphi|apply QftProofs.qft_adjoint_act].
  - intros d H1 H2. rewrite QftProofs.qft_circuit_eq. apply String.eqb_neq in H1, H2. rewrite H1, H2. reflexivity.
Qed.
Print Assumptions C40_reverse_circuit.
(** refuted: rev_qft takes the adjoint once more and is the forward transform *)
Lemma rev_qft_forward na nb q : (na <= nb)%nat -> wf_computer q -> (nb < nqubit q)%nat ->
  exists q', rev_qft q na nb = Ok q' /\ amp (coeff q') == dft 1 na (nb - na + 1) (amp (coeff q)).
Proof.
  intros H HQ Hn. unfold rev_qft. rewrite QftProofs.qft_circuit_eq. cbn [String.eqb Ascii.eqb Bool.eqb bind]. replace (nb - na + 1)%nat with (nb + 1 - na)%nat by lia. set (n := (nb + 1 - na)%nat). set (gs := QftProofs.qft_gates na n).
  destruct (sim_apply q (circuit_adjoint (circuit_adjoint gs)) HQ) as (q' & E & _ & _ & A); [apply applicable_adjoint, applicable_adjoint, qft_applicable; lia|].
  exists q'. split; [exact E|]. eapply seq_trans; [exact A|]. eapply seq_trans; [|apply QftProofs.qft_act]. fold gs. pose proof (QftProofs.gates_lib na n) as HL. fold gs in HL.
  eapply seq_trans; [apply circ_act_ext, seq_sym, (proj1 (circuit_adjoint_undoes gs _ HL))|]. apply (proj1 (circuit_adjoint_undoes (circuit_adjoint gs) _ (adjoint_lib gs HL))).
Qed.
Definition two_qubits : computer := mkComputer 2 [C0; C0; C1; C0] [C0; C0; C0; C0] 0 0.
Theorem C40_rev_qft_refuted :
  (forall q na nb, (na <= nb)%nat -> wf_computer q -> (nb < nqubit q)%nat -> exists q', rev_qft q na nb = Ok q' /\ amp (coeff q') == dft 1 na (nb - na + 1) (amp (coeff q))) /\
  exists q q', wf_computer q /\ rev_qft q 0 1 = Ok q' /\ ~ amp (coeff q') == dft (-1) 0 2 (amp (coeff q)).
Proof.
  split; [intros; apply rev_qft_forward; assumption|]. exists two_qubits. assert (HW : wf_computer two_qubits) by (split; reflexivity). destruct (rev_qft_forward 0 1 two_qubits ltac:(lia) HW ltac:(cbn; lia)) as (q' & E & A).
  exists q'. split; [exact HW|]. split; [exact E|]. intros HD. specialize (HD 2%nat). rewrite (A 2%nat) in HD. change (1 - 0 + 1)%nat with 2%nat in HD.
  assert (HK : amp (coeff two_qubits) = ket 2).
  { apply FunctionalExtensionality.functional_extensionality. intros I. unfold amp, ket. cbn [two_qubits coeff]. destruct I as [|[|[|[|[|I]]]]]; reflexivity. }
  rewrite HK, !QftProofs.dft_ket in HD. change (val 0 2 2) with 1%nat in HD. change (put 0 2 2 1) with 2%nat in HD. cbn [Nat.eqb] in HD. apply (f_equal Im) in HD. revert HD. unfold Ccis. cbn [Im Cmul RtoC Re INR].
  replace (1 * (2 * PI * (1 * 1) / 2 ^ 2))%R with (PI / 2)%R by (cbn; field). replace (-1 * (2 * PI * (1 * 1) / 2 ^ 2))%R with (- (PI / 2))%R by (cbn; field). rewrite cos_neg, sin_neg, cos_PI2, sin_PI2.
  assert (HS : (0 < / sqrt (2 ^ 2))%R) by (apply Rinv_0_lt_compat, sqrt_lt_R0; cbn; lra). intros HH. lra.
Qed.
Print Assumptions C40_rev_qft_refuted.

(** ---- C41 ---- *)
Local Open Scope nat_scope.
Lemma sharp2 l t c g : no_angle_condition l = true -> make_gate l t c 0 = Ok g -> sharp g.
Proof. apply made_sharp. Qed.
Ltac tof_gates := repeat first [apply applicable_nil | apply applicable_cons].
Lemma three_applicable n i j k gs : i <> j -> i <> k -> j <> k -> i < n -> j < n -> k < n -> (Toffoli i j k = Ok gs \/ Fredkin i j k = Ok gs) -> applicable n gs.
Proof.
  intros Hij Hik Hjk Hi Hj Hk H.
  assert (HG : forall l t c g, t < n -> c < n -> no_angle_condition l = true -> py_gate2 l t c = Ok g -> make_gate l t c 0 = Ok g -> (library_gate g /\ sharp g /\ in_range n g) /\ (library_gate (gate_adjoint g) /\ sharp (gate_adjoint g) /\ in_range n (gate_adjoint g))).
  { intros l t c g Ht Hc HL E EM. pose proof (py_lib _ _ _ _ E) as L. pose proof (sharp2 _ _ _ _ HL EM) as S. destruct (make_gate_std _ _ _ _ _ EM) as (p & _ & _ & Et & Ec).
    assert (IR : in_range n g) by (unfold in_range; rewrite Et, Ec; auto). split; [auto|]. split; [apply lib_adjoint, L|]. split; [apply sharp_adjoint; assumption|apply in_range_adjoint, IR]. }
  assert (ET : forall t, t < n -> (library_gate (mkGate "T" t t m_T None) /\ sharp (mkGate "T" t t m_T None) /\ in_range n (mkGate "T" t t m_T None)) /\ (library_gate (gate_adjoint (mkGate "T" t t m_T None)) /\ sharp (gate_adjoint (mkGate "T" t t m_T None)) /\ in_range n (gate_adjoint (mkGate "T" t t m_T None)))).
  { intros t Ht. apply (HG "T"%string t t); auto; [apply pyT|]. unfold make_gate. rewrite Nat.eqb_refl. reflexivity. }
  assert (EH : forall t, t < n -> library_gate (mkGate "H" t t m_H None) /\ sharp (mkGate "H" t t m_H None) /\ in_range n (mkGate "H" t t m_H None)).
  { intros t Ht. apply (HG "H"%string t t); auto; [apply pyH|]. unfold make_gate. rewrite Nat.eqb_refl. reflexivity. }
  assert (EX : forall t c, t <> c -> t < n -> c < n -> library_gate (mkGate "cX" t c m_cX None) /\ sharp (mkGate "cX" t c m_cX None) /\ in_range n (mkGate "cX" t c m_cX None)).
  { intros t c Hne Ht Hc. apply (HG "cX"%string t c); auto; [apply pycX, Hne|]. unfold make_gate. rewrite neq_eqb by exact Hne. reflexivity. }
  assert (EV : forall t c, t <> c -> t < n -> c < n -> (library_gate (mkGate "cV" t c m_cV None) /\ sharp (mkGate "cV" t c m_cV None) /\ in_range n (mkGate "cV" t c m_cV None)) /\ (library_gate (gate_adjoint (mkGate "cV" t c m_cV None)) /\ sharp (gate_adjoint (mkGate "cV" t c m_cV None)) /\ in_range n (gate_adjoint (mkGate "cV" t c m_cV None)))).
  { intros t c Hne Ht Hc. apply (HG "cV"%string t c); auto; [apply pycV, Hne|]. unfold make_gate. rewrite neq_eqb by exact Hne. reflexivity. }
  destruct H as [H|H].
  - unfold Toffoli in H. rewrite !pyT, pyH, !pycX in H by auto. cbn [bind] in H. injection H as <-.
    repeat (apply applicable_cons; [first [apply ET; assumption|apply EH; assumption|apply EX; auto]|first [apply ET; assumption|apply EH; assumption|apply EX; auto]|first [apply ET; assumption|apply EH; assumption|apply EX; auto]|]). apply applicable_nil.
  - unfold Fredkin in H. rewrite !pycX, !pycV in H by auto. cbn [bind] in H. injection H as <-.
    repeat (apply applicable_cons; [first [apply EV; auto|apply EX; auto]|first [apply EV; auto|apply EX; auto]|first [apply EV; auto|apply EX; auto]|]). apply applicable_nil.
Qed.
(** |..i..j..k..> -> the third bit is flipped when the first two are set *)
Theorem C41_toffoli : forall i j k, i <> j -> i <> k -> j <> k -> exists gs, Toffoli i j k = Ok gs /\ Forall library_gate gs /\
  (forall psi I, circ_act gs psi I = psi (if bit I i && bit I j then flip I k else I)) /\
  (forall q, wf_computer q -> i < nqubit q -> j < nqubit q -> k < nqubit q -> Runs q gs (fun psi phi => forall I, phi I = psi (if bit I i && bit I j then flip I k else I))).
Proof.
  intros i j k Hij Hik Hjk. destruct (toffoli_act i j k Hij Hik Hjk) as (gs & E & L & A). exists gs. split; [exact E|]. split; [exact L|]. split; [exact A|].
  intros q HQ Hi Hj Hk. apply runs_applicable; [exact HQ|apply (three_applicable _ i j k); auto|]. intros phi Hphi I. rewrite (Hphi I). apply A.
Qed.
Print Assumptions C41_toffoli.
(** the second and third bit are exchanged when the first is set *)
Theorem C41_fredkin : forall i j k, i <> j -> i <> k -> j <> k -> exists gs, Fredkin i j k = Ok gs /\ Forall library_gate gs /\
  (forall psi I, circ_act gs psi I = psi (if bit I i then upd (upd I j (bit I k)) k (bit I j) else I)) /\
  (forall q, wf_computer q -> i < nqubit q -> j < nqubit q -> k < nqubit q -> Runs q gs (fun psi phi => forall I, phi I = psi (if bit I i then upd (upd I j (bit I k)) k (bit I j) else I))).
Proof.
  intros i j k Hij Hik Hjk. destruct (fredkin_act i j k Hij Hik Hjk) as (gs & E & L & A). exists gs. split; [exact E|]. split; [exact L|]. split; [exact A|].
  intros q HQ Hi Hj Hk. apply runs_applicable; [exact HQ|apply (three_applicable _ i j k); auto|]. intros phi Hphi I. rewrite (Hphi I). apply A.
Qed.
Print Assumptions C41_fredkin.
Example C41_nonvacuous : wf_computer (new_computer 3) /\ bit 3 0 && bit 3 1 = true /\ flip 3 2 = 7.
Proof. split; [apply new_computer_wf|split; reflexivity]. Qed.

(** ---- C53 ---- *)
(** determinants obtained from ref by moving the electrons of some singly occupied spatial
    orbitals to the other spin orbital ([spin_moved]), with the same |Sz| ([spin2] = 2 Sz);
    the loop of the code always ends: any fuel above 2^(number of orbitals) gives the result *)
Theorem C53_eq_dets : forall ref fuel, 2 ^ Nat.div (length ref) 2 < fuel ->
  exists l, build_eq_dets fuel ref = Ok l /\ NoDup l /\ forall d, In d l <-> spin_moved ref d /\ Z.abs (spin2 d) = Z.abs (spin2 ref).
Proof. intros ref fuel H. apply eq_dets_correct, H. Qed.
Print Assumptions C53_eq_dets.
(** in particular the determinant itself is listed *)
Theorem C53_contains_ref : forall ref fuel l, 2 ^ Nat.div (length ref) 2 < fuel -> build_eq_dets fuel ref = Ok l -> In ref l.
Proof. intros ref fuel l H E. destruct (C53_eq_dets ref fuel H) as (l' & E' & _ & HI). rewrite E in E'. injection E' as <-. apply HI. split; [apply moved_refl|reflexivity]. Qed.
Print Assumptions C53_contains_ref.
(** open_shell: some spatial orbital holds exactly one electron *)
Theorem C53_open_shell : forall ref, open_shell ref = true <-> exists i, i < Nat.div (length ref) 2 /\ nth (2 * i) ref 0 + nth (2 * i + 1) ref 0 = 1.
Proof.
  intros ref. unfold open_shell. rewrite existsb_exists. split; intros (i & A & B); exists i.
  - apply in_seq in A. apply Nat.eqb_eq in B. split; [lia|exact B].
  - split; [apply in_seq; lia|apply Nat.eqb_eq, B].
Qed.
Print Assumptions C53_open_shell.
Example C53_nonvacuous : build_eq_dets 5 [1; 0; 0; 1] = Ok [[1; 0; 0; 1]; [0; 1; 1; 0]] /\ 2 ^ Nat.div (length [1; 0; 0; 1]) 2 < 5.
Proof. split; [reflexivity|cbn; lia]. Qed.
