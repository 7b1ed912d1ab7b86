(** The pieces of the gradient for pools of operators a (T - T^dagger): the circuits of the
    ansatz run on the simulator, and every operator satisfies the requirements of GradProofs. *)
From Coq Require Import Reals String List Arith Bool Lia Lra Sorted Permutation FunctionalExtensionality.
From Verif Require Import CBase Result Bits Spec OpSpec GateModel ComputerModel SafeProofs LibProofs CleanProofs CircuitModel PauliProofs OperatorModel OperatorProofs OrderProofs PauliIndep SQSpec SQModel SQProofs SQPhase JWProofs SQPoolModel SQPoolOps GsdProofs PyModel PyApply CompactModel CompactAct CompactFermi CompactProofs CompactGsd CompactApply TwoLevel PauliPhase ExpSpec ExpProofs TrotterProofs PropPy AnsatzSpec AnsatzOrder AnsatzModel AnsatzGen AnsatzJW AnsatzProofs AnsatzSa GradModel GradSpec GradCalc GradProofs PropMeasure PropAnsatz.
Import ListNotations.
Local Open Scope nat_scope.

Definition below (n : nat) (P H : list nat) : Prop := Forall (fun p => p < n) P /\ Forall (fun p => p < n) H.

(** ---- circuits of Pauli exponentials ---- *)
Lemma canonical_word P : canonical_pauli P -> P <> [] -> Word P /\ (P = [] \/ support P <> []).
Proof.
  intros (HP & HN) Ne. assert (FI : filter (fun g => negb (String.eqb (glabel g) "I")) P = P).
  { clear - HP. induction HP as [|g l Hg _ IH]; [reflexivity|]. cbn [filter]. rewrite IH. destruct (pauli_label_cases _ (proj1 Hg)) as [-> |[-> | ->]]; reflexivity. }
  split; [split|].
  - eapply Forall_impl; [|exact HP]. intros g Hg. exists (glabel g), (gtarget g). split; [|exact (proj2 Hg)]. destruct (pauli_label_cases _ (proj1 Hg)) as [-> |[-> | ->]]; cbn; tauto.
  - rewrite FI. now apply increasing_nodup.
  - right. unfold support. rewrite FI. destruct P; [contradiction|discriminate].
Qed.
Lemma trotter_applicable n O factor m gs phase : 1 <= m -> Forall (fun t => Re (factor * fst t) = 0%R) O -> Forall (fun u => canonical_pauli (snd u) /\ snd u <> []) O -> in_reg n O -> trotterize O factor m 1 = Ok (gs, phase) ->
  applicable n gs /\ phase = C1 /\ forall psi, exp_product (trotter_factors factor m O) psi (circ_act gs psi).
Proof.
  intros Hm HR HW HI ET.
  assert (HO : Forall (fun t => Re (factor * fst t)%C = 0%R /\ Word (snd t) /\ (snd t = [] \/ support (snd t) <> [])) O).
  { rewrite Forall_forall in *. intros u Iu. split; [now apply HR|]. destruct (HW u Iu). now apply canonical_word. }
  destruct (C39_trotterize O factor m Hm HO) as (gs' & phase' & ET' & _ & HX & _). rewrite ET in ET'. injection ET' as <- <-.
  assert (HP1 : phase = C1).
  { unfold trotterize in ET. rewrite trotter_scaled in ET by exact Hm. unfold exp_terms in ET. apply nonempty_phase in ET; [exact ET|]. unfold scaled. apply Forall_concat. apply Forall_forall. intros l Il. apply repeat_spec in Il. subst l. apply Forall_map. cbn [snd].
    eapply Forall_impl; [|exact HW]. intros u Hu. apply Hu. }
  split; [|split; [exact HP1|]].
  - unfold trotterize in ET. rewrite trotter_scaled in ET by exact Hm. destruct (scaled_opened factor m O HR) as (l & E & HL). rewrite E in ET.
    assert (HT : Forall (fun t => term_ok (snd t)) l).
    { rewrite Forall_forall in *. intros t Ht. destruct (HL t Ht) as [c Hc]. destruct (HO _ Hc) as (_ & H1 & H2). split; [apply word_iff, H1|]. destruct H2 as [H2|H2]; [left; exact H2|right; apply support_nil, H2]. }
    destruct (plain_terms l HT [] C1) as (gs2 & ph & EF & _ & _ & F). unfold exp_terms in ET. rewrite EF in ET. injection ET as <- _. apply F. unfold in_reg in HI. rewrite Forall_forall in *. intros t Ht. destruct (HL t Ht) as [c Hc]. specialize (HI _ Hc). cbn [snd] in HI. rewrite Forall_forall in HI. intros g Ig. now apply HI.
  - intros psi. specialize (HX psi). subst phase. replace (circ_act gs psi) with (sscale C1 (circ_act gs psi)); [exact HX|]. extensionality I. unfold sscale. ring.
Qed.

(** ---- the circuit of the ansatz ---- *)
Lemma compact_items_applicable n srt sort qe m items U : Forall (fun x => below n (up_ x) (dn_ x) /\ sharp_amplitude (length (up_ x)) (amp_ x * co_ x)) items ->
  ansatz_of_pool srt sort true qe m (map item_entry items) = Ok U -> applicable n U.
Proof.
  unfold ansatz_of_pool. intros F. assert (G : forall U0 U, applicable n U0 -> foreach (map item_entry items) (fun (ta : C * list fterm) (U : list gate) =>
      match nth_error (snd ta) 1 with None => Throw (PyError "IndexError") | Some t => do c <- compact_excitation_circuit (fst ta * fcoef t)%C (fcre t) (fann t) qe; Ok (U ++ c)%list end) U0 = Ok U -> applicable n U).
  { clear U. induction F as [|[t a P H] items ((B1 & B2) & Hs) _ IH]; intros U0 U A E; cbn [map foreach] in E; [congruence|]. unfold item_entry at 1 2 in E. cbn [amp_ co_ up_ dn_ fst snd nth_error Antihermitian] in *. unfold fcoef, fcre, fann in E. cbn [fst snd] in E.
    destruct (compact_excitation_circuit _ H P qe) as [circ|] eqn:EC; cbn [bind] in E; [|discriminate]. eapply IH; [|exact E]. apply applicable_app; [exact A|].
    replace (RtoC t * RtoC (- a))%C with (RtoC (- (t * a))) in EC by (apply C_ext; cbn; ring). eapply compact_applicable; [exact B2|exact B1| |exact EC]. intros k Hk. unfold Rdiv. rewrite Ropp_mult_distr_l_reverse. apply sharp_angle_neg. exact (Hs k Hk). }
  intros E. exact (G [] U (applicable_nil n) E).
Qed.
Lemma trotter_items_applicable n srt sort qe m items U : legal_sort srt -> legal_term_sort sort -> 1 <= m -> Forall trotter_ok items -> Forall (fun x => below n (up_ x) (dn_ x)) items ->
  ansatz_of_pool srt sort false qe m (map item_entry items) = Ok U -> applicable n U.
Proof.
  intros HS HT Hm HI HB. unfold ansatz_of_pool, get_qubit_operator. cbn [String.eqb Ascii.eqb Bool.eqb].
  destruct (children srt sort qe HS HT items HI ([], [])) as (pool' & cs & E & HF). rewrite E. cbn [bind fst snd app].
  destruct (trotterize (concat cs) C1 m 1) as [[gs ph]|e] eqn:ET; cbn [bind fst snd]; [|discriminate].
  destruct (trotter_applicable n (concat cs) C1 m gs ph Hm) as (A & -> & _); [| | |exact ET|].
  - apply (children_all qe items cs HF). intros x c HC. eapply Forall_impl; [|exact (ch_im _ _ _ HC)]. intros u Hu. replace (C1 * fst u)%C with (fst u) by ring. exact Hu.
  - apply (children_all qe items cs HF). intros x c HC. exact (ch_word _ _ _ HC).
  - clear - HF HB. induction HF as [|x c items cs HC _ IH]; [constructor|]. inversion HB as [|? ? (B1 & B2) HB']; subst. cbn [concat]. apply Forall_app. split; [apply (ch_reg _ _ _ HC n); assumption|now apply IH].
  - destruct (Ceq_dec C1 C1) as [_|K]; [|contradiction]. intros EU. injection EU as <-. exact A.
Qed.

(** ---- one operator ---- *)
Lemma excitable_two_level qe a P H : Excitable P H -> two_level (act qe (Antihermitian a P H)).
Proof.
  intros HE. destruct (excitable_structure qe P H HE) as (X & k & q0 & S). exists (flips X), (fun I => (a * k I)%R). split; [intros I; apply flips_twice, S|]. split; [intros I; rewrite (st_odd _ _ _ _ _ _ S); ring|].
  intros psi I. rewrite act_pair, (st_act _ _ _ _ _ _ S). unfold gen. apply C_ext; cbn; ring.
Qed.
Lemma pauli_applicable n q : canonical_op q -> in_reg n q -> Forall (fun u => applicable n (snd u)) q.
Proof.
  unfold canonical_op, in_reg. intros HC HI. rewrite Forall_forall in *. intros u Iu. specialize (HC u Iu). specialize (HI u Iu). destruct HC as (HP & _). apply (applicable_made n).
  - eapply Forall_impl; [|exact HP]. intros g (Hl & E). exists (glabel g), (gtarget g), (gtarget g), 0%R. split; [|exact E]. destruct (pauli_label_cases _ Hl) as [-> |[-> | ->]]; reflexivity.
  - rewrite Forall_forall in *. intros g Ig. pose proof (pauli_gate_1q g (HP g Ig)). specialize (HI g Ig). unfold in_range. lia.
Qed.
Lemma strings_steps K X k z : canonical_op K -> NoDup (map snd K) -> Forall (fun t => fst t <> C0) K -> NoDup X -> odd_under (flips X) k -> (forall psi I, op_act K psi I = gen (flips X) k psi I) ->
  forall j psi phi, exp_product (concat (repeat (map (fun t => (RtoC z * fst t, circ_act (snd t))%C) K) j)) psi phi -> phi == rot (flips X) (fun I => (INR j * z * k I)%R) psi.
Proof.
  intros CK NK ZK NX O A. assert (FF : forall I, flips X (flips X I) = I) by (intros I; now apply flips_twice).
  induction j as [|j IH]; intros psi phi E; cbn [repeat concat] in E.
  - cbn [exp_product] in E. intros I. rewrite (E I). cbn [INR]. rewrite (rot_ext _ _ (fun _ => 0%R) psi I) by ring. now rewrite rot_zero.
  - apply exp_product_app in E. destruct E as (chi & E1 & E2). apply (strings_product K X k z _ _ CK NK ZK NX O A) in E1. apply IH in E2. apply state_eq in E1. subst chi. intros I. rewrite (E2 I).
    rewrite rot_rot; [|exact FF|intros J; rewrite (O J); ring]. apply rot_ext. rewrite S_INR. ring.
Qed.
(** what the gradient needs to know about an operator of the pool: [compact] circuits or one-step Trotter circuits *)
Definition entry_fit (s : ucc) (n top : nat) (t : R) : Prop := exists a P H,
  pool_item (pool s) top = Ok (C1, Antihermitian a P H) /\ Standard a P H (Antihermitian a P H) /\ below n P H /\
  (if compact s then (qubit_excitations s = true \/ Supported P H) /\ sharp_amplitude (length P) (t * a) else 1 <= trotter_number s).
Lemma entry srt s n top t : legal_sort srt -> pool_type s <> "sa_SD"%string -> entry_fit s n top t -> entry_ok srt s n top t (act (qubit_excitations s) (op_at (pool s) top)).
Proof.
  intros HS Nt (a & P & H & EP & (_ & HE & L6 & Ha) & (BP & BH) & HB). set (qe := qubit_excitations s) in *.
  assert (EO : op_at (pool s) top = Antihermitian a P H). { unfold op_at. unfold pool_item in EP. destruct (Nat.lt_ge_cases top (length (pool s))) as [L|L]; [rewrite (vget_ok _ _ (C0, []) L) in EP; injection EP as ->; reflexivity|]. unfold vget in EP. rewrite (proj2 (nth_error_None _ _) L) in EP. discriminate. }
  rewrite EO. constructor; [now apply excitable_two_level|].
  pose proof HE as (Ne & LL & DP & DH & _). assert (L12 : length P + length H <= 12) by lia. pose proof (pow_ranks _ L12) as PR.
  destruct (jw_pair_exists qe P H Ne (excitable_ne _ _ HE) DP DH ltac:(lia)) as (q & J).
  set (K := op_mult_coeffs (op_mult_coeffs q (RtoC a)) C1).
  assert (EK : pool_K srt s top = Ok K). { unfold pool_K. rewrite EP. cbn [bind fst snd]. fold qe. rewrite (jp_jw _ _ _ _ J srt a HS) by lra. cbn [bind fst snd]. reflexivity. }
  assert (CK : canonical_op K) by (unfold K; do 2 apply mult_canonical; apply J).
  assert (RK : in_reg n K). { unfold K, op_mult_coeffs, in_reg. rewrite map_map. apply Forall_map. cbn [snd]. apply (jp_reg _ _ _ _ J n BP BH). }
  assert (AK : forall psi I, op_act K psi I = act qe (Antihermitian a P H) psi I). { intros psi I. unfold K. rewrite !mult_act, (jp_act _ _ _ _ J), act_pair. ring. }
  exists (C1, Antihermitian a P H), K. split; [exact EP|]. split; [exact EK|]. split; [now apply pauli_applicable|]. split; [intros psi I; apply AK|].
  unfold undo_circuit. rewrite (proj2 (String.eqb_neq _ _) Nt). fold qe. destruct (compact s).
  - destruct HB as (HB & Hs). cbn [snd py_get nth_error bind Antihermitian]. unfold fcoef, fcre, fann. cbn [fst snd]. replace (- RtoC t * RtoC (- a))%C with (RtoC (t * a)) by (apply C_ext; cbn; ring).
    destruct (compact_pair qe P H (t * a)) as (circ & E & HC); [split; assumption|]. exists circ. split; [exact E|]. split; [exact (compact_applicable n (t * a) H P qe circ BH BP Hs E)|].
    intros psi. rewrite pair_swap. apply act_multiple; [now apply excitable_swap|]. replace (- t * - a)%R with (t * a)%R by ring. apply HC.
  - destruct (excitable_structure qe P H HE) as (X & k & q0 & S).
    assert (NK : NoDup (map snd K)) by (unfold K; rewrite !mult_snd; apply J).
    assert (Za : a <> 0%R) by (intros ->; rewrite Rabs_R0 in Ha; lra).
    assert (ZK : Forall (fun u => fst u <> C0) K). { unfold K, op_mult_coeffs. rewrite map_map. apply Forall_map. cbn [fst]. eapply Forall_impl; [|apply (jp_nonzero _ _ _ _ J)]. intros u Hu Z. cbn beta in *. apply Cmul_integral in Z. destruct Z as [Z|Z]; [apply Cmul_integral in Z; destruct Z as [Z|Z]; [contradiction|]|]; apply (f_equal Re) in Z; cbn in Z; lra. }
    set (k' := fun I => (a * k I)%R). assert (O1 : odd_under (flips X) k') by (intros I; unfold k'; rewrite (st_odd _ _ _ _ _ _ S); ring).
    assert (A1 : forall psi I, op_act K psi I = gen (flips X) k' psi I). { intros psi I. rewrite AK, act_pair, (st_act _ _ _ _ _ _ S). unfold gen, k'. apply C_ext; cbn; ring. }
    assert (IM : Forall (fun u => Re (fst u) = 0%R) K) by (apply Forall_forall; intros u Iu; apply (all_imaginary K X _ CK NK ZK (st_nodup _ _ _ _ _ _ S) O1 A1 u Iu)).
    assert (WK : Forall (fun u => canonical_pauli (snd u) /\ snd u <> []) K).
    { apply Forall_forall. intros u Iu. unfold canonical_op in CK. split; [rewrite Forall_forall in CK; now apply CK|]. intros Eu. pose proof (mask_mem K X _ CK NK ZK (st_nodup _ _ _ _ _ _ S) A1 u) as M. rewrite Eu in M. pose proof (st_ne _ _ _ _ _ _ S) as NX. destruct X as [|x0 X']; [contradiction|]. apply (proj2 (M x0 Iu)). now left. }
    assert (RF : Forall (fun u => Re (- RtoC t * fst u)%C = 0%R) K). { eapply Forall_impl; [|exact IM]. intros u Hu. cbn beta in *. cbn [Cmul Cneg RtoC Re Im]. cbn. rewrite Hu. ring. }
    assert (HO : Forall (fun u => Re (- RtoC t * fst u)%C = 0%R /\ Word (snd u) /\ (snd u = [] \/ support (snd u) <> [])) K). { rewrite Forall_forall in *. intros u Iu. split; [now apply RF|]. destruct (WK u Iu). now apply canonical_word. }
    set (m := trotter_number s) in *. destruct (C39_trotterize K (- RtoC t)%C m HB HO) as (gs & ph & ET & _). destruct (trotter_applicable n K (- RtoC t)%C m gs ph HB RF WK RK ET) as (AG & -> & HX).
    rewrite ET. cbn [bind]. unfold without_phase. cbn [fst snd]. destruct (Ceq_dec C1 C1) as [_|Z]; [|contradiction]. exists gs. split; [reflexivity|]. split; [exact AG|].
    intros psi. specialize (HX psi). unfold trotter_factors in HX.
    rewrite (map_ext _ (fun u : C * list gate => (RtoC (- t / INR m) * fst u, circ_act (snd u))%C)) in HX by (intros u; f_equal; apply C_ext; cbn; unfold Rdiv; ring).
    apply (strings_steps K X k' (- t / INR m) CK NK ZK (st_nodup _ _ _ _ _ _ S) O1 A1) in HX. assert (Im : INR m <> 0%R) by (apply not_0_INR; lia).
    apply act_multiple; [exact HE|]. apply (is_exp_op _ (gen (flips X) k)); [intros p I; symmetry; apply (st_act _ _ _ _ _ _ S)|].
    apply (is_exp_res _ _ _ (rot (flips X) (fun J => (- t * a * k J)%R) psi)); [intros I; rewrite (HX I); apply rot_ext; unfold k'; field; exact Im|]. apply gen_exp; [intros I; apply flips_twice, S|apply S].
Qed.
