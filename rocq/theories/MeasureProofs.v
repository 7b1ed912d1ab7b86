(** apply_operator and serial expectation values. *)
From Coq Require Import Reals String List Arith Lia Bool Lra Permutation.
From Verif Require Import CBase Result Bits Spec GateModel ComputerModel CircuitModel OperatorModel SparseModel MeasureModel OpSpec
  ApplyProofs SafeProofs GateProofs LibProofs CleanProofs SimProofs PauliProofs PauliIdx SparseProofs SparseApply.
Import ListNotations.

Lemma vec_add_ok a : forall b, length a <= length b -> exists r, vec_add a b = Ok r /\ length r = length a /\
  forall I, I < length a -> nth I r C0 = (nth I a C0 + nth I b C0)%C.
Proof.
  induction a as [|x a IH]; intros b H; cbn [vec_add].
  - exists []. split; [reflexivity|]. split; [reflexivity|]. cbn; lia.
  - destruct b as [|y b]; cbn in H; [lia|]. destruct (IH b ltac:(lia)) as (r & E & L & HR). rewrite E. cbn [bind]. eexists; split; [reflexivity|].
    cbn [length]. split; [congruence|]. intros [|I] HI; cbn [nth]; [reflexivity|]. apply HR. cbn in HI; lia.
Qed.
Lemma amp_map_mul v a I : amp (map (fun x => (x * a)%C) v) I = (amp v I * a)%C.
Proof.
  unfold amp. destruct (Nat.lt_ge_cases I (length v)) as [H|H].
  - rewrite (nth_indep _ C0 (C0 * a)%C) by (rewrite map_length; exact H). apply (map_nth (fun x => (x * a)%C)).
  - rewrite !nth_overflow by (rewrite ?map_length; exact H). ring.
Qed.
Lemma inner_amp n a b : length a = 2 ^ n -> length b = 2 ^ n -> inner_product a b C0 = Ok (inner n (amp a) (amp b)).
Proof. intros Ha Hb. rewrite inner_product_ok by lia. rewrite Ha. f_equal. unfold inner, amp. ring. Qed.

(** terms a simulator of n qubits applies exactly *)
Definition term_ok (n : nat) (gs : list gate) : Prop := Forall (in_range n) gs /\ Forall gate_clean gs.
Lemma op_act_app a b psi I : op_act (a ++ b) psi I = (op_act a psi I + op_act b psi I)%C.
Proof. unfold op_act. apply Csum_app. Qed.
Definition same_state (q q' : computer) : Prop := nqubit q' = nqubit q /\ coeff q' = coeff q /\ wf_computer q'.
Lemma same_refl q : wf_computer q -> same_state q q.
Proof. intros H. split; [reflexivity|]. split; [reflexivity|exact H]. Qed.
Lemma same_trans a b c : same_state a b -> same_state b c -> same_state a c.
Proof. intros (A1 & A2 & A3) (B1 & B2 & B3). split; [congruence|]. split; [congruence|exact B3]. Qed.

Lemma circuit_restore q gs : wf_computer q -> term_ok (nqubit q) gs ->
  exists q', apply_circuit q gs = Ok q' /\ amp (coeff q') == circ_act gs (amp (coeff q)) /\ length (coeff q') = 2 ^ nqubit q /\ nqubit q' = nqubit q /\
    same_state q (set_coeff q' (coeff q)).
Proof.
  intros HQ [HR HC]. destruct (apply_circuit_correct gs q HQ HR HC) as (q' & E & (A1 & A2 & A3 & _ & _ & A6)).
  exists q'. split; [exact E|]. split; [exact A3|]. split; [exact A2|]. split; [exact A1|]. split; [exact A1|]. split; [reflexivity|].
  unfold wf_computer, nbasis. cbn [coeff set_coeff nqubit new_coeff]. rewrite A1. split; [apply HQ|exact A6].
Qed.
Lemma apply_operator_gen q0 o : wf_computer q0 -> Forall (fun t => term_ok (nqubit q0) (snd t)) o -> forall q result, same_state q0 q -> length result = 2 ^ nqubit q0 ->
  exists q' result', foreach o (fun t s =>
      let '(q, result) := s in
      do q <- apply_circuit q (snd t);
      let q := apply_constant q (fst t) in
      do result <- vec_add result (coeff q);
      Ok (set_coeff q (coeff q0), result)) (q, result) = Ok (q', result') /\ same_state q0 q' /\ length result' = 2 ^ nqubit q0 /\
   forall I, amp result' I = (amp result I + op_act o (amp (coeff q0)) I)%C.
Proof.
  intros HQ0. induction o as [|[c gs] o IH]; intros HT q result HS HL; cbn [foreach].
  - exists q, result. split; [reflexivity|]. split; [exact HS|]. split; [exact HL|]. intros I. unfold op_act; rewrite Csum_nil. ring.
  - inversion HT as [|? ? H1 HT']; subst. cbn [fst snd] in *. pose proof HS as (N & E0 & HQ).
    destruct (circuit_restore q gs HQ) as (q1 & E1 & A1 & L1 & N1 & S1); [rewrite N; exact H1|]. rewrite E1. cbn [bind].
    destruct (vec_add_ok result (coeff (apply_constant q1 c))) as (r & Er & Lr & Hr).
    { cbn [apply_constant coeff set_coeff]. rewrite map_length, L1, HL, N. lia. }
    rewrite Er. cbn [bind].
    destruct (IH HT' (set_coeff (apply_constant q1 c) (coeff q0)) r) as (q' & result' & E' & S' & L' & H').
    { rewrite <- E0. apply same_trans with q; [exact HS|]. exact S1. }
    { lia. }
    exists q', result'. split; [exact E'|]. split; [exact S'|]. split; [exact L'|]. intros I. rewrite H'.
    assert (HI : amp r I = (amp result I + c * circ_act gs (amp (coeff q0)) I)%C).
    { destruct (Nat.lt_ge_cases I (length result)) as [HI|HI].
      - unfold amp at 1. rewrite Hr by exact HI. fold (amp result I). fold (amp (coeff (apply_constant q1 c)) I). cbn [apply_constant coeff set_coeff]. rewrite amp_map_mul, A1, E0. ring.
      - unfold amp at 1 2. rewrite !nth_overflow by lia. assert (HZ : circ_act gs (amp (coeff q0)) I = C0).
        { rewrite <- E0, <- (A1 I). unfold amp. apply nth_overflow. rewrite L1, N, <- HL. exact HI. }
        rewrite HZ. ring. }
    rewrite HI. unfold op_act. rewrite Csum_cons. cbn [fst snd]. ring.
Qed.
Lemma apply_operator_ok q o : wf_computer q -> Forall (fun t => term_ok (nqubit q) (snd t)) o ->
  exists q', apply_operator q o = Ok q' /\ amp (coeff q') == op_act o (amp (coeff q)) /\ length (coeff q') = 2 ^ nqubit q /\ nqubit q' = nqubit q /\
   wf_computer q' /\ same_state q (set_coeff q' (coeff q)).
Proof.
  intros HQ HT. unfold apply_operator. destruct (apply_operator_gen q o HQ HT q (zeros (nbasis q)) (same_refl q HQ)) as (q' & r & E & HS & HL & HA); [apply zeros_length|].
  cbv zeta in E |- *. rewrite E. cbn [bind]. exists (set_coeff q' r). split; [reflexivity|]. cbn [coeff set_coeff nqubit]. split; [|split; [exact HL|split; [apply HS|split]]].
  - intros I. rewrite HA, amp_zeros. ring.
  - destruct HS as (A & B & (D1 & D2)). unfold wf_computer, nbasis in *. cbn [coeff set_coeff nqubit new_coeff]. rewrite A in *. split; [exact HL|exact D2].
  - destruct HS as (A & B & D). split; [exact A|]. split; [reflexivity|]. unfold wf_computer, nbasis in *. cbn [coeff set_coeff nqubit new_coeff]. rewrite A in *. split; [apply HQ|apply D].
Qed.
Lemma direct_op_serial q o : wf_computer q -> Forall (fun t => term_ok (nqubit q) (snd t)) o ->
  exists q', direct_op_exp_val None q o = Ok (inner (nqubit q) (amp (coeff q)) (op_act o (amp (coeff q))), q') /\ same_state q q'.
Proof.
  intros HQ HT. unfold direct_op_exp_val. destruct (apply_operator_ok q o HQ HT) as (q' & E & A & L & N & W & S). cbv zeta. rewrite E. cbn [bind].
  rewrite (inner_amp (nqubit q)) by (try exact L; apply HQ). cbn [bind]. eexists; split; [|exact S]. rewrite (inner_ext (nqubit q) _ _ _ _ (seq_refl _) A). reflexivity.
Qed.
Lemma direct_circ_serial q gs : wf_computer q -> term_ok (nqubit q) gs ->
  exists q', direct_circ_exp_val q gs = Ok (inner (nqubit q) (amp (coeff q)) (circ_act gs (amp (coeff q))), q') /\ same_state q q'.
Proof.
  intros HQ HT. unfold direct_circ_exp_val. destruct (circuit_restore q gs HQ HT) as (q' & E & A & L & N & S). cbv zeta. rewrite E. cbn [bind].
  rewrite (inner_amp (nqubit q)) by (try exact L; apply HQ). cbn [bind]. eexists; split; [|exact S]. rewrite (inner_ext (nqubit q) _ _ _ _ (seq_refl _) A). reflexivity.
Qed.

(** pools, for either path: [ev] is what direct_op_exp_val returns *)
Section Pools.
Variables (par : option schedule) (n : nat) (psi : list C) (ok : qop -> Prop) (ev : qop -> C).
Hypothesis Hev : forall q o, wf_computer q -> nqubit q = n -> coeff q = psi -> ok o -> exists q', direct_op_exp_val par q o = Ok (ev o, q') /\ same_state q q'.
Lemma oppl_ok p : Forall (fun t => ok (snd t)) p -> forall q rs, wf_computer q -> nqubit q = n -> coeff q = psi ->
  exists q', foreach p (fun t s => let '(results, q) := s in
     do r <- direct_op_exp_val par q (snd t); Ok ((results ++ [(fst r * fst t)%C])%list, snd r)) (rs, q) = Ok ((rs ++ map (fun t => (ev (snd t) * fst t)%C) p)%list, q') /\ same_state q q'.
Proof.
  induction p as [|t p IH]; intros HP q rs HQ HN HC; cbn [foreach map].
  - exists q. rewrite app_nil_r. split; [reflexivity|apply same_refl, HQ].
  - inversion HP; subst. destruct (Hev q (snd t) HQ eq_refl eq_refl) as (q1 & E1 & S1); [assumption|]. rewrite E1. cbn [bind fst snd].
    pose proof S1 as (N1 & C1' & W1). destruct (IH ltac:(assumption) q1 (rs ++ [(ev (snd t) * fst t)%C])%list W1 N1 C1') as (q' & E & S). exists q'. rewrite E, <- app_assoc. split; [reflexivity|]. eapply same_trans; eassumption.
Qed.
Lemma idxd_ok p idxs : Forall (fun t => ok (snd t)) p -> Forall (fun i => i < length p) idxs -> forall q rs, wf_computer q -> nqubit q = n -> coeff q = psi ->
  exists q', foreach idxs (fun idx s => let '(results, q) := s in
     do t <- vget p idx;
     do r <- direct_op_exp_val par q (snd t); Ok ((results ++ [(fst r * fst t)%C])%list, snd r)) (rs, q) =
     Ok ((rs ++ map (fun i => (ev (snd (nth i p (C0, []))) * fst (nth i p (C0, [])))%C) idxs)%list, q') /\ same_state q q'.
Proof.
  intros HP. induction idxs as [|i idxs IH]; intros HI q rs HQ HN HC; cbn [foreach map].
  - exists q. rewrite app_nil_r. split; [reflexivity|apply same_refl, HQ].
  - inversion HI; subst. rewrite (vget_ok p i (C0, [])) by assumption. cbn [bind].
    destruct (Hev q (snd (nth i p (C0, []))) HQ eq_refl eq_refl) as (q1 & E1 & S1). { rewrite Forall_forall in HP. apply HP, nth_In. assumption. }
    rewrite E1. cbn [bind fst snd]. pose proof S1 as (N1 & C1' & W1).
    destruct (IH ltac:(assumption) q1 (rs ++ [(ev (snd (nth i p (C0, []))) * fst (nth i p (C0, [])))%C])%list W1 N1 C1') as (q' & E & S). exists q'. rewrite E, <- app_assoc. split; [reflexivity|]. eapply same_trans; eassumption.
Qed.
End Pools.
(** pools with multipliers: [cv] is what the circuit expectation value returns *)
Definition circ_val (par : option schedule) (q : computer) (gs : list gate) : res (C * computer) :=
  match par with Some sched => do y <- direct_pauli_circ_exp_val sched q gs; Ok (y, q) | None => direct_circ_exp_val q gs end.
Section Mults.
Variables (par : option schedule) (n : nat) (psi : list C) (ok : list gate -> Prop) (cv : list gate -> C).
Hypothesis Hcv : forall q gs, wf_computer q -> nqubit q = n -> coeff q = psi -> ok gs -> exists q', circ_val par q gs = Ok (cv gs, q') /\ same_state q q'.
Lemma mult_term (o : qop) (c : C) mults : Forall (fun t => ok (snd t)) o -> length o <= length mults -> forall k a, a + k = length o -> forall q r, wf_computer q -> nqubit q = n -> coeff q = psi ->
  exists q', foreach (seq a k) (fun l s => let '(result, q) := s in
       do ml <- vget mults l; do tl <- vget o l;
       let val := (ml * c * fst tl)%C in
       do x <- match par with Some sched => do y <- direct_pauli_circ_exp_val sched q (snd tl); Ok (y, q) | None => direct_circ_exp_val q (snd tl) end;
       Ok ((result + val * fst x)%C, snd x)) (r, q) =
    Ok ((r + Csum (fun l => (nth l mults C0 * c * fst (nth l o (C0, [])) * cv (snd (nth l o (C0, []))))%C) (seq a k))%C, q') /\ same_state q q'.
Proof.
  intros HO HL. induction k as [|k IH]; intros a Ha q r HQ HN HC; cbn [seq foreach].
  - exists q. rewrite Csum_nil, Cadd_0_r. split; [reflexivity|apply same_refl, HQ].
  - rewrite (vget_ok mults a C0) by lia. cbn [bind]. rewrite (vget_ok o a (C0, [])) by lia. cbn [bind].
    destruct (Hcv q (snd (nth a o (C0, []))) HQ HN HC) as (q1 & E1 & S1). { rewrite Forall_forall in HO. apply HO, nth_In. lia. }
    unfold circ_val in E1. rewrite E1. cbn [bind fst snd]. pose proof S1 as (N1 & C1' & W1).
    destruct (IH (S a) ltac:(lia) q1 (r + nth a mults C0 * c * fst (nth a o (C0, [])) * cv (snd (nth a o (C0, []))))%C W1 ltac:(congruence) ltac:(congruence)) as (q' & E & S).
    exists q'. split; [etransitivity; [exact E|]; rewrite Csum_cons; f_equal; f_equal; ring|eapply same_trans; eassumption].
Qed.
Lemma mults_ok (p : qpool) mults : Forall (fun t => Forall (fun u => ok (snd u)) (snd t) /\ length (snd t) <= length mults) p -> forall q rs, wf_computer q -> nqubit q = n -> coeff q = psi ->
  exists q', foreach p (fun t s => let '(results, q) := s in
     do r <- foreach (seq 0 (length (snd t))) (fun l s => let '(result, q) := s in
               do ml <- vget mults l; do tl <- vget (snd t) l;
               let val := (ml * fst t * fst tl)%C in
               do x <- match par with Some sched => do y <- direct_pauli_circ_exp_val sched q (snd tl); Ok (y, q) | None => direct_circ_exp_val q (snd tl) end;
               Ok ((result + val * fst x)%C, snd x)) (C0, q);
     Ok ((results ++ [fst r])%list, snd r)) (rs, q) =
   Ok ((rs ++ map (fun t => Csum (fun l => (nth l mults C0 * fst t * fst (nth l (snd t) (C0, [])) * cv (snd (nth l (snd t) (C0, []))))%C) (seq 0 (length (snd t)))) p)%list, q') /\ same_state q q'.
Proof.
  induction p as [|t p IH]; intros HP q rs HQ HN HC; cbn [foreach map].
  - exists q. rewrite app_nil_r. split; [reflexivity|apply same_refl, HQ].
  - pose proof (Forall_inv HP) as [H1 H2]. pose proof (Forall_inv_tail HP) as HP'.
    destruct (mult_term (snd t) (fst t) mults H1 H2 (length (snd t)) 0 eq_refl q C0 HQ HN HC) as (q1 & E1 & S1).
    cbv zeta in E1 |- *. rewrite E1. cbn [bind fst snd]. pose proof S1 as (N1 & C1' & W1).
    rewrite Cadd_0_l. destruct (IH HP' q1 (rs ++ [Csum (fun l => (nth l mults C0 * fst t * fst (nth l (snd t) (C0, [])) * cv (snd (nth l (snd t) (C0, []))))%C) (seq 0 (length (snd t)))])%list W1 ltac:(congruence) ltac:(congruence)) as (q' & E & S).
    exists q'. cbv zeta in E. rewrite E, <- app_assoc. split; [reflexivity|]. eapply same_trans; eassumption.
Qed.
End Mults.

(** direct_gate_exp_val: always 0, and the gate has been applied *)
Lemma gate_exp_zero q g : wf_computer q -> in_range (nqubit q) g -> gate_clean g ->
  exists q', direct_gate_exp_val q g = Ok (C0, q') /\ amp (coeff q') == gate_act g (amp (coeff q)).
Proof.
  intros HQ HR HC. destruct (apply_gate_correct q g HQ HR HC) as (q' & E & HA).
  unfold apply_gate in E.
  unfold direct_gate_exp_val. cbv zeta.
  destruct (if (gnqubits g =? 1)%nat then apply_1qubit_gate q g else Ok q) as [q1|]; cbn [bind] in *; [|discriminate]. rewrite E. cbn [bind].
  destruct HA as (A1 & A2 & A3 & A4 & A5 & A6). 
  assert (HZ : inner_product (coeff q) (new_coeff q') C0 = Ok C0).
  { rewrite inner_product_ok. - f_equal. rewrite Cadd_0_l. apply Csum_zero. intros k _. rewrite A6. fold (amp (zeros (2 ^ nqubit q)) k). rewrite amp_zeros. ring.
    - rewrite A6, zeros_length. destruct HQ as [H _]. rewrite H. unfold nbasis; lia. }
  rewrite HZ. cbn [bind]. eexists; split; [reflexivity|]. exact A3.
Qed.
