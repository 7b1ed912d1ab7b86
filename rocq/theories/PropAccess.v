(** Property theorems C13 (set_parameter), C56 (number of qubits of circuits and operators)
    and C57 (coefficient editing of operators and pools). *)
From Coq Require Import Reals String List Arith Lia Bool Lra.
From Verif Require Import CBase Result Bits Spec OpSpec GateModel LibProofs CircuitModel CircuitProofs OperatorModel PropCircuit.
Import ListNotations.
Local Open Scope nat_scope.

(** ---- C13: a single parameter ---- *)
(** the gate at [pos] gets the angle [x] (up to the period) and keeps its name and qubits;
    all the other gates stay *)
Theorem C13_set_parameter : forall gs pos x g, Forall plain_gate gs -> nth_error gs pos = Some g -> has_parameter g = true ->
  exists g' v, set_parameter gs pos x = Ok (firstn pos gs ++ g' :: skipn (S pos) gs) /\
    parameter g' = Some v /\ angle_matches g v x /\ glabel g' = glabel g /\ gtarget g' = gtarget g /\ gcontrol g' = gcontrol g /\ gmat g' = type_mat (gate_type g) v.
Proof.
  intros gs pos x g HF HG HP. assert (HI : In g gs) by (eapply nth_error_In, HG).
  destruct (remake g x (plain_std g (proj1 (Forall_forall _ _) HF g HI)) HP) as (g' & v0 & v & f & HM & G1 & G2 & GL & GT & GC & GA & GM & _).
  exists g', v. assert (HL : pos < length gs) by (apply nth_error_Some; congruence). split; [|repeat split; auto; unfold parameter; rewrite G2; reflexivity].
  unfold set_parameter. rewrite (proj2 (Nat.leb_gt _ _) HL). unfold vget. rewrite HG. cbn [bind]. rewrite HP, HM. cbn [bind]. rewrite vset_ok by exact HL. f_equal.
  clear - HL. revert pos HL. induction gs as [|a gs IH]; intros [|pos] HL; cbn in HL |- *; try lia; [reflexivity|]. f_equal. apply IH. lia.
Qed.
Theorem C13_set_parameter_raises : forall gs pos x, length gs <= pos \/ (exists g, nth_error gs pos = Some g /\ has_parameter g = false) ->
  set_parameter gs pos x = Throw RuntimeErr.
Proof.
  intros gs pos x [H|(g & HG & HP)]; unfold set_parameter; [rewrite (proj2 (Nat.leb_le _ _) H); reflexivity|].
  assert (HL : pos < length gs) by (apply nth_error_Some; congruence). rewrite (proj2 (Nat.leb_gt _ _) HL). unfold vget. rewrite HG. cbn [bind]. rewrite HP. reflexivity.
Qed.
Example C13_set_parameter_nonvacuous : exists g1 g2, make_gate "H" 1 1 0 = Ok g1 /\ make_gate "Rz" 0 0 1 = Ok g2 /\ Forall plain_gate [g1; g2] /\ nth_error [g1; g2] 1 = Some g2 /\ has_parameter g2 = true /\ has_parameter g1 = false.
Proof. do 2 eexists. do 2 (split; [reflexivity|]). split; [repeat constructor|]; [apply (pg_make "H" 1 1 0); reflexivity|apply (pg_make "Rz" 0 0 1); reflexivity|]. repeat split; reflexivity. Qed.

(** ---- C56 ---- *)
(** every gate acts inside a register of n qubits *)
Definition FitsIn (n : nat) (gs : list gate) : Prop := forall g, In g gs -> gtarget g < n /\ gcontrol g < n.
Lemma fold_max_le {A} (f : A -> nat) l : forall m n, fold_left (fun m a => Nat.max m (f a)) l m <= n <-> m <= n /\ forall a, In a l -> f a <= n.
Proof.
  induction l as [|x l IH]; intros m n; cbn [fold_left].
  - split; [intros H; split; [exact H|intros a []]|tauto].
  - rewrite IH. split.
    + intros [H1 H2]. split; [lia|]. intros a [<-|Ha]; [lia|auto].
    + intros [H1 H2]. split; [pose proof (H2 x (or_introl eq_refl)); lia|]. intros a Ha. apply H2. right; exact Ha.
Qed.
Theorem C56_circuit_width : forall gs n, num_qubits gs <= n <-> FitsIn n gs.
Proof.
  intros gs n. unfold num_qubits. rewrite (fold_max_le (fun g => Nat.max (gtarget g + 1) (gcontrol g + 1))). unfold FitsIn. split.
  - intros [_ H] g Hg. specialize (H g Hg). lia.
  - intros H. split; [lia|]. intros g Hg. specialize (H g Hg). lia.
Qed.
Theorem C56_operator_width : forall o n, op_num_qubits o <= n <-> forall c gs, In (c, gs) o -> FitsIn n gs.
Proof.
  intros o n. unfold op_num_qubits. rewrite (fold_max_le (fun t : C * list gate => num_qubits (snd t))). split.
  - intros [_ H] c gs Hg. apply C56_circuit_width. exact (H (c, gs) Hg).
  - intros H. split; [lia|]. intros [c gs] Hg. apply C56_circuit_width. exact (H c gs Hg).
Qed.
Example C56_nonvacuous : exists g1 g2, make_gate "X" 1 1 0 = Ok g1 /\ make_gate "cX" 0 4 0 = Ok g2 /\ num_qubits [g1; g2] = 5 /\ op_num_qubits [(C1, [g1; g2]); (C1, [g1])] = 5.
Proof. do 2 eexists. do 2 (split; [reflexivity|]). split; reflexivity. Qed.

(** ---- C57 ---- *)
Lemma zip_spec {A} cs : forall o : list (C * A), length cs = length o -> map fst (zip_coeffs cs o) = cs /\ map snd (zip_coeffs cs o) = map snd o.
Proof. induction cs as [|c cs IH]; intros [|[a x] o] H; cbn in H |- *; try discriminate; [split; reflexivity|]. destruct (IH o) as [H1 H2]; [lia|]. cbn in *. rewrite H1, H2. split; reflexivity. Qed.
(** set_coeffs replaces exactly the coefficients; a wrong number of them raises *)
Theorem C57_set_coeffs : forall o cs,
  (length cs = length o -> exists o', op_set_coeffs o cs = Ok o' /\ map fst o' = cs /\ map snd o' = map snd o) /\
  (length cs <> length o -> op_set_coeffs o cs = Throw InvalidArg).
Proof.
  intros o cs. unfold op_set_coeffs. split; intros H.
  - rewrite H, Nat.eqb_refl. cbn [negb]. destruct (zip_spec cs o H) as [H1 H2]. eauto.
  - destruct (Nat.eqb_spec (length cs) (length o)); [contradiction|reflexivity].
Qed.
Theorem C57_pool_set_coeffs : forall p cs,
  (length cs = length p -> exists p', pool_set_coeffs p cs = Ok p' /\ map fst p' = cs /\ map snd p' = map snd p) /\
  (length cs <> length p -> pool_set_coeffs p cs = Throw InvalidArg).
Proof.
  intros o cs. unfold pool_set_coeffs. split; intros H.
  - rewrite H, Nat.eqb_refl. cbn [negb]. destruct (zip_spec cs o H) as [H1 H2]. eauto.
  - destruct (Nat.eqb_spec (length cs) (length o)); [contradiction|reflexivity].
Qed.
(** set_op_coeffs gives the same coefficients to every operator of the pool *)
Theorem C57_pool_set_op_coeffs : forall p cs,
  (Forall (fun t => length cs = length (snd t)) p -> exists p', pool_set_op_coeffs p cs = Ok p' /\ map fst p' = map fst p /\
     Forall2 (fun t t' => map fst (snd t') = cs /\ map snd (snd t') = map snd (snd t)) p p') /\
  (~ Forall (fun t => length cs = length (snd t)) p -> pool_set_op_coeffs p cs = Throw InvalidArg).
Proof.
  intros p cs. split.
  - induction 1 as [|[c o] p HL HF IH]; [exists []; split; [reflexivity|]; split; [reflexivity|constructor]|].
    destruct IH as (p' & E & E1 & F). cbn [pool_set_op_coeffs]. cbn [snd] in HL. rewrite HL, Nat.eqb_refl. cbn [negb].
    destruct (proj1 (C57_set_coeffs o cs) HL) as (o' & EO & H1 & H2). rewrite EO. cbn [bind]. rewrite E. cbn [bind]. exists ((c, o') :: p'). split; [reflexivity|]. split; [cbn; congruence|]. constructor; [cbn; auto|exact F].
  - induction p as [|[c o] p IH]; intros H; [exfalso; apply H; constructor|]. cbn [pool_set_op_coeffs].
    destruct (Nat.eqb_spec (length cs) (length o)) as [HL|HL]; [|reflexivity]. cbn [negb].
    destruct (proj1 (C57_set_coeffs o cs) HL) as (o' & EO & _). rewrite EO. cbn [bind]. rewrite IH; [reflexivity|]. intros HF. apply H. constructor; assumption.
Qed.
(** the meaning of the editing methods as operators *)
Theorem C57_operator_meaning : forall o p c gs psi I,
  op_act (op_add_term o c gs) psi I = (op_act o psi I + c * circ_act gs psi I)%C /\
  op_act (op_add_op o p) psi I = (op_act o psi I + op_act p psi I)%C /\
  op_act (op_mult_coeffs o c) psi I = (c * op_act o psi I)%C.
Proof.
  intros o p c gs psi I. unfold op_act, op_add_term, op_add_op, op_mult_coeffs. repeat split.
  - rewrite Csum_app, Csum_cons, Csum_nil. cbn [fst snd]. ring.
  - apply Csum_app.
  - rewrite Csum_map, <- Csum_mul_l. apply Csum_ext. intros t _. cbn [fst snd]. ring.
Qed.
Example C57_nonvacuous : exists g, make_gate "X" 1 1 0 = Ok g /\ op_set_coeffs [(C1, [g]); (C0, [])] [Ci; C1] = Ok [(Ci, [g]); (C1, [])].
Proof. eexists. split; reflexivity. Qed.

Print Assumptions C13_set_parameter. Print Assumptions C13_set_parameter_raises. Print Assumptions C56_circuit_width. Print Assumptions C56_operator_width.
Print Assumptions C57_set_coeffs. Print Assumptions C57_pool_set_coeffs. Print Assumptions C57_pool_set_op_coeffs. Print Assumptions C57_operator_meaning.
