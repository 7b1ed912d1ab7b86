(** Sparse matrices applied to states. *)
From Coq Require Import Reals String List Arith Lia Bool Lra.
From Verif Require Import CBase Result Bits Spec GateModel ComputerModel CircuitModel OperatorModel SparseModel OpSpec
  ApplyProofs SafeProofs GateProofs LibProofs CleanProofs SimProofs PauliProofs PauliIdx SparseProofs SparseApply SparseNorm MeasureModel MeasureProofs.
Import ListNotations.
Local Open Scope R_scope.

Lemma circ_resolve n gs : Forall (in_range n) gs -> forall psi J, (J < 2 ^ n)%nat ->
  circ_act gs psi J = Csum (fun K => (circ_act gs (ket K) J * psi K)%C) (seq 0 (2 ^ n)).
Proof.
  induction gs as [|g r IH]; intros HR psi J HJ.
  - unfold circ_act; cbn [fold_left]. symmetry. apply ket_sum, HJ.
  - inversion HR as [|? ? Hg HR']; subst. rewrite circ_act_cons, (IH HR' _ J HJ).
    transitivity (Csum (fun L => Csum (fun K => (circ_act r (ket L) J * (gate_act g (ket K) L * psi K))%C) (seq 0 (2 ^ n))) (seq 0 (2 ^ n))).
    + apply Csum_ext. intros L HL. apply in_seq in HL. rewrite <- (gate_resolve n g psi L Hg) by lia. rewrite Csum_mul_l. reflexivity.
    + rewrite Csum_swap. apply Csum_ext. intros K _. rewrite circ_act_cons, (IH HR' _ J HJ), <- Csum_mul_r. apply Csum_ext. intros; ring.
Qed.
Lemma op_resolve n o : Forall (fun t => Forall (in_range n) (snd t)) o -> forall psi J, (J < 2 ^ n)%nat ->
  op_act o psi J = Csum (fun K => (op_act o (ket K) J * psi K)%C) (seq 0 (2 ^ n)).
Proof.
  intros HR psi J HJ. unfold op_act.
  transitivity (Csum (fun t : C * list gate => Csum (fun K => (fst t * circ_act (snd t) (ket K) J * psi K)%C) (seq 0 (2 ^ n))) o).
  - apply Csum_ext. intros t Ht. rewrite Forall_forall in HR. rewrite (circ_resolve n _ (HR t Ht) psi J HJ), <- Csum_mul_l. apply Csum_ext. intros; ring.
  - rewrite Csum_swap. apply Csum_ext. intros K _. rewrite Csum_mul_r. reflexivity.
Qed.
Definition l1 (n : nat) (psi : state) : R := fold_right (fun K s => Cabs (psi K) + s) 0 (seq 0 (2 ^ n)).
Lemma Csum_bound (f : nat -> C) (g : nat -> R) l : (forall x, In x l -> Cabs (f x) <= g x) -> Cabs (Csum f l) <= fold_right (fun x s => g x + s) 0 l.
Proof.
  induction l as [|x l IH]; intros H; [rewrite Csum_nil, Cabs_C0; cbn; lra|]. rewrite Csum_cons. cbn [fold_right]. eapply Rle_trans; [apply Cabs_triangle|].
  apply Rplus_le_compat; [apply H; left; reflexivity|]. apply IH. intros; apply H; right; assumption.
Qed.
Lemma sum_scale (f : nat -> R) e l : fold_right (fun x s => e * f x + s) 0 l = e * fold_right (fun x s => f x + s) 0 l.
Proof. induction l as [|x l IH]; cbn; [ring|]. rewrite IH. ring. Qed.
Lemma apply_close n (M : nat -> nat -> C) (U : nat -> nat -> C) psi e J :
  (forall K, (K < 2 ^ n)%nat -> Cabs (M J K - U J K)%C <= e) ->
  Cabs (Csum (fun K => (M J K * psi K)%C) (seq 0 (2 ^ n)) - Csum (fun K => (U J K * psi K)%C) (seq 0 (2 ^ n)))%C <= e * l1 n psi.
Proof.
  intros H.
  replace (Csum (fun K => (M J K * psi K)%C) (seq 0 (2 ^ n)) - Csum (fun K => (U J K * psi K)%C) (seq 0 (2 ^ n)))%C
    with (Csum (fun K => ((M J K - U J K) * psi K)%C) (seq 0 (2 ^ n))).
  - eapply Rle_trans; [apply (Csum_bound _ (fun K => e * Cabs (psi K)))|].
    + intros K HK. apply in_seq in HK. rewrite Cabs_mul. apply Rmult_le_compat_r; [apply Cabs_nonneg|]. apply H; lia.
    + unfold l1. rewrite sum_scale. lra.
  - transitivity (Csum (fun K => (M J K * psi K + (- C1) * (U J K * psi K))%C) (seq 0 (2 ^ n))); [apply Csum_ext; intros; ring|].
    rewrite Csum_add, Csum_mul_l. ring.
Qed.
Lemma sparse_state q M : wf_computer q -> wfm M -> keys_in (2 ^ nqubit q) M -> exists q', apply_sparse_matrix q M = Ok q' /\ wf_computer q' /\ nqubit q' = nqubit q /\
  forall J, amp (coeff q') J = Csum (fun K => (sget M J K * amp (coeff q) K)%C) (seq 0 (2 ^ nqubit q)).
Proof. intros HQ HW HK. exact (apply_sparse_ok q M HQ HW HK). Qed.
Lemma amp_beyond q J : wf_computer q -> (2 ^ nqubit q <= J)%nat -> amp (coeff q) J = C0.
Proof. intros [H _] HJ. unfold amp. apply nth_overflow. unfold nbasis in H. lia. Qed.

(** *** which gates have only entries above 1e-14 *)
Definition big (z : C) : Prop := z = C0 \/ / 4 <= Cnorm2 z.
Lemma big_sharp z : big z -> z = C0 \/ thr14 < Cabs z.
Proof.
  intros [->|H]; [left; reflexivity|right]. apply Rlt_le_trans with (1 / 2); [unfold thr14; lra|].
  replace (1 / 2) with (sqrt (/ 4)). { apply sqrt_le_1_alt; exact H. }
  replace (/ 4) with ((1 / 2) * (1 / 2)) by lra. apply sqrt_square; lra.
Qed.
Lemma big_conj z : big z -> big (Cconj z).
Proof. intros [->|H]; [left; csolve|right]. unfold Cnorm2 in *; cbn; lra. Qed.
Lemma big_cis x : big (Ccis x).
Proof. right. unfold Cnorm2. cbn. pose proof (sin2_cos2 x) as H. unfold Rsqr in H. lra. Qed.
Definition fixed_angle (ty : gtype) : bool := match ty with TRx | TRy | TA => false | _ => true end.
Lemma mk44_out rows i j : (4 <= i \/ 4 <= j)%nat -> (length rows <= 4)%nat -> Forall (fun r => (length r <= 4)%nat) rows -> mk44 rows i j = C0.
Proof.
  intros H HL HF. unfold mk44. destruct (Nat.lt_ge_cases i (length rows)) as [Hi|Hi].
  - apply nth_overflow. rewrite Forall_forall in HF. specialize (HF (nth i rows []) (nth_In _ _ Hi)). lia.
  - rewrite (nth_overflow rows) by exact Hi. destruct j; reflexivity.
Qed.
Ltac big_entry :=
  match goal with
  | |- big C0 => left; reflexivity
  | |- big (Ccis _) => apply big_cis
  | |- big (Cconj _) => apply big_conj; big_entry
  | |- _ => right; unfold Cnorm2; simpl; fold rsqrt2; pose proof rsqrt2_sq; try lra; nra
  end.
Lemma big_type ty p i j : ty <> TUndefined -> fixed_angle ty = true -> big (type_mat ty p i j).
Proof.
  intros HD HS. destruct (Nat.lt_ge_cases i 4) as [Hi|Hi]; [destruct (Nat.lt_ge_cases j 4) as [Hj|Hj]|].
  - revert i Hi j Hj. destruct ty; try congruence; try discriminate; cbn [type_mat];
    refine (lt4_cases _ _ _ _ _); refine (lt4_cases _ _ _ _ _);
    unfold m_X, m_Y, m_Z, m_H, m_R, m_Rx, m_Ry, m_Rz, m_V, m_S, m_T, m_I, m_A, m_cX, m_acX, m_cY, m_cZ, m_cR, m_cV, m_cRz, m_SWAP, madj, mk44;
    cbn [nth]; big_entry.
  - destruct ty; try congruence; cbn [type_mat]; unfold madj;
    unfold m_X, m_Y, m_Z, m_H, m_R, m_Rx, m_Ry, m_Rz, m_V, m_S, m_T, m_I, m_A, m_cX, m_acX, m_cY, m_cZ, m_cR, m_cV, m_cRz, m_SWAP;
    try apply big_conj; left; apply mk44_out; cbn [length]; try lia; repeat constructor.
  - destruct ty; try congruence; cbn [type_mat]; unfold madj;
    unfold m_X, m_Y, m_Z, m_H, m_R, m_Rx, m_Ry, m_Rz, m_V, m_S, m_T, m_I, m_A, m_cX, m_acX, m_cY, m_cZ, m_cR, m_cV, m_cRz, m_SWAP;
    try apply big_conj; left; apply mk44_out; cbn [length]; try lia; repeat constructor.
Qed.
Lemma fixed_sharp14 type t c x g : no_angle_condition type = true -> make_gate type t c x = Ok g -> sharp14 g.
Proof.
  intros HN HM i j. destruct (make_gate_std _ _ _ _ _ HM) as (p & HS & HL & _). apply big_sharp. rewrite (sg_mat _ _ _ HS). apply big_type; [apply (sg_def _ _ _ HS)|].
  unfold no_angle_condition in HN. unfold mapLabelToType.
  repeat match goal with |- context [String.eqb ?a ?b] => destruct (String.eqb_spec a b) as [->|?]; try reflexivity; try discriminate HN end.
Qed.
