(** Proofs about exponentials of Pauli strings. *)
From Coq Require Import Reals String List Arith Lia Bool Lra.
From Verif Require Import CBase Result Bits Spec GateModel ComputerModel SafeProofs GateProofs LibProofs InteractProofs CircuitModel PauliProofs GateEval ExpSpec PyModel ThreeQubit.
Import ListNotations.
Local Open Scope C_scope.

(** cos y psi + i sin y P psi *)
Definition euler (y : R) (P : state -> state) (psi : state) : state := sadd (sscale (RtoC (cos y)) psi) (sscale (Ci * RtoC (sin y)) (P psi)).
Definition linear (P : state -> state) : Prop :=
  (forall a b, a == b -> P a == P b) /\ (forall a b, P (sadd a b) == sadd (P a) (P b)) /\ (forall c a, P (sscale c a) == sscale c (P a)).
Lemma circ_linear gs : linear (circ_act gs).
Proof. split; [|split]; intros; [apply circ_act_ext; assumption|apply circ_act_add|apply circ_act_scale]. Qed.

(** ---- Euler's formula ---- *)
Lemma iter_even P psi : (forall a b, a == b -> P a == P b) -> (forall a, P (P a) == a) -> forall k, Nat.iter (2 * k) P psi == psi.
Proof.
  intros HE HI. induction k as [|k IH]; [intros I; reflexivity|]. replace (2 * S k)%nat with (S (S (2 * k))) by lia. cbn [Nat.iter].
  eapply seq_trans; [apply HI|exact IH].
Qed.
Lemma iter_odd P psi : (forall a b, a == b -> P a == P b) -> (forall a, P (P a) == a) -> forall k, Nat.iter (S (2 * k)) P psi == P psi.
Proof. intros HE HI k. cbn [Nat.iter nat_rect]. apply HE, iter_even; assumption. Qed.
Lemma pow_even y k : Cpow (mkC 0 y) (2 * k) = RtoC ((-1) ^ k * y ^ (2 * k)).
Proof.
  induction k as [|k IH]; [cbn; csolve|]. replace (2 * S k)%nat with (S (S (2 * k))) by lia. cbn [Cpow]. rewrite IH.
  apply C_ext; cbn [Re Im Cmul RtoC pow]; ring.
Qed.
Lemma pow_odd y k : Cpow (mkC 0 y) (S (2 * k)) = Ci * RtoC ((-1) ^ k * y ^ (S (2 * k))).
Proof. cbn [Cpow]. rewrite pow_even. apply C_ext; cbn [Re Im Cmul RtoC Ci pow]; ring. Qed.
Definition cos_sum (y : R) (n : nat) : R := sum_f_R0 (fun i => cos_n i * (y ^ 2) ^ i)%R n.
Definition sin_sum (y : R) (n : nat) : R := sum_f_R0 (fun i => y * (sin_n i * (y ^ 2) ^ i))%R n.
Lemma cos_sum_cv y : Un_cv (cos_sum y) (cos y).
Proof.
  unfold cos. destruct (exist_cos (Rsqr y)) as [l Hl]. unfold cos_in, infinite_sum in Hl. intros e He. destruct (Hl e He) as [N HN]. exists N. intros n Hn.
  specialize (HN n Hn). unfold cos_sum. rewrite (sum_eq (fun i => cos_n i * (y ^ 2) ^ i)%R (fun i => cos_n i * (Rsqr y) ^ i)%R); [exact HN|]. intros i _. unfold Rsqr. replace (y ^ 2)%R with (y * y)%R by ring. reflexivity.
Qed.
Lemma sin_sum_cv y : Un_cv (sin_sum y) (sin y).
Proof.
  unfold sin. destruct (exist_sin (Rsqr y)) as [l Hl]. unfold sin_in, infinite_sum in Hl.
  apply (Un_cv_ext (fun n => y * sum_f_R0 (fun i => sin_n i * (y ^ 2) ^ i) n)%R).
  { intros n. unfold sin_sum. rewrite scal_sum. apply sum_eq. intros; ring. }
  apply (CV_mult (fun _ => y) _ y l).
  - intros e He. exists 0%nat. intros n _. unfold R_dist. rewrite Rminus_diag_eq, Rabs_R0 by reflexivity. exact He.
  - intros e He. destruct (Hl e He) as [N HN]. exists N. intros n Hn. specialize (HN n Hn).
    rewrite (sum_eq (fun i => sin_n i * (y ^ 2) ^ i)%R (fun i => sin_n i * (Rsqr y) ^ i)%R); [exact HN|]. intros i _. unfold Rsqr. replace (y ^ 2)%R with (y * y)%R by ring. reflexivity.
Qed.
Lemma cv_div2 u l : Un_cv u l -> Un_cv (fun n => u (Nat.div n 2)) l.
Proof.
  intros H e He. destruct (H e He) as [N HN]. exists (2 * N)%nat. intros n Hn. apply HN. unfold ge in *. apply Nat.div_le_lower_bound; lia.
Qed.
Lemma cv_pred2 u l : Un_cv u l -> Un_cv (fun n => u (Nat.div (n - 1) 2)) l.
Proof.
  intros H e He. destruct (H e He) as [N HN]. exists (2 * N + 1)%nat. intros n Hn. apply HN. unfold ge in *. apply Nat.div_le_lower_bound; lia.
Qed.
Lemma cv_shift u l k : Un_cv (fun n => u (n + k)%nat) l -> Un_cv u l.
Proof. intros H e He. destruct (H e He) as [N HN]. exists (N + k)%nat. intros n Hn. specialize (HN (n - k)%nat ltac:(unfold ge in *; lia)). cbv beta in HN. replace (n - k + k)%nat with n in HN by (unfold ge in *; lia). exact HN. Qed.
(** the partial sums, for 2m+1 and 2m+2 *)
Lemma partial_S c A psi I n : exp_partial c A psi I (S n) = exp_partial c A psi I n + Cpow c (S n) * RtoC (/ INR (fact (S n))) * Nat.iter (S n) A psi I.
Proof. unfold exp_partial. rewrite (seq_S (S n)), Csum_app, Csum_cons, Csum_nil. cbn [Nat.add]. ring. Qed.
Section Euler.
Variables (P : state -> state) (psi : state) (y : R) (I : nat).
Hypothesis (HE : forall a b, a == b -> P a == P b) (HI : forall a, P (P a) == a).
Lemma term_even k : Cpow (mkC 0 y) (2 * k) * RtoC (/ INR (fact (2 * k))) * Nat.iter (2 * k) P psi I = RtoC (cos_n k * (y ^ 2) ^ k) * psi I.
Proof.
  rewrite pow_even, (iter_even P psi HE HI k I). unfold cos_n. rewrite <- pow_mult. apply C_ext; cbn [Re Im Cmul RtoC]; field; apply INR_fact_neq_0.
Qed.
Lemma term_odd k : Cpow (mkC 0 y) (S (2 * k)) * RtoC (/ INR (fact (S (2 * k)))) * Nat.iter (S (2 * k)) P psi I = Ci * RtoC (y * (sin_n k * (y ^ 2) ^ k)) * P psi I.
Proof.
  rewrite pow_odd, (iter_odd P psi HE HI k I). unfold sin_n. rewrite <- pow_mult. replace (2 * k + 1)%nat with (S (2 * k)) by lia. cbn [pow]. apply C_ext; cbn [Re Im Cmul RtoC Ci]; field; apply INR_fact_neq_0.
Qed.
Lemma partial_odd m : exp_partial (mkC 0 y) P psi I (S (2 * m)) = RtoC (cos_sum y m) * psi I + Ci * RtoC (sin_sum y m) * P psi I.
Proof.
  induction m as [|m IH].
  - rewrite partial_S, term_odd. pose proof (term_even 0) as T. change (2 * 0)%nat with 0%nat in *. unfold exp_partial. change (seq 0 1) with [0%nat]. rewrite Csum_cons, Csum_nil, T. unfold cos_sum, sin_sum. cbn [sum_f_R0]. ring.
  - replace (S (2 * S m)) with (S (S (S (2 * m)))) by lia. rewrite partial_S, partial_S, IH.
    replace (S (S (2 * m))) with (2 * S m)%nat by lia. rewrite term_even, term_odd. unfold cos_sum, sin_sum. cbn [sum_f_R0].
    apply C_ext; cbn [Re Im Cmul Cadd RtoC Ci]; ring.
Qed.
Lemma partial_eq n : exp_partial (mkC 0 y) P psi I (S n) = RtoC (cos_sum y (Nat.div (S n) 2)) * psi I + Ci * RtoC (sin_sum y (Nat.div n 2)) * P psi I.
Proof.
  destruct (Nat.Even_or_Odd n) as [[m ->]|[m ->]].
  - rewrite partial_odd. replace (Nat.div (S (2 * m)) 2) with m; [|apply (Nat.div_unique _ 2 m 1); lia]. replace (Nat.div (2 * m) 2) with m; [|apply (Nat.div_unique _ 2 m 0); lia]. reflexivity.
  - replace (2 * m + 1)%nat with (S (2 * m)) by lia. rewrite partial_S, partial_odd. replace (S (S (2 * m))) with (2 * S m)%nat by lia. rewrite term_even.
    replace (Nat.div (2 * S m) 2) with (S m); [|apply (Nat.div_unique _ 2 (S m) 0); lia]. replace (Nat.div (S (2 * m)) 2) with m; [|apply (Nat.div_unique _ 2 m 1); lia].
    unfold cos_sum. cbn [sum_f_R0]. apply C_ext; cbn [Re Im Cmul Cadd RtoC Ci]; ring.
Qed.
Lemma cv_const (a : R) : Un_cv (fun _ => a) a.
Proof. intros e He. exists 0%nat. intros n _. unfold R_dist. rewrite Rminus_diag_eq, Rabs_R0 by reflexivity. exact He. Qed.
Lemma cv_comb a b : Un_cv (fun n => cos_sum y (Nat.div (S n) 2) * a + sin_sum y (Nat.div n 2) * b)%R (cos y * a + sin y * b)%R.
Proof.
  apply CV_plus; (apply CV_mult; [|apply cv_const]).
  - intros e He. destruct (cv_div2 _ _ (cos_sum_cv y) e He) as [N HN]. exists N. intros n Hn. apply HN. unfold ge in *; lia.
  - apply cv_div2, sin_sum_cv.
Qed.
End Euler.
Lemma euler_is_exp P psi y : (forall a b, a == b -> P a == P b) -> (forall a, P (P a) == a) -> is_exp (mkC 0 y) P psi (euler y P psi).
Proof.
  intros HE HI I. split; apply (cv_shift _ _ 1).
  - apply (Un_cv_ext (fun n => cos_sum y (Nat.div (S n) 2) * Re (psi I) + sin_sum y (Nat.div n 2) * (- Im (P psi I)))%R).
    { intros n. rewrite Nat.add_1_r, partial_eq by assumption. cbn [Re Im Cmul Cadd RtoC Ci]. ring. }
    replace (Re (euler y P psi I)) with (cos y * Re (psi I) + sin y * (- Im (P psi I)))%R; [apply cv_comb|]. unfold euler, sadd, sscale. cbn [Re Im Cmul Cadd RtoC Ci]. ring.
  - apply (Un_cv_ext (fun n => cos_sum y (Nat.div (S n) 2) * Im (psi I) + sin_sum y (Nat.div n 2) * Re (P psi I))%R).
    { intros n. rewrite Nat.add_1_r, partial_eq by assumption. cbn [Re Im Cmul Cadd RtoC Ci]. ring. }
    replace (Im (euler y P psi I)) with (cos y * Im (psi I) + sin y * (Re (P psi I)))%R; [apply cv_comb|]. unfold euler, sadd, sscale. cbn [Re Im Cmul Cadd RtoC Ci]. ring.
Qed.
