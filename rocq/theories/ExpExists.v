(** Exponentials of finite matrices exist: the exponential series converges. *)
From Coq Require Import Reals List Arith Lia Lra.
From Verif Require Import CBase Bits Spec ExpSpec SparseNorm SparseState.
Import ListNotations.
Local Open Scope R_scope.

(** the series of complex terms u converges to l *)
Definition Csums (u : nat -> C) (n : nat) : C := Csum u (seq 0 (S n)).
Definition Cconverges (u : nat -> C) (l : C) : Prop := Un_cv (fun n => Re (Csums u n)) (Re l) /\ Un_cv (fun n => Im (Csums u n)) (Im l).
Lemma Csums_S u n : Csums u (S n) = (Csums u n + u (S n))%C.
Proof. unfold Csums. rewrite (seq_S (S n)), Csum_app, Csum_cons, Csum_nil. cbn [Nat.add]. ring. Qed.
Lemma re_sums u n : Re (Csums u n) = sum_f_R0 (fun k => Re (u k)) n.
Proof. induction n as [|n IH]; [unfold Csums; cbn; ring|]. rewrite Csums_S. cbn [Cadd Re sum_f_R0]. now rewrite IH. Qed.
Lemma im_sums u n : Im (Csums u n) = sum_f_R0 (fun k => Im (u k)) n.
Proof. induction n as [|n IH]; [unfold Csums; cbn; ring|]. rewrite Csums_S. cbn [Cadd Im sum_f_R0]. now rewrite IH. Qed.
Lemma Rabs_Re z : Rabs (Re z) <= Cabs z.
Proof. unfold Cabs, Cnorm2. rewrite <- sqrt_Rsqr_abs. apply sqrt_le_1_alt. unfold Rsqr. pose proof (Rle_0_sqr (Im z)). unfold Rsqr in *. lra. Qed.
Lemma Rabs_Im z : Rabs (Im z) <= Cabs z.
Proof. unfold Cabs, Cnorm2. rewrite <- sqrt_Rsqr_abs. apply sqrt_le_1_alt. unfold Rsqr. pose proof (Rle_0_sqr (Re z)). unfold Rsqr in *. lra. Qed.
Lemma exp_terms_cv B r : { l : R | Un_cv (fun N => sum_f_R0 (fun k => B * (/ INR (fact k) * r ^ k)) N) l }.
Proof.
  destruct (exist_exp r) as (l & Hl). exists (B * l). assert (H : Un_cv (fun N => B * sum_f_R0 (fun k => / INR (fact k) * r ^ k) N) (B * l)).
  { apply (CV_mult (fun _ => B) _ B l); [|exact Hl]. intros eps He. exists 0%nat. intros n _. unfold R_dist. rewrite Rminus_diag_eq, Rabs_R0 by reflexivity. lra. }
  intros eps He. destruct (H eps He) as (N & HN). exists N. intros n Hn. specialize (HN n Hn). replace (sum_f_R0 (fun k => B * (/ INR (fact k) * r ^ k)) n) with (B * sum_f_R0 (fun k => / INR (fact k) * r ^ k) n); [exact HN|].
  rewrite scal_sum. apply sum_eq. intros; ring.
Qed.
Lemma real_series (a : nat -> R) B r : (forall k, Rabs (a k) <= B * (/ INR (fact k) * r ^ k)) -> { l : R | Un_cv (fun N => sum_f_R0 a N) l }.
Proof.
  intros H. apply cv_cauchy_2, cauchy_abs, cv_cauchy_1. apply (Rseries_CV_comp (fun i => Rabs (a i)) (fun k => B * (/ INR (fact k) * r ^ k))); [|apply exp_terms_cv].
  intros k. split; [apply Rabs_pos|apply H].
Qed.
Lemma complex_series (u : nat -> C) B r : (forall k, Cabs (u k) <= B * (/ INR (fact k) * r ^ k)) -> { l : C | Cconverges u l }.
Proof.
  intros H. destruct (real_series (fun k => Re (u k)) B r) as (x & Hx); [intros k; eapply Rle_trans; [apply Rabs_Re|apply H]|].
  destruct (real_series (fun k => Im (u k)) B r) as (y & Hy); [intros k; eapply Rle_trans; [apply Rabs_Im|apply H]|].
  exists (mkC x y). split; cbn [Re Im]; intros eps He; [destruct (Hx eps He) as (N & HN)|destruct (Hy eps He) as (N & HN)]; exists N; intros n Hn; [rewrite re_sums|rewrite im_sums]; now apply HN.
Qed.
(** matrix times vector, in dimension d *)
Definition mat_dot (d : nat) (A : nat -> nat -> C) (v : state) : state := fun i => Csum (fun j => (A i j * v j)%C) (seq 0 d).
Definition max_abs {X} (f : X -> C) (l : list X) : R := fold_right (fun x m => Cabs (f x) + m) 0 l.
Lemma max_abs_pos {X} (f : X -> C) l : 0 <= max_abs f l.
Proof. induction l as [|x l IH]; cbn; [lra|]. pose proof (Cabs_nonneg (f x)). unfold max_abs in IH. lra. Qed.
Lemma max_abs_in {X} (f : X -> C) l x : In x l -> Cabs (f x) <= max_abs f l.
Proof. induction l as [|y l IH]; cbn; [intros []|]. intros [<-|H]; [pose proof (max_abs_pos f l); unfold max_abs in *; lra|]. specialize (IH H). pose proof (Cabs_nonneg (f y)). unfold max_abs in IH. lra. Qed.
Lemma const_sum {X} (c : R) (l : list X) : fold_right (fun _ s => c + s) 0 l = INR (length l) * c.
Proof. induction l as [|x l IH]; [cbn; lra|]. cbn [fold_right length]. rewrite S_INR, IH. ring. Qed.
Definition entries (d : nat) : list (nat * nat) := list_prod (seq 0 d) (seq 0 d).
Lemma iter_bound d A v : let a := max_abs (fun p => A (fst p) (snd p)) (entries d) in let b := max_abs v (seq 0 d) in
  forall k i, (i < d)%nat -> Cabs (Nat.iter k (mat_dot d A) v i) <= b * (INR d * a) ^ k.
Proof.
  intros a b k. assert (Ha : 0 <= a) by apply max_abs_pos. assert (Hb : 0 <= b) by apply max_abs_pos. assert (Hd : 0 <= INR d) by apply pos_INR.
  induction k as [|k IH]; intros i Hi.
  - cbn. rewrite Rmult_1_r. apply max_abs_in. apply in_seq. lia.
  - cbn [Nat.iter]. unfold mat_dot at 1. eapply Rle_trans; [apply (Csum_bound _ (fun _ => a * (b * (INR d * a) ^ k)))|].
    + intros j Hj. apply in_seq in Hj. rewrite Cabs_mul. apply Rmult_le_compat; try apply Cabs_nonneg; [|apply IH; lia].
      apply (max_abs_in (fun p => A (fst p) (snd p)) (entries d) (i, j)). apply in_prod; apply in_seq; lia.
    + rewrite const_sum, seq_length. cbn [pow]. apply Req_le. ring.
Qed.
Lemma Cpow_abs c k : Cabs (Cpow c k) = Cabs c ^ k.
Proof. induction k as [|k IH]; cbn [Cpow pow]; [unfold Cabs, Cnorm2; cbn; replace (1 * 1 + 0 * 0) with 1 by ring; apply sqrt_1|]. now rewrite Cabs_mul, IH. Qed.
Definition exp_term (c : C) (A : state -> state) (v : state) (i k : nat) : C := (Cpow c k * RtoC (/ INR (fact k)) * Nat.iter k A v i)%C.
Lemma matrix_exp_at (c : C) d A v i : (i < d)%nat -> { l : C | Cconverges (exp_term c (mat_dot d A) v i) l }.
Proof.
  intros Hi. set (a := max_abs (fun p => A (fst p) (snd p)) (entries d)). set (b := max_abs v (seq 0 d)).
  apply (complex_series _ b (Cabs c * (INR d * a))). intros k. unfold exp_term. rewrite !Cabs_mul, Cpow_abs. assert (F : 0 < / INR (fact k)) by apply Rinv_0_lt_compat, INR_fact_lt_0.
  assert (HF : Cabs (RtoC (/ INR (fact k))) = / INR (fact k)). { unfold Cabs, Cnorm2, RtoC; cbn. rewrite Rmult_0_l, Rplus_0_r. apply sqrt_square. lra. }
  rewrite HF, Rpow_mult_distr. pose proof (iter_bound d A v k i Hi) as HB. cbv zeta in HB. fold a b in HB.
  replace (b * (/ INR (fact k) * (Cabs c ^ k * (INR d * a) ^ k))) with ((Cabs c ^ k * / INR (fact k)) * (b * (INR d * a) ^ k)) by ring.
  apply Rmult_le_compat_l; [|exact HB]. apply Rmult_le_pos; [apply pow_le, Cabs_nonneg|lra].
Qed.
(** exp(c A) v *)
Definition matrix_exp (c : C) (d : nat) (A : nat -> nat -> C) (v : state) (i : nat) : C :=
  match lt_dec i d with left H => proj1_sig (matrix_exp_at c d A v i H) | right _ => C0 end.
Lemma matrix_exp_spec c d A v i : (i < d)%nat -> Cconverges (exp_term c (mat_dot d A) v i) (matrix_exp c d A v i).
Proof. intros H. unfold matrix_exp. destruct (lt_dec i d) as [L|L]; [|lia]. apply proj2_sig. Qed.
Lemma is_exp_converges c A psi phi : is_exp c A psi phi <-> forall I, Cconverges (exp_term c A psi I) (phi I).
Proof. reflexivity. Qed.
