(** Proofs about the generalised eigenvalue solver. *)
From Coq Require Import Reals String List Arith Lia Bool Lra Permutation.
From Verif Require Import CBase Result Spec EigModel.
Import ListNotations.
Local Open Scope C_scope.

(** the contract of scipy.linalg.eig *)
Definition eig_contract (eig : eig_oracle) (n : nat) (A : mat) : Prop :=
  length (fst (eig n A)) = n /\
  forall i j, (i < n)%nat -> (j < n)%nat -> mdot n A (snd (eig n A)) i j = nth j (fst (eig n A)) C0 * snd (eig n A) i j.
Definition delta (i j : nat) : C := if Nat.eqb i j then C1 else C0.
Definition orthonormal_columns (n : nat) (U : mat) : Prop := forall i j, (i < n)%nat -> (j < n)%nat -> mdot n (madj U) U i j = delta i j.
Definition orthonormal_rows (n : nat) (U : mat) : Prop := forall i j, (i < n)%nat -> (j < n)%nat -> mdot n U (madj U) i j = delta i j.
Definition hermitian (n : nat) (S : mat) : Prop := forall i j, (i < n)%nat -> (j < n)%nat -> Cconj (S i j) = S j i.

Lemma mdot_assoc p q A B D i j : mdot p (mdot q A B) D i j = mdot q A (mdot p B D) i j.
Proof.
  unfold mdot. transitivity (Csum (fun l => Csum (fun k => A i k * B k l * D l j) (seq 0 q)) (seq 0 p)).
  - apply Csum_ext. intros l _. rewrite <- Csum_mul_r. reflexivity.
  - rewrite Csum_swap. apply Csum_ext. intros k _. rewrite <- Csum_mul_l. apply Csum_ext. intros l _. ring.
Qed.
Lemma mdot_ext_r k A B B' i j : (forall l, (l < k)%nat -> B l j = B' l j) -> mdot k A B i j = mdot k A B' i j.
Proof. intros H. apply Csum_ext. intros l Hl. apply in_seq in Hl. rewrite H by lia. reflexivity. Qed.
Lemma mdot_ext_l k A A' B i j : (forall l, (l < k)%nat -> A i l = A' i l) -> mdot k A B i j = mdot k A' B i j.
Proof. intros H. apply Csum_ext. intros l Hl. apply in_seq in Hl. rewrite H by lia. reflexivity. Qed.
Lemma Csum_delta (f : nat -> C) k : forall a i, (a <= i < a + k)%nat -> Csum (fun l => delta i l * f l) (seq a k) = f i.
Proof.
  induction k as [|k IH]; intros a i H; [lia|]. cbn [seq]. rewrite Csum_cons. unfold delta at 1. destruct (Nat.eqb_spec i a) as [->|N].
  - rewrite Csum_zero; [ring|]. intros l Hl. apply in_seq in Hl. unfold delta. destruct (Nat.eqb_spec a l); [lia|]. ring.
  - rewrite IH by lia. ring.
Qed.
Lemma mdot_delta_l k B i j : (i < k)%nat -> mdot k delta B i j = B i j.
Proof. intros H. unfold mdot. apply (Csum_delta (fun l => B l j)). lia. Qed.
Lemma mdot_scal_r k A B c i j : mdot k A (fun a b => c * B a b) i j = c * mdot k A B i j.
Proof. unfold mdot. rewrite <- Csum_mul_l. apply Csum_ext. intros; ring. Qed.

Lemma RtoC_mul a b : RtoC (a * b)%R = RtoC a * RtoC b.
Proof. csolve. Qed.
Lemma Csum_sub {A} (f g : A -> C) l : Csum (fun x => f x - g x) l = Csum f l - Csum g l.
Proof. induction l as [|x l IH]; rewrite ?Csum_nil, ?Csum_cons; [csolve|]. rewrite IH. ring. Qed.
Lemma filter_all {A} (f : A -> bool) l : (forall x, In x l -> f x = true) -> filter f l = l.
Proof. induction l as [|x l IH]; intros H; [reflexivity|]. cbn. rewrite H by (left; reflexivity). f_equal. apply IH. intros y Hy. apply H. right; exact Hy. Qed.
Lemma nth_firstn_lt {A} j k (l : list A) d : (j < k)%nat -> nth j (firstn k l) d = nth j l d.
Proof. revert j l. induction k as [|k IH]; intros j l H; [lia|]. destruct l as [|x l]; [destruct j; reflexivity|]. destruct j as [|j]; [reflexivity|]. cbn. apply IH. lia. Qed.
Lemma nth_skipn' {A} j k (l : list A) d : nth j (skipn k l) d = nth (k + j) l d.
Proof. revert l. induction k as [|k IH]; intros l; [reflexivity|]. destruct l as [|x l]; [cbn; destruct j; reflexivity|]. cbn. apply IH. Qed.
Lemma keep_spec s : forall s', keep_eigenvalues s = Ok s' -> s' = map Re (filter (fun x => Rltb 1e-15 (Re x)) s) /\ Forall (fun x => Im x <= 1e-12)%R s.
Proof.
  induction s as [|x s IH]; intros s' H; cbn [keep_eigenvalues] in H; [injection H as <-; auto|].
  destruct (Rltb_spec 1e-12 (Im x)) as [|HI]; [discriminate|]. destruct (keep_eigenvalues s) as [r|]; [|discriminate]. cbn [bind] in H. injection H as <-.
  destruct (IH r eq_refl) as [-> HF]. split; [cbn [filter]; destruct (Rltb 1e-15 (Re x)); reflexivity|]. constructor; [lra|exact HF].
Qed.
Lemma keep_ok s : Forall (fun x => Im x <= 1e-12)%R s -> keep_eigenvalues s = Ok (map Re (filter (fun x => Rltb 1e-15 (Re x)) s)).
Proof.
  induction 1 as [|x s H _ IH]; [reflexivity|]. cbn [keep_eigenvalues filter]. destruct (Rltb_spec 1e-12 (Im x)); [lra|]. rewrite IH. cbn [bind]. destruct (Rltb 1e-15 (Re x)); reflexivity.
Qed.
Lemma keep_raises s : Exists (fun x => 1e-12 < Im x)%R s -> keep_eigenvalues s = Throw (PyError "ValueError").
Proof.
  induction 1 as [x s H|x s H IH]; cbn [keep_eigenvalues]; destruct (Rltb_spec 1e-12 (Im x)); try reflexivity; [lra|]. rewrite IH. reflexivity.
Qed.
(** eigenvalues of a Hermitian matrix with orthonormal eigenvectors are real *)
Lemma herm_real eig n S : eig_contract eig n S -> orthonormal_columns n (snd (eig n S)) -> hermitian n S ->
  forall j, (j < n)%nat -> Cconj (nth j (fst (eig n S)) C0) = nth j (fst (eig n S)) C0.
Proof.
  intros [HL HE] HO HH j Hj. set (U := snd (eig n S)) in *. set (lam := nth j (fst (eig n S)) C0).
  assert (E : mdot n (madj U) (mdot n S U) j j = lam).
  { rewrite (mdot_ext_r n _ _ (fun a b => lam * U a b)); [rewrite mdot_scal_r, HO by assumption; unfold delta; rewrite Nat.eqb_refl; ring|].
    intros l Hl. rewrite HE by assumption. reflexivity. }
  rewrite <- E at 1. rewrite <- E. unfold mdot, madj. rewrite Csum_conj.
  transitivity (Csum (fun x => Csum (fun l => Cconj (U l j) * Cconj (S x l) * U x j) (seq 0 n)) (seq 0 n)).
  - apply Csum_ext. intros x _. rewrite Cconj_mul, Cconj_invol, Csum_conj, <- Csum_mul_l. apply Csum_ext. intros l _. rewrite Cconj_mul. ring.
  - rewrite Csum_swap. apply Csum_ext. intros l Hl. apply in_seq in Hl. rewrite <- Csum_mul_l. apply Csum_ext. intros x Hx. apply in_seq in Hx. rewrite HH by lia. ring.
Qed.

Lemma mdot_sub k A B D i j : mdot k A (fun a b => B a b - D a b) i j = mdot k A B i j - mdot k A D i j.
Proof. unfold mdot. rewrite <- Csum_sub. apply Csum_ext. intros; ring. Qed.
Lemma mdot_X n U s' R l j : mdot n (madj (X_prime U s')) R l j = RtoC (/ sqrt (nth l s' 0%R)) * mdot n (madj U) R l j.
Proof. unfold mdot. rewrite <- Csum_mul_l. apply Csum_ext. intros a _. unfold madj, X_prime. rewrite Cconj_mul. replace (Cconj (RtoC (/ sqrt (nth l s' 0%R)))) with (RtoC (/ sqrt (nth l s' 0%R))) by csolve. ring. Qed.
Section solve.
Context (eig : eig_oracle) (n : nat) (S H : mat).
Let s := fst (eig n S).
Let U := snd (eig n S).
Context (ES : eig_contract eig n S) (OC : orthonormal_columns n U) (HS : hermitian n S).
(** the kept eigenvalues come first *)
Context (k : nat) (HK : (k <= n)%nat) (PK : forall j, (j < n)%nat -> (1e-15 < Re (nth j s C0))%R <-> (j < k)%nat).
Let s' := map Re (firstn k s).
Let X := X_prime U s'.

Lemma s_len : length s = n.
Proof. apply ES. Qed.
Lemma s_real j : (j < n)%nat -> nth j s C0 = RtoC (Re (nth j s C0)).
Proof.
  intros Hj. pose proof (herm_real eig n S ES OC HS j Hj) as E. fold s in E. unfold Cconj in E. destruct (nth j s C0) as [a b]. cbn in *. unfold RtoC. injection E as E. f_equal. lra.
Qed.
Lemma s_kept : keep_eigenvalues s = Ok s'.
Proof.
  rewrite keep_ok.
  - f_equal. unfold s'. f_equal. rewrite <- (firstn_skipn k s) at 1. rewrite filter_app.
    assert (F1 : filter (fun x => Rltb 1e-15 (Re x)) (firstn k s) = firstn k s).
    { apply filter_all. intros x Hx. apply (In_nth _ _ C0) in Hx. destruct Hx as (j & Hj & <-). rewrite firstn_length, s_len in Hj.
      assert (Hjk : (j < k)%nat) by lia. rewrite (nth_firstn_lt j k s C0 Hjk). apply Rltb_true. apply PK; lia. }
    assert (F2 : filter (fun x => Rltb 1e-15 (Re x)) (skipn k s) = []).
    { destruct (filter _ (skipn k s)) as [|x l] eqn:E; [reflexivity|]. exfalso. assert (Hx : In x (filter (fun x => Rltb 1e-15 (Re x)) (skipn k s))) by (rewrite E; left; reflexivity).
      apply filter_In in Hx. destruct Hx as [Hx Hl]. apply (In_nth _ _ C0) in Hx. destruct Hx as (j & Hj & EX). rewrite skipn_length, s_len in Hj. rewrite nth_skipn' in EX.
      subst x. destruct (Rltb_spec 1e-15 (Re (nth (k + j) s C0))) as [HL|]; [|discriminate]. apply PK in HL; lia. }
    rewrite F1, F2, app_nil_r. reflexivity.
  - apply Forall_forall. intros x Hx. apply (In_nth _ _ C0) in Hx. destruct Hx as (j & Hj & <-). rewrite s_len in Hj. rewrite (s_real j Hj). cbn. lra.
Qed.
Lemma s'_nth j : (j < k)%nat -> nth j s' 0%R = Re (nth j s C0).
Proof. intros Hj. unfold s'. change 0%R with (Re C0). rewrite map_nth, (nth_firstn_lt j k s C0 Hj). reflexivity. Qed.
Lemma s'_len : length s' = k.
Proof. unfold s'. rewrite map_length, firstn_length, s_len. lia. Qed.
Lemma s'_pos j : (j < k)%nat -> (0 < nth j s' 0)%R.
Proof. intros Hj. rewrite s'_nth by exact Hj. apply Rlt_trans with 1e-15%R; [lra|]. apply PK; lia. Qed.
(** the columns of X are S-orthonormal *)
Lemma X_orthonormal i j : (i < k)%nat -> (j < k)%nat -> mdot n (mdot n (madj X) S) X i j = delta i j.
Proof.
  intros Hi Hj. rewrite mdot_assoc.
  assert (E : forall l, (l < n)%nat -> mdot n S X l j = (RtoC (/ sqrt (nth j s' 0%R)) * RtoC (nth j s' 0%R)) * U l j).
  { intros l Hl. unfold mdot, X, X_prime. transitivity (RtoC (/ sqrt (nth j s' 0%R)) * mdot n S U l j).
    - unfold mdot. rewrite <- Csum_mul_l. apply Csum_ext. intros; ring.
    - unfold U. rewrite (proj2 ES) by lia. fold s. rewrite (s_real j) by lia. rewrite <- s'_nth by exact Hj. ring. }
  rewrite (mdot_ext_r n _ _ (fun a b => (RtoC (/ sqrt (nth j s' 0%R)) * RtoC (nth j s' 0%R)) * U a b) i j E), mdot_scal_r.
  assert (E2 : mdot n (madj X) U i j = RtoC (/ sqrt (nth i s' 0%R)) * delta i j).
  { rewrite <- (OC i j) by lia. unfold mdot, madj, X, X_prime. rewrite <- Csum_mul_l. apply Csum_ext. intros l _. rewrite Cconj_mul. replace (Cconj (RtoC (/ sqrt (nth i s' 0%R)))) with (RtoC (/ sqrt (nth i s' 0%R))) by csolve. ring. }
  rewrite E2. unfold delta. destruct (Nat.eqb_spec i j) as [->|]; [|ring].
  rewrite Cmul_1_r, <- !RtoC_mul. change C1 with (RtoC 1). f_equal.
  pose proof (s'_pos j Hj) as P. assert (Q : (0 < sqrt (nth j s' 0))%R) by (apply sqrt_lt_R0; exact P).
  rewrite <- (sqrt_sqrt (nth j s' 0%R)) at 2 by lra. field. lra.
Qed.
Context (EH : eig_contract eig k (H_prime n X H)).
Let e := fst (eig k (H_prime n X H)).
Let C' := snd (eig k (H_prime n X H)).
Let D := mdot k X C'.
Lemma galerkin l j : (l < k)%nat -> (j < k)%nat -> mdot n (madj U) (fun a b => mdot n H D a b - nth b e C0 * mdot n S D a b) l j = C0.
Proof.
  intros Hl Hj.
  assert (E1 : mdot n (madj X) (mdot n H D) l j = nth j e C0 * C' l j).
  { rewrite <- mdot_assoc. unfold D. rewrite <- mdot_assoc. apply (proj2 EH); assumption. }
  assert (E2 : mdot n (madj X) (mdot n S D) l j = C' l j).
  { rewrite <- mdot_assoc. unfold D. rewrite <- mdot_assoc. rewrite (mdot_ext_l k _ delta); [apply mdot_delta_l, Hl|]. intros a Ha. apply X_orthonormal; assumption. }
  assert (E3 : mdot n (madj X) (fun a b => mdot n H D a b - nth b e C0 * mdot n S D a b) l j = C0).
  { rewrite (mdot_sub n (madj X) (mdot n H D) (fun a b => nth b e C0 * mdot n S D a b)).
    replace (mdot n (madj X) (fun a b => nth b e C0 * mdot n S D a b) l j) with (nth j e C0 * mdot n (madj X) (mdot n S D) l j) by (rewrite <- mdot_scal_r; reflexivity).
    rewrite E1, E2. ring. }
  pose proof (mdot_X n U s' (fun a b => mdot n H D a b - nth b e C0 * mdot n S D a b) l j) as E4. fold X in E4.
  rewrite E3 in E4. pose proof (s'_pos l Hl) as P. assert (Q : (0 < sqrt (nth l s' 0))%R) by (apply sqrt_lt_R0; exact P).
  match type of E4 with _ = _ * ?z => transitivity (RtoC (sqrt (nth l s' 0%R) * / sqrt (nth l s' 0%R)) * z) end.
  - rewrite Rinv_r by lra. change (RtoC 1) with C1. ring.
  - rewrite RtoC_mul. match goal with |- ?a * ?b * ?z = _ => transitivity (a * (b * z)); [ring|] end. rewrite <- E4. ring.
Qed.
Lemma in_span i j : D i j = Csum (fun l => U i l * (RtoC (/ sqrt (nth l s' 0%R)) * C' l j)) (seq 0 k).
Proof. unfold D, mdot. apply Csum_ext. intros l _. unfold X, X_prime. ring. Qed.
Lemma solve_eq sort : canonical_geig_solve eig n S H sort = Ok (if sort then (map (fun p => nth (snd p) e C0) (sorted_largest_idxs e false),
    mdot k (fun i a => X i (snd (nth a (sorted_largest_idxs e false) (C0, 0%nat)))) (fun i a => C' i (snd (nth a (sorted_largest_idxs e false) (C0, 0%nat))))) else (e, D)).
Proof. unfold canonical_geig_solve. fold s U. rewrite s_kept. cbn [bind]. cbv zeta. rewrite s'_len. destruct sort; reflexivity. Qed.
End solve.
Lemma full_rank n U (R : mat) : orthonormal_rows n U -> forall j, (forall l, (l < n)%nat -> mdot n (madj U) R l j = C0) -> forall i, (i < n)%nat -> R i j = C0.
Proof.
  intros HO j HZ i Hi. rewrite <- (mdot_delta_l n R i j Hi). rewrite <- (mdot_ext_l n (mdot n U (madj U)) delta); [|intros l Hl; apply HO; assumption].
  rewrite mdot_assoc. unfold mdot at 1. apply Csum_zero. intros l Hl. apply in_seq in Hl. rewrite HZ by lia. ring.
Qed.
(** sorting *)
Lemma insert_perm le x l : Permutation (insert_pair le x l) (x :: l).
Proof. induction l as [|y l IH]; [reflexivity|]. cbn. destruct (le _ _); [reflexivity|]. rewrite IH. apply perm_swap. Qed.
Lemma sorted_perm a b : Permutation (sorted_largest_idxs a b) (combine a (seq 0 (length a))).
Proof. unfold sorted_largest_idxs. induction (combine _ _) as [|x l IH]; [reflexivity|]. cbn [fold_right]. rewrite insert_perm, IH. reflexivity. Qed.
