(** The linear system of QITE: a least-squares solution solves it, and is the best real
    combination. *)
From Coq Require Import Reals List Arith Lia Lra.
From Verif Require Import CBase Bits Spec OpSpec LibProofs FermiProofs QkProofs SparseNorm QpeProofs QpeDist QiteNorm.
From Verif Require SpinOps.
Import ListNotations.
Local Open Scope R_scope.

Section System.
Variables (n k : nat) (v : nat -> state) (h : state).
Let Sm (i j : nat) : R := Re (inner n (v i) (v j)).
Let b (i : nat) : R := Im (inner n (v i) h).
Definition comb (x : nat -> R) : state := fun I => Csum (fun i => (RtoC (x i) * v i I)%C) (seq 0 k).
Lemma inner_comb_left x u : inner n (comb x) u = Csum (fun i => (RtoC (x i) * inner n (v i) u)%C) (seq 0 k).
Proof.
  unfold comb. rewrite (SpinOps.inner_csum_l n u (fun i I => (RtoC (x i) * v i I)%C)). apply Csum_ext. intros i _. change (fun I => (RtoC (x i) * v i I)%C) with (sscale (RtoC (x i)) (v i)). rewrite inner_scale_l. f_equal. apply C_ext; cbn; ring.
Qed.
Lemma ReIm_comb x u : Re (inner n (comb x) u) = Rsum (fun i => x i * Re (inner n (v i) u)) (seq 0 k) /\ Im (inner n (comb x) u) = Rsum (fun i => x i * Im (inner n (v i) u)) (seq 0 k).
Proof.
  rewrite inner_comb_left. generalize (seq 0 k). induction l as [|i l (IH1 & IH2)]; [split; reflexivity|]. rewrite Csum_cons, !Rsum_cons. cbn [Cadd Re Im]. rewrite IH1, IH2. split; cbn [RtoC Cmul Re Im]; ring.
Qed.
Lemma Sm_sym i j : Sm i j = Sm j i.
Proof. unfold Sm. rewrite inner_conj. reflexivity. Qed.
Lemma row x i : Re (inner n (v i) (comb x)) = Rsum (fun j => Sm i j * x j) (seq 0 k).
Proof. rewrite inner_conj. cbn [Cconj Re]. rewrite (proj1 (ReIm_comb x (v i))). apply Rsum_ext. intros j _. fold (Sm j i). rewrite (Sm_sym j i). ring. Qed.
Lemma comb_normsq x : normsq n (comb x) = Rsum (fun i => x i * Rsum (fun j => Sm i j * x j) (seq 0 k)) (seq 0 k).
Proof. unfold normsq. rewrite (proj1 (ReIm_comb x (comb x))). apply Rsum_ext. intros i _. rewrite row. reflexivity. Qed.
Lemma normsq_zero a u : normsq n a = 0 -> inner n a u = C0.
Proof.
  intros H. rewrite normsq_sum in H. unfold inner. rewrite (Csum_ext _ (fun _ => C0)); [apply Csum_zero; reflexivity|]. intros I HI.
  assert (HN : Cnorm2 (a I) = 0). { pose proof (sum_bound (fun I => Cnorm2 (a I)) (seq 0 (2 ^ n)) I (fun x => Cnorm2_nonneg (a x)) HI) as HB. cbv beta in HB. rewrite H in HB. pose proof (Cnorm2_nonneg (a I)). lra. }
  assert (HA : a I = C0). { unfold Cnorm2 in HN. apply C_ext; cbn; nra. } rewrite HA. apply C_ext; cbn; ring.
Qed.
Lemma Rsum_sq_zero (r : nat -> R) l : Rsum (fun i => r i * r i) l = 0 -> forall i, In i l -> r i = 0.
Proof.
  induction l as [|j l IH]; intros H i Hi; [destruct Hi|]. rewrite Rsum_cons in H. pose proof (Rsum_nonneg (fun i => r i * r i) l ltac:(intros; nra)) as H0. destruct Hi as [->|Hi]; [nra|]. apply IH; [nra|exact Hi].
Qed.
Lemma normal_solves x : (forall i, (i < k)%nat -> Rsum (fun j => Sm j i * (Rsum (fun l => Sm j l * x l) (seq 0 k) - b j)) (seq 0 k) = 0) ->
  forall i, (i < k)%nat -> Rsum (fun l => Sm i l * x l) (seq 0 k) = b i.
Proof.
  intros H. set (r := fun j => Rsum (fun l => Sm j l * x l) (seq 0 k) - b j).
  assert (H0 : forall i, (i < k)%nat -> Rsum (fun j => Sm i j * r j) (seq 0 k) = 0). { intros i Hi. rewrite <- (H i Hi). apply Rsum_ext. intros j _. rewrite (Sm_sym i j). reflexivity. }
  assert (HN : normsq n (comb r) = 0). { rewrite comb_normsq. rewrite (Rsum_ext _ (fun i => 0 * r i)); [rewrite Rsum_scale; ring|]. intros i Hi. apply in_seq in Hi. rewrite (H0 i) by lia. ring. }
  assert (E1 : Rsum (fun i => r i * b i) (seq 0 k) = 0). { unfold b. rewrite <- (proj2 (ReIm_comb r h)), (normsq_zero _ h HN). reflexivity. }
  assert (E2 : Rsum (fun i => r i * Rsum (fun l => Sm i l * x l) (seq 0 k)) (seq 0 k) = 0). { rewrite (Rsum_ext _ (fun i => r i * Re (inner n (v i) (comb x)))) by (intros i _; rewrite row; reflexivity). rewrite <- (proj1 (ReIm_comb r (comb x))), (normsq_zero _ _ HN). reflexivity. }
  assert (E3 : Rsum (fun i => r i * r i) (seq 0 k) = 0).
  { rewrite (Rsum_ext _ (fun i => r i * Rsum (fun l => Sm i l * x l) (seq 0 k) + (-1) * (r i * b i))) by (intros i _; unfold r; ring). rewrite Rsum_add, Rsum_scale, E1, E2. ring. }
  intros i Hi. pose proof (Rsum_sq_zero r _ E3 i) as E. specialize (E ltac:(apply in_seq; lia)). unfold r in E. lra.
Qed.
Definition residual (x : nat -> R) : state := ssub h (sscale Ci (comb x)).
Lemma best x y : (forall i, (i < k)%nat -> Rsum (fun l => Sm i l * x l) (seq 0 k) = b i) -> normsq n (residual x) <= normsq n (residual y).
Proof.
  intros HS. set (w := residual x). set (d := fun i => y i - x i). set (D := sscale (mkC 0 (-1)) (comb d)).
  assert (E : residual y == sadd w (sscale (RtoC 1) D)).
  { intros I. unfold w, residual, ssub, sadd, sscale, D, sscale. assert (EC : comb y I = (comb x I + comb d I)%C). { unfold comb. rewrite <- Csum_add. apply Csum_ext. intros i _. unfold d. apply C_ext; cbn; ring. } rewrite EC. apply C_ext; cbn; ring. }
  assert (EN : normsq n (residual y) = normsq n (sadd w (sscale (RtoC 1) D))) by (unfold normsq; now rewrite (inner_ext n _ _ _ _ E E)). rewrite EN, normsq_lin.
  assert (EX : Re (inner n w D) = 0).
  { unfold D. rewrite inner_scale_r, inner_conj. cbn [Cmul Cconj Re Im]. rewrite (proj2 (ReIm_comb d w)). rewrite (Rsum_ext _ (fun i => 0 * d i)); [rewrite Rsum_scale; ring|]. intros i Hi. apply in_seq in Hi.
    assert (EI : Im (inner n (v i) w) = 0); [|rewrite EI; ring]. assert (EW : w == sadd h (sscale (mkC 0 (-1)) (comb x))) by (intros I; unfold w, residual, ssub, sadd, sscale; apply C_ext; cbn; ring).
    rewrite (inner_ext n _ _ _ _ (SafeProofs.seq_refl _) EW), inner_add_r, inner_scale_r. cbn [Cadd Cmul Im Re]. rewrite row, (HS i) by lia. fold (b i). ring. }
  rewrite EX. pose proof (normsq_nonneg n D). lra.
Qed.
End System.
