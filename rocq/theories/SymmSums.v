(** Sums over sectors, variances. *)
From Coq Require Import Reals String List Arith Lia Bool Lra ZArith NArith.
From Verif Require Import CBase Result Bits Spec OpSpec SQSpec GateModel ComputerModel SafeProofs LibProofs PropMeasure SQPoolModel SQPoolSpec SpinModel SpinSpec SpinOps RealOps SymmProofs.
From Verif Require Import FermiProofs.
Import ListNotations.
Local Open Scope C_scope.

Definition Rsum (l : list R) : R := fold_right Rplus 0%R l.
Lemma Rsum_ext {A} (f g : A -> R) l : (forall x, In x l -> f x = g x) -> Rsum (map f l) = Rsum (map g l).
Proof. intros H. f_equal. apply map_ext_in, H. Qed.
Lemma Rsum_add {A} (f g : A -> R) l : Rsum (map (fun x => f x + g x)%R l) = (Rsum (map f l) + Rsum (map g l))%R.
Proof. unfold Rsum. induction l as [|x l IH]; cbn [map fold_right]; [ring|]. rewrite IH. ring. Qed.
Lemma Rsum_zero {A} (l : list A) : Rsum (map (fun _ => 0%R) l) = 0%R.
Proof. unfold Rsum. induction l as [|x l IH]; cbn [map fold_right]; [ring|]. rewrite IH. ring. Qed.
Lemma Rsum_pick (g : nat -> R) k : forall N s, Rsum (map (fun j => if Nat.eqb k j then g j else 0)%R (seq s N)) = if andb (s <=? k) (k <? s + N) then g k else 0%R.
Proof.
  unfold Rsum. induction N as [|N IH]; intros s; cbn [seq map fold_right].
  - destruct (Nat.leb_spec s k), (Nat.ltb_spec k (s + 0)); cbn [andb]; try reflexivity; lia.
  - rewrite IH. destruct (Nat.eqb_spec k s) as [->|Q].
    + replace (S s <=? s) with false by (symmetry; apply Nat.leb_gt; lia). cbn [andb]. replace (s <=? s) with true by (symmetry; apply Nat.leb_le; lia). replace (s <? s + S N) with true by (symmetry; apply Nat.ltb_lt; lia). cbn [andb]. ring.
    + destruct (Nat.leb_spec (S s) k), (Nat.leb_spec s k), (Nat.ltb_spec k (S s + N)), (Nat.ltb_spec k (s + S N)); cbn [andb]; try lia; ring.
Qed.
(** the weights of a partition into sectors 0..N-1 *)
Lemma partition_sum psi (kap : nat -> nat) (v : nat -> R) N l : (forall I, kap I < N)%nat ->
  Rsum (map (fun k => v k * wsum psi (fun I => Nat.eqb (kap I) k) l)%R (seq 0 N)) = Rsum (map (fun I => v (kap I) * wt psi I)%R l).
Proof.
  intros HK. induction l as [|I l IH] using rev_ind.
  - transitivity (Rsum (map (fun _ => 0%R) (seq 0 N))); [|apply Rsum_zero]. apply Rsum_ext. intros k _. unfold wsum. cbn. ring.
  - rewrite map_app. unfold Rsum at 2. rewrite Rsum_app. fold (Rsum (map (fun I => v (kap I) * wt psi I)%R l)). rewrite <- IH.
    transitivity (Rsum (map (fun k => v k * wsum psi (fun I => Nat.eqb (kap I) k) l + (if Nat.eqb (kap I) k then v k * wt psi I else 0))%R (seq 0 N))).
    + apply Rsum_ext. intros k _. rewrite wsum_snoc. destruct (Nat.eqb (kap I) k); ring.
    + rewrite Rsum_add. f_equal. rewrite (Rsum_pick (fun k => v k * wt psi I)%R). specialize (HK I). replace (kap I <? 0 + N) with true by (symmetry; apply Nat.ltb_lt; lia). cbn [Nat.leb andb map fold_right]. ring.
Qed.
Lemma diag_mean n (d : nat -> R) psi : Re (inner n psi (diagonal d psi)) = Rsum (map (fun I => d I * wt psi I)%R (seq 0 (2 ^ n))).
Proof.
  unfold inner, diagonal. induction (seq 0 (2 ^ n)) as [|I l IH]; [reflexivity|]. rewrite Csum_cons. cbn [map Rsum fold_right] in *. cbn [Cadd Re]. rewrite IH. f_equal. unfold wt. cbn. ring.
Qed.
Lemma norm_wt n psi : Re (inner n psi psi) = Rsum (map (wt psi) (seq 0 (2 ^ n))).
Proof.
  transitivity (Re (inner n psi (diagonal (fun _ => 1%R) psi))); [|rewrite diag_mean; apply Rsum_ext; intros; ring].
  f_equal. apply inner_ext; [apply seq_refl|]. intros I. unfold diagonal. apply C_ext; cbn; ring.
Qed.
Lemma norm_sectors n psi (kap : nat -> nat) N : (forall I, kap I < N)%nat ->
  Rsum (map (fun k => wsum psi (fun I => Nat.eqb (kap I) k) (seq 0 (2 ^ n))) (seq 0 N)) = Re (inner n psi psi).
Proof.
  intros HK. rewrite norm_wt. transitivity (Rsum (map (fun k => 1 * wsum psi (fun I => Nat.eqb (kap I) k) (seq 0 (2 ^ n)))%R (seq 0 N))); [apply Rsum_ext; intros; ring|].
  rewrite (partition_sum psi kap (fun _ => 1%R) N _ HK). apply Rsum_ext. intros; ring.
Qed.
(** variance of a Hermitian map in a normalized state *)
Lemma variance_norm n f psi : hermitian_map n f -> inner n psi psi = C1 -> let a := Re (inner n psi (f psi)) in
  inner n (fun I => f psi I - RtoC a * psi I) (fun I => f psi I - RtoC a * psi I) = RtoC (Re (inner n psi (f (f psi))) - a * a).
Proof.
  intros HH HN a. pose proof (HH n psi psi (le_n n)) as E1. pose proof (HH n psi (f psi) (le_n n)) as E2.
  assert (Z1 : Im (inner n psi (f psi)) = 0%R).
  { pose proof E1 as Q. rewrite (inner_conj n (f psi) psi) in Q. apply (f_equal Im) in Q. cbn [Cconj Im] in Q. lra. }
  assert (Z2 : Im (inner n (f psi) (f psi)) = 0%R).
  { pose proof (inner_conj n (f psi) (f psi)) as Q. apply (f_equal Im) in Q. cbn [Cconj Im] in Q. lra. }
  assert (EX : inner n psi (f psi) = RtoC a) by (apply C_ext; [reflexivity|exact Z1]).
  assert (EXX : inner n psi (f (f psi)) = RtoC (Re (inner n psi (f (f psi))))) by (apply C_ext; [reflexivity|rewrite E2; exact Z2]).
  transitivity (inner n (f psi) (f psi) + - RtoC a * inner n (f psi) psi + - RtoC a * inner n psi (f psi) + RtoC a * RtoC a * inner n psi psi).
  - unfold inner. rewrite <- !Csum_mul_l, <- !Csum_add. apply Csum_ext. intros I _. apply C_ext; cbn; ring.
  - rewrite <- E2, <- E1, EX, EXX, HN. apply C_ext; cbn; ring.
Qed.
Lemma wt_nonneg psi I : (0 <= wt psi I)%R.
Proof. unfold wt. pose proof (Rle_0_sqr (Re (psi I))). pose proof (Rle_0_sqr (Im (psi I))). unfold Rsqr in *. lra. Qed.
Lemma Rsum_nonneg l : Forall (fun x => 0 <= x)%R l -> (0 <= Rsum l)%R.
Proof. unfold Rsum. induction 1; cbn [fold_right]; lra. Qed.
Lemma Rsum_zero_all l : Forall (fun x => 0 <= x)%R l -> Rsum l = 0%R -> Forall (fun x => x = 0)%R l.
Proof. unfold Rsum. induction 1 as [|x l Hx Hl IH]; intros E; constructor; cbn [fold_right] in E; pose proof (Rsum_nonneg l Hl) as Q; unfold Rsum in Q; [lra|apply IH; lra]. Qed.
Lemma norm_zero n psi : Re (inner n psi psi) = 0%R -> forall I, (I < 2 ^ n)%nat -> psi I = C0.
Proof.
  rewrite norm_wt. intros H I HI. assert (A : Forall (fun x => 0 <= x)%R (map (wt psi) (seq 0 (2 ^ n)))) by (apply Forall_map, Forall_forall; intros; apply wt_nonneg).
  pose proof (Rsum_zero_all _ A H) as Q. rewrite Forall_map, Forall_forall in Q. assert (HI' : In I (seq 0 (2 ^ n))) by (apply in_seq; lia). specialize (Q I HI'). unfold wt in Q.
  pose proof (Rle_0_sqr (Re (psi I))). pose proof (Rle_0_sqr (Im (psi I))). unfold Rsqr in *. apply C_ext; cbn; nra.
Qed.
Lemma norm_nonneg n psi : (0 <= Re (inner n psi psi))%R.
Proof. rewrite norm_wt. apply Rsum_nonneg, Forall_map, Forall_forall. intros; apply wt_nonneg. Qed.
(** irreps below 2^k stay below 2^k *)
Lemma lxor_small k a b : (a < 2 ^ k)%N -> (b < 2 ^ k)%N -> (N.lxor a b < 2 ^ k)%N.
Proof.
  intros Ha Hb. assert (P : (2 ^ k <> 0)%N) by (apply N.pow_nonzero; lia).
  assert (E : N.shiftr (N.lxor a b) k = 0%N) by (rewrite N.shiftr_lxor, !N.shiftr_div_pow2, !N.div_small by assumption; reflexivity).
  rewrite N.shiftr_div_pow2 in E. apply N.div_small_iff in E; assumption.
Qed.
Lemma total_small k irr l : Forall (fun x => x < 2 ^ k)%N irr -> (total_irrep irr l < 2 ^ k)%N.
Proof.
  intros H. assert (P : (0 < 2 ^ k)%N) by (apply N.neq_0_lt_0, N.pow_nonzero; lia). unfold total_irrep. induction l as [|x l IH]; cbn [map fold_right]; [exact P|]. apply lxor_small; [|exact IH].
  destruct (Nat.ltb_spec (x / 2) (length irr)) as [Q|Q]; [rewrite Forall_forall in H; apply H, nth_In, Q|rewrite nth_overflow by exact Q; exact P].
Qed.
