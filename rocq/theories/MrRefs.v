(** MRSQK: selection of the reference determinants. *)
From Coq Require Import Reals String List Arith NArith Bool Lia Lra Permutation Sorted.
From Verif Require Import CBase Result Bits Spec GateModel ComputerModel PyModel StateProofs EigModel EigProofs QkModel MrModel MrProofs.
From Verif Require OperatorModel.
Import ListNotations.
Local Open Scope nat_scope.

Lemma insert_desc_perm x l : Permutation (insert_desc x l) (x :: l).
Proof. induction l as [|y l IH]; [reflexivity|]. cbn [insert_desc]. destruct (clt _ _); [|reflexivity]. rewrite IH. apply perm_swap. Qed.
Lemma sorted_desc_perm a : Permutation (sorted_desc a) (combine a (seq 0 (length a))).
Proof. unfold sorted_desc. induction (combine _ _) as [|x l IH]; [reflexivity|]. cbn [fold_right]. rewrite insert_desc_perm, IH. reflexivity. Qed.
Definition desc (a b : C * nat) : Prop := (Re (fst b) <= Re (fst a))%R.
Lemma clt_le a b : (if clt a b then Re a <= Re b else Re b <= Re a)%R.
Proof. unfold clt. destruct (Rltb_spec (Re a) (Re b)); cbn [orb]; [lra|]. destruct (Rltb_spec (Re b) (Re a)); cbn [negb andb]; [lra|]. destruct (Rltb _ _); lra. Qed.
Lemma insert_desc_sorted x l : StronglySorted desc l -> StronglySorted desc (insert_desc x l).
Proof.
  induction 1 as [|y l HS IH HF]; [repeat constructor|]. cbn [insert_desc]. pose proof (clt_le (fst x) (fst y)) as HC. destruct (clt (fst x) (fst y)).
  - constructor; [exact IH|]. apply (Permutation_Forall (Permutation_sym (insert_desc_perm x l))). constructor; [exact HC|exact HF].
  - constructor; [constructor; assumption|]. constructor; [exact HC|]. eapply Forall_impl; [|exact HF]. intros z Hz. unfold desc in *. lra.
Qed.
Lemma sorted_desc_sorted a : StronglySorted desc (sorted_desc a).
Proof. unfold sorted_desc. induction (combine _ _) as [|x l IH]; [constructor|]. cbn [fold_right]. apply insert_desc_sorted, IH. Qed.
Lemma sorted_app_le {A} (P : A -> A -> Prop) l1 l2 : StronglySorted P (l1 ++ l2) -> StronglySorted P l1 /\ forall a b, In a l1 -> In b l2 -> P a b.
Proof.
  induction l1 as [|x l1 IH]; intros H; [split; [constructor|intros a b []]|]. cbn [app] in H. inversion H as [|? ? H1 H2]; subst. destruct (IH H1) as (I1 & I2). rewrite Forall_app in H2. destruct H2 as (F1 & F2). split; [now constructor|].
  intros a b [->|Ha] Hb; [|now apply I2]. rewrite Forall_forall in F2. now apply F2.
Qed.

(** refs are the [num] determinants on n spin orbitals with the largest weights, largest first *)
Definition TopDets (n num : nat) (weight : nat -> R) (refs : list (list nat)) : Prop :=
  length refs = num /\ NoDup refs /\ Forall (DetOn n) refs /\
  StronglySorted (fun d e => weight (det_number e) <= weight (det_number d))%R refs /\
  forall d e, In d refs -> DetOn n e -> ~ In e refs -> (weight (det_number e) <= weight (det_number d))%R.
Lemma occ_list_det x n : DetOn n (occ_list x n).
Proof. split; [apply occ_list_length|]. eapply Forall_impl; [|exact (occ_list_binary x n)]. cbn. lia. Qed.
Lemma of_nat_pow i n : i < 2 ^ n -> (N.of_nat i < 2 ^ N.of_nat n)%N.
Proof. intros H. change 2%N with (N.of_nat 2). rewrite <- Nat2N.inj_pow. lia. Qed.
Lemma det_number_occ i n : i < 2 ^ n -> det_number (occ_list (N.of_nat i) n) = i.
Proof. intros H. rewrite <- det_number_idx, idx_occ_list; [lia|]. now apply of_nat_pow. Qed.
Lemma mapM_ok {A B} (f : A -> res B) g l : (forall x, In x l -> f x = Ok (g x)) -> OperatorModel.mapM f l = Ok (map g l).
Proof. induction l as [|x l IH]; intros H; [reflexivity|]. cbn [OperatorModel.mapM map]. rewrite H by now left. cbn [bind]. rewrite IH by (intros y Hy; apply H; now right). reflexivity. Qed.
Lemma combine_seq {A} (f : nat -> A) l : combine (map f l) l = map (fun i => (f i, i)) l.
Proof. induction l as [|x l IH]; [reflexivity|]. cbn. now rewrite IH. Qed.
Lemma NoDup_app_l {A} (l1 l2 : list A) : NoDup (l1 ++ l2) -> NoDup l1.
Proof. induction l1 as [|x l1 IH]; intros H; [constructor|]. cbn in H. inversion H as [|? ? H1 H2]; subst. constructor; [intros HI; apply H1, in_or_app; now left|now apply IH]. Qed.
Lemma sorted_map {A B} (f : A -> B) (P : A -> A -> Prop) (Q : B -> B -> Prop) l : (forall a b, In a l -> In b l -> P a b -> Q (f a) (f b)) -> StronglySorted P l -> StronglySorted Q (map f l).
Proof.
  induction l as [|x l IH]; intros H HS; cbn [map]; [constructor|]. inversion HS as [|? ? H1 H2]; subst. constructor; [apply IH; [intros a b Ha Hb; apply H; now right|exact H1]|].
  apply Forall_map. rewrite Forall_forall in *. intros y Hy. apply H; [now left|now right|now apply H2].
Qed.
Lemma largest_spec n num row : n <= 64 -> num <= 2 ^ n -> exists refs, largest n num row = Ok refs /\ TopDets n num (fun I => Re (row I)) refs.
Proof.
  intros Hn Hk. unfold largest. set (s := sorted_desc (map row (seq 0 (2 ^ n)))).
  assert (HP : Permutation s (map (fun i => (row i, i)) (seq 0 (2 ^ n)))). { unfold s. rewrite sorted_desc_perm, map_length, seq_length, combine_seq. reflexivity. }
  assert (LS : length s = 2 ^ n) by (rewrite (Permutation_length HP), map_length, seq_length; reflexivity).
  assert (HI : forall p, In p s -> snd p < 2 ^ n /\ fst p = row (snd p)). { intros p Hp. apply (Permutation_in _ HP) in Hp. apply in_map_iff in Hp. destruct Hp as (i & <- & Hi). apply in_seq in Hi. cbn. split; [lia|reflexivity]. }
  destruct (Nat.ltb_spec (length s) num) as [Lt|_]; [lia|].
  assert (HF : forall p, In p (firstn num s) -> In p s). { intros p Hp. rewrite <- (firstn_skipn num s). apply in_or_app. now left. }
  rewrite (mapM_ok _ (fun p => occ_list (N.of_nat (snd p)) n)).
  2:{ intros p Hp. destruct (HI p (HF p Hp)) as (Lp & _). apply to_ref_eq; [|exact Hn]. apply N.lt_le_trans with (2 ^ N.of_nat n)%N; [|apply N.pow_le_mono_r; lia]. now apply of_nat_pow. }
  eexists. split; [reflexivity|]. pose proof (sorted_desc_sorted (map row (seq 0 (2 ^ n)))) as HS. fold s in HS. rewrite <- (firstn_skipn num s) in HS. destruct (sorted_app_le _ _ _ HS) as (S1 & S2).
  assert (ND : NoDup (map snd s)). { apply (Permutation_NoDup (Permutation_sym (Permutation_map snd HP))). rewrite map_map. cbn [snd]. rewrite map_id. apply seq_NoDup. }
  split; [rewrite map_length, firstn_length; lia|]. split; [|split; [|split]].
  - rewrite <- (map_map snd (fun i => occ_list (N.of_nat i) n)). rewrite <- (firstn_skipn num s), map_app in ND. apply NoDup_app_l in ND.
    assert (HB : Forall (fun i => i < 2 ^ n) (map snd (firstn num s))) by (apply Forall_map, Forall_forall; intros p Hp; apply HI, HF, Hp). revert HB ND. generalize (map snd (firstn num s)). intros l. induction l as [|i l IH]; intros HB ND; [constructor|]. inversion ND as [|? ? N1 N2]; subst. cbn [map]. constructor; [|apply IH; [exact (Forall_inv_tail HB)|exact N2]].
    intros H. apply in_map_iff in H. destruct H as (j & Ej & Hj). apply N1. assert (Lj : j < 2 ^ n) by (pose proof (Forall_inv_tail HB) as HB'; rewrite Forall_forall in HB'; now apply HB'). apply (f_equal det_number) in Ej. rewrite !det_number_occ in Ej by (try exact Lj; exact (Forall_inv HB)). subst. exact Hj.
  - apply Forall_map, Forall_forall. intros p _. apply occ_list_det.
  - apply (sorted_map _ _ _ _) with (2 := S1). intros a b Ha Hb H. destruct (HI a (HF a Ha)) as (La & Ea), (HI b (HF b Hb)) as (Lb & Eb). rewrite !det_number_occ by assumption. unfold desc in H. rewrite Ea, Eb in H. exact H.
  - intros d e Hd He Hne. apply in_map_iff in Hd. destruct Hd as (p & <- & Hp). destruct (HI p (HF p Hp)) as (Lp & Ep). rewrite det_number_occ by exact Lp.
    assert (Le : det_number e < 2 ^ n) by now apply det_number_lt. assert (Hs : In (row (det_number e), det_number e) s). { apply (Permutation_in _ (Permutation_sym HP)). apply in_map_iff. exists (det_number e). split; [reflexivity|]. apply in_seq. lia. }
    rewrite <- (firstn_skipn num s) in Hs. apply in_app_or in Hs. destruct Hs as [Hs|Hs].
    + exfalso. apply Hne. apply in_map_iff. eexists. split; [|exact Hs]. cbn [snd]. apply (det_number_inj n); [apply occ_list_det|exact He|]. now apply det_number_occ.
    + specialize (S2 _ _ Hp Hs). unfold desc in S2. cbn [fst] in S2. rewrite Ep in S2. exact S2.
Qed.
Lemma largest_short n num row : 2 ^ n < num -> largest n num row = Throw (PyError "IndexError").
Proof.
  intros H. unfold largest. assert (LS : length (sorted_desc (map row (seq 0 (2 ^ n)))) = 2 ^ n) by (rewrite (Permutation_length (sorted_desc_perm _)), combine_length, !map_length, !seq_length; lia). rewrite LS. destruct (Nat.ltb_spec (2 ^ n) num); [reflexivity|lia].
Qed.

(** ---- the root ---- *)
Definition below (l : list C) (x : R) : nat := length (filter (fun e => Rltb (Re e) x) l).
Definition up_to (l : list C) (x : R) : nat := length (filter (fun e => negb (Rltb x (Re e))) l).
(** j is the position of a root-th lowest value (counted from 0; equal values in any order) *)
Definition IsRoot (l : list C) (root j : nat) : Prop := j < length l /\ below l (Re (nth j l C0)) <= root < up_to l (Re (nth j l C0)).
Lemma filter_perm {A} (f : A -> bool) l l' : Permutation l l' -> length (filter f l) = length (filter f l').
Proof. induction 1; cbn; [reflexivity|destruct (f x); cbn; lia|destruct (f x), (f y); cbn; lia|lia]. Qed.
Lemma filter_map_len {A B} (g : A -> B) (f : B -> bool) l : length (filter f (map g l)) = length (filter (fun x => f (g x)) l).
Proof. induction l as [|x l IH]; [reflexivity|]. cbn. destruct (f (g x)); cbn; lia. Qed.
Definition asc (a b : C * nat) : Prop := (Re (fst a) <= Re (fst b))%R.
Lemma insert_asc x l : StronglySorted asc l -> StronglySorted asc (insert_pair Rleb x l).
Proof.
  induction 1 as [|y l HS IH HF]; [repeat constructor|]. cbn [insert_pair]. unfold Rleb at 1. destruct (Rltb_spec (Re (fst y)) (Re (fst x))) as [Lt|Ge]; cbn [negb].
  - constructor; [exact IH|]. apply (Permutation_Forall (Permutation_sym (insert_perm _ x l))). constructor; [unfold asc; lra|exact HF].
  - constructor; [constructor; assumption|]. constructor; [unfold asc; lra|]. eapply Forall_impl; [|exact HF]. intros z Hz. unfold asc in *. lra.
Qed.
Lemma sorted_asc a : StronglySorted asc (sorted_largest_idxs a false).
Proof. unfold sorted_largest_idxs. induction (combine _ _) as [|x l IH]; [constructor|]. cbn [fold_right]. apply insert_asc, IH. Qed.
Lemma filter_none {A} (f : A -> bool) l : (forall x, In x l -> f x = false) -> length (filter f l) = 0.
Proof. induction l as [|x l IH]; intros H; [reflexivity|]. cbn. rewrite H by now left. apply IH. intros y Hy. apply H. now right. Qed.
Lemma filter_all {A} (f : A -> bool) l : (forall x, In x l -> f x = true) -> length (filter f l) = length l.
Proof. induction l as [|x l IH]; intros H; [reflexivity|]. cbn. rewrite H by now left. cbn. rewrite IH; [reflexivity|]. intros y Hy. apply H. now right. Qed.
Lemma combine_map_fst {A B} (l : list A) (m : list B) : length l = length m -> map fst (combine l m) = l.
Proof. revert m. induction l as [|x l IH]; intros [|y m] H; try discriminate; [reflexivity|]. cbn. rewrite IH; [reflexivity|]. cbn in H. lia. Qed.
Lemma root_spec l root : root < length l -> IsRoot l root (snd (nth root (sorted_largest_idxs l false) (C0, 0))).
Proof.
  intros HR. set (s := sorted_largest_idxs l false). pose proof (sorted_perm l false) as HP. fold s in HP. pose proof (sorted_asc l) as HS. fold s in HS.
  assert (LS : length s = length l) by (rewrite (Permutation_length HP), combine_length, seq_length; lia).
  destruct (nth_split s (C0, 0) (n := root)) as (s1 & s2 & ES & L1); [lia|]. set (p := nth root s (C0, 0)) in *.
  assert (Ip : In p s) by (rewrite ES; apply in_or_app; right; now left). apply (Permutation_in _ HP) in Ip.
  assert (Hp : snd p < length l /\ fst p = nth (snd p) l C0).
  { destruct p as [e j]. cbn [fst snd]. apply (In_nth _ _ (C0, 0)) in Ip. destruct Ip as (k & Lk & Ek). rewrite combine_length, seq_length, Nat.min_id in Lk. rewrite combine_nth in Ek by (rewrite seq_length; reflexivity). rewrite seq_nth in Ek by exact Lk. injection Ek as <- <-. split; [exact Lk|reflexivity]. }
  destruct Hp as (Lp & Ep). assert (HQ : Permutation l (map fst s)). { rewrite (Permutation_map fst HP), combine_map_fst by (rewrite seq_length; reflexivity). reflexivity. }
  split; [exact Lp|]. rewrite <- Ep. unfold below, up_to. rewrite (filter_perm _ _ _ HQ), (filter_perm (fun e => negb (Rltb (Re (fst p)) (Re e))) _ _ HQ). rewrite !filter_map_len. rewrite ES in *. rewrite !filter_app, !app_length.
  destruct (sorted_app_le _ _ _ HS) as (_ & S2). assert (S3 : forall b, In b s2 -> asc p b). { clear - HS. induction s1 as [|x s1 IH]; cbn [app] in HS; inversion HS as [|? ? H1 H2]; subst; [rewrite Forall_forall in H2; exact H2|now apply IH]. }
  split.
  - cbn [filter]. rewrite Rltb_false by lra. rewrite (filter_none _ s2); [|intros x Hx; apply Rltb_false; exact (S3 x Hx)]. assert (length (filter (fun x : C * nat => Rltb (Re (fst x)) (Re (fst p))) s1) <= length s1) by (clear - s1; induction s1 as [|x s1 IH]; cbn; [lia|destruct (Rltb _ _); cbn; lia]). lia.
  - rewrite (filter_all _ s1); [|intros x Hx; rewrite Rltb_false; [reflexivity|exact (S2 x p Hx (or_introl eq_refl))]]. cbn [filter]. rewrite Rltb_false by lra. cbn [negb length]. lia.
Qed.

(** ---- weights ---- *)
Definition amplitude (k : srqk_data) (m I : nat) : C := nth I (nth m (k_omega k) []) C0.
Definition plain_weight (k : srqk_data) (N j I : nat) : R := fold_right Rplus 0%R (map (fun m => (Cnorm2 (k_evecs k m j) * Cnorm2 (amplitude k m I))%R) (seq 0 N)).
Definition phase_weight (k : srqk_data) (N j I : nat) : R := Cnorm2 (Csum (fun m => (Cconj (k_evecs k m j) * amplitude k m I)%C) (seq 0 N)).
Lemma mul_conj z : (z * Cconj z)%C = RtoC (Cnorm2 z).
Proof. apply C_ext; cbn; unfold Cnorm2; ring. Qed.
Lemma cprime_re k N old n I : Re (cprime k N old n I) = phase_weight k N (old n) I.
Proof. unfold cprime, phase_weight. cbv zeta. rewrite mul_conj. reflexivity. Qed.
Lemma cprime_sq_re k N ninit old n I : N <= ninit -> Re (cprime_sq_mod k N ninit old n I) = plain_weight k N (old n) I.
Proof.
  intros HN. unfold cprime_sq_mod, plain_weight. assert (HF : Forall (fun m => m < ninit) (seq 0 N)) by (apply Forall_forall; intros m Hm; apply in_seq in Hm; lia). induction HF as [|m l Hm _ IH]; [reflexivity|]. rewrite Csum_cons. cbn [map fold_right]. rewrite <- IH.
  destruct (Nat.ltb_spec m ninit); [|lia]. rewrite !mul_conj. cbn. unfold omega_at, amplitude. ring.
Qed.
