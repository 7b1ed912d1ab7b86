From Coq Require Import Reals String List Arith NArith ZArith Bool Lia Lra Permutation Sorted.
From Verif Require Import CBase Result Bits Spec SQSpec SQModel SQPhase SQProofs SQPoolSpec SQPoolModel.
Import ListNotations.
Local Open Scope N_scope.

(** ---- strings as binary numbers ---- *)
Definition b2N (b : bool) : N := if b then 1 else 0.
Fixpoint bval (s : list bool) : N := match s with [] => 0 | x :: r => b2N x * 2 ^ N.of_nat (length r) + bval r end.
Fixpoint cnt (s : list bool) : nat := match s with [] => O | x :: r => ((if x then 1 else 0) + cnt r)%nat end.
Lemma str_int_bval s : str_int s = bval s.
Proof.
  unfold str_int. enough (H : forall a, fold_left (fun a (b : bool) => 2 * a + (if b then 1 else 0)) s a = a * 2 ^ N.of_nat (length s) + bval s) by (rewrite H; lia).
  induction s as [|x r IH]; intros a; cbn [fold_left length bval]; [change (2 ^ N.of_nat 0) with 1; lia|]. rewrite IH, Nat2N.inj_succ, N.pow_succ_r'. unfold b2N. destruct x; lia.
Qed.
Lemma bval_lt s : bval s < 2 ^ N.of_nat (length s).
Proof. induction s as [|x r IH]; [cbn; lia|]. cbn [length bval]. rewrite Nat2N.inj_succ, N.pow_succ_r'. unfold b2N. destruct x; lia. Qed.
Lemma cnt_le s : (cnt s <= length s)%nat.
Proof. induction s as [|[] r IH]; cbn; lia. Qed.
Lemma bval_inj s : forall t, length s = length t -> bval s = bval t -> s = t.
Proof.
  induction s as [|x r IH]; intros [|y t] L E; try discriminate; [reflexivity|]. injection L as L. cbn [bval] in E. rewrite L in E.
  pose proof (bval_lt r) as H1. pose proof (bval_lt t) as H2. rewrite L in H1. unfold b2N in E. destruct x, y; try lia; f_equal; apply IH; auto; lia.
Qed.
Lemma cnt_app a b : cnt (a ++ b) = (cnt a + cnt b)%nat.
Proof. induction a as [|x a IH]; cbn [app cnt]; [reflexivity|rewrite IH; lia]. Qed.
Lemma cnt_rep b k : cnt (repeat b k) = if b then k else O.
Proof. induction k as [|k IH]; cbn; [destruct b; reflexivity|rewrite IH; destruct b; reflexivity]. Qed.
Lemma bval_min u : 2 ^ N.of_nat (cnt u) <= bval u + 1.
Proof.
  induction u as [|x r IH]; [cbn; lia|]. cbn [bval cnt]. pose proof (cnt_le r) as HL.
  assert (2 ^ N.of_nat (cnt r) <= 2 ^ N.of_nat (length r)) by (apply N.pow_le_mono_r; lia).
  unfold b2N. destruct x; cbn [Nat.add]; [rewrite Nat2N.inj_succ, N.pow_succ_r'; lia|lia].
Qed.
Lemma bval_low b a : bval (repeat false b ++ repeat true a) + 1 = 2 ^ N.of_nat a.
Proof.
  induction b as [|b IH]; cbn [repeat app bval].
  - induction a as [|a IH]; [reflexivity|]. cbn [repeat bval]. rewrite repeat_length, Nat2N.inj_succ, N.pow_succ_r'. unfold b2N. lia.
  - unfold b2N. lia.
Qed.

(** ---- next_permutation ---- *)
Lemma existsb_cnt r : existsb (fun b => b) r = negb (Nat.eqb (cnt r) 0).
Proof. induction r as [|[] r IH]; cbn; [reflexivity|reflexivity|exact IH]. Qed.
Lemma np_none r : next_permutation r = None -> exists a b, r = (repeat true a ++ repeat false b)%list.
Proof.
  induction r as [|x r IH]; intros H; [exists O, O; reflexivity|]. cbn in H. destruct (next_permutation r); [discriminate|]. destruct (IH eq_refl) as (a & b & ->).
  destruct x; [exists (S a), b; reflexivity|]. rewrite existsb_cnt, cnt_app, !cnt_rep in H. cbn in H. destruct a; [|discriminate]. exists O, (S b). reflexivity.
Qed.
Lemma repeat_snoc {A} (x : A) k : (repeat x k ++ [x])%list = repeat x (S k).
Proof. induction k; cbn; [reflexivity|]. rewrite IHk. reflexivity. Qed.
Lemma rev_repeat {A} (x : A) k : rev (repeat x k) = repeat x k.
Proof. induction k; [reflexivity|]. cbn [repeat rev]. rewrite IHk, repeat_snoc. reflexivity. Qed.
Lemma clear_last_spec a b : clear_last (repeat true (S a) ++ repeat false b) = (repeat true a ++ repeat false (S b))%list.
Proof.
  induction a as [|a IH].
  - cbn [repeat app clear_last]. rewrite existsb_cnt, cnt_rep. reflexivity.
  - change (clear_last (repeat true (S (S a)) ++ repeat false b)) with
      (if existsb (fun b => b) (repeat true (S a) ++ repeat false b) then true :: clear_last (repeat true (S a) ++ repeat false b) else false :: repeat true (S a) ++ repeat false b)%list.
    rewrite existsb_cnt, cnt_app, !cnt_rep. rewrite IH. reflexivity.
Qed.
Definition similar (s u : list bool) : Prop := length u = length s /\ cnt u = cnt s.
Lemma np_spec s : match next_permutation s with
  | Some t => similar s t /\ bval s < bval t /\ forall u, similar s u -> bval s < bval u -> bval t <= bval u
  | None => forall u, similar s u -> bval u <= bval s end.
Proof.
  induction s as [|x r IH]; cbn [next_permutation].
  - intros [|? ?] [L _]; [reflexivity|discriminate].
  - destruct (next_permutation r) as [t|] eqn:E.
    + destruct IH as ((L & K) & HV & HM). split; [split; cbn; lia|]. cbn [bval]. rewrite L. split; [lia|].
      intros [|y u] [LU KU] HU; [discriminate|]. injection LU as LU. cbn [bval cnt] in *. rewrite LU in *. pose proof (bval_lt t) as Bt. pose proof (bval_lt u) as Bu. pose proof (bval_lt r) as Br.
      rewrite LU in Bu. rewrite L in Bt. unfold b2N in *. destruct x, y; try lia.
      * assert (bval t <= bval u) by (apply HM; [split; lia|lia]). lia.
      * assert (bval t <= bval u) by (apply HM; [split; lia|lia]). lia.
    + destruct (np_none r E) as (a & b & Er). rewrite existsb_cnt. destruct x; cbn [negb andb].
      * intros [|y u] [LU KU]; [discriminate|]. injection LU as LU. cbn [bval cnt] in *. rewrite LU. pose proof (bval_lt u) as Bu. rewrite LU in Bu. unfold b2N. destruct y; [|lia].
        assert (bval u <= bval r) by (apply IH; split; lia). lia.
      * destruct (Nat.eqb_spec (cnt r) 0) as [K0|K0]; cbn [negb andb].
        -- intros [|y u] [LU KU]; [discriminate|]. injection LU as LU. cbn [bval cnt] in *. rewrite LU. unfold b2N. destruct y; [lia|].
           assert (bval u <= bval r) by (apply IH; split; lia). lia.
        -- assert (Hc : cnt r = a) by (rewrite Er, cnt_app, !cnt_rep; lia). destruct a as [|a]; [lia|].
           assert (Hl : length r = (S a + b)%nat) by (rewrite Er, app_length, !repeat_length; reflexivity).
           assert (HR : rev (clear_last r) = (repeat false (S b) ++ repeat true a)%list) by (rewrite Er, clear_last_spec, rev_app_distr, !rev_repeat; reflexivity).
           assert (HL : length (repeat false (S b) ++ repeat true a) = length r) by (rewrite app_length, !repeat_length; lia).
           rewrite HR. split; [split; [cbn [length]; lia|cbn [cnt]; rewrite cnt_app, !cnt_rep; lia]|].
           cbn [bval]. rewrite HL. pose proof (bval_lt r) as Br. unfold b2N at 1 2. split; [lia|].
           intros [|y u] [LU KU] HU; [discriminate|]. injection LU as LU. cbn [bval cnt] in *. rewrite LU in *. unfold b2N in *. destruct y.
           ++ pose proof (bval_min u) as HM. pose proof (bval_low (S b) a) as HB. assert (cnt u = a) by lia. subst a. lia.
           ++ assert (bval u <= bval r) by (apply IH; split; lia). lia.
Qed.
Lemma all_perm_spec : forall fuel s, 2 ^ N.of_nat (length s) < N.of_nat fuel + bval s ->
  exists L, all_permutations fuel s = Ok L /\ StronglySorted (fun a b => bval a < bval b) L /\
    forall u, In u L <-> similar s u /\ bval s <= bval u.
Proof.
  induction fuel as [|f IH]; intros s Hf; [pose proof (bval_lt s); cbn in Hf; lia|]. cbn [all_permutations]. pose proof (np_spec s) as HS. destruct (next_permutation s) as [t|] eqn:E.
  - destruct HS as ((L & K) & HV & HM). destruct (IH t) as (l & El & Hs & Hi).
    { rewrite L. rewrite Nat2N.inj_succ in Hf. lia. }
    rewrite El. cbn [bind]. exists (s :: l). split; [reflexivity|]. split.
    + constructor; [exact Hs|]. apply Forall_forall. intros u Hu. apply Hi in Hu. lia.
    + intros u. cbn [In]. rewrite Hi. unfold similar. split.
      * intros [<-|[[A B] D]]; [split; [split; reflexivity|lia]|]. split; [split; congruence|lia].
      * intros [[A B] D]. destruct (N.eq_dec (bval s) (bval u)) as [e|n]; [left; apply bval_inj; auto|]. right. split; [split; congruence|]. apply HM; [split; assumption|lia].
  - exists [s]. split; [reflexivity|]. split; [constructor; constructor|]. intros u. cbn [In]. split.
    + intros [<-|[]]. split; [split; reflexivity|lia].
    + intros [A B]. left. apply bval_inj; [destruct A; auto|]. pose proof (HS u A). lia.
Qed.

(** ---- bit strings of numbers ---- *)
Fixpoint bitsr (n : nat) (x : N) : list bool := match n with O => [] | S k => occ x k :: bitsr k x end.
Lemma bitsr_length n x : length (bitsr n x) = n.
Proof. induction n; cbn; auto. Qed.
Lemma bitsr_nth n x : forall i, (i < n)%nat -> nth i (bitsr n x) false = occ x (n - 1 - i).
Proof.
  induction n as [|n IH]; intros i Hi; [lia|]. cbn [bitsr]. destruct i as [|i]; cbn [nth].
  - f_equal. lia.
  - rewrite IH by lia. f_equal. lia.
Qed.
Lemma bits_str_spec n x : (n <= 64)%nat -> bits_str n x = Ok (bitsr n x).
Proof.
  intros H. unfold bits_str. destruct (Nat.ltb_spec 64 n); [lia|]. f_equal. apply (list_ext false); [rewrite map_length, seq_length, bitsr_length; reflexivity|].
  intros i Hi. rewrite map_length, seq_length in Hi. rewrite bitsr_nth by exact Hi. unfold occ.
  rewrite (nth_indep _ false (N.testbit x (N.of_nat (n - 1 - 0)))) by (rewrite map_length, seq_length; exact Hi).
  rewrite (map_nth (fun i => N.testbit x (N.of_nat (n - 1 - i)))). rewrite seq_nth by exact Hi. reflexivity.
Qed.
Lemma bval_bit s : forall p, occ (bval s) p = (Nat.ltb p (length s) && nth (length s - 1 - p) s false)%bool.
Proof.
  induction s as [|x r IH]; intros p; [unfold occ; cbn [bval length]; rewrite N.bits_0; reflexivity|]. cbn [bval length]. unfold occ in *.
  assert (HR : forall q, (length r <= q)%nat -> N.testbit (bval r) (N.of_nat q) = false) by (intros q Hq; rewrite IH; destruct (Nat.ltb_spec q (length r)); [lia|reflexivity]).
  destruct (Nat.lt_trichotomy p (length r)) as [H|[H|H]].
  - rewrite <- (N.mod_pow2_bits_low _ (N.of_nat (length r))) by lia. rewrite N.add_comm, N.mod_add by (apply N.pow_nonzero; lia).
    rewrite N.mod_pow2_bits_low by lia. rewrite IH. destruct (Nat.ltb_spec p (length r)), (Nat.ltb_spec p (S (length r))); try lia. cbn [andb].
    replace (S (length r) - 1 - p)%nat with (S (length r - 1 - p)) by lia. reflexivity.
  - subst p. destruct (Nat.ltb_spec (length r) (S (length r))); [|lia]. replace (S (length r) - 1 - length r)%nat with O by lia. cbn [andb nth].
    rewrite N.testbit_odd, N.shiftr_div_pow2, N.add_comm, N.div_add by (apply N.pow_nonzero; lia). rewrite N.div_small by apply bval_lt. destruct x; reflexivity.
  - destruct (Nat.ltb_spec p (S (length r))); [lia|]. cbn [andb].
    destruct (N.eq_dec (b2N x * 2 ^ N.of_nat (length r) + bval r) 0) as [e|n]; [rewrite e; apply N.bits_0|]. apply N.bits_above_log2.
    apply N.log2_lt_pow2; [lia|]. pose proof (bval_lt (x :: r)) as HB. cbn [bval length] in HB. eapply N.lt_le_trans; [exact HB|]. apply N.pow_le_mono_r; lia.
Qed.
Lemma bitsr_bval s : bitsr (length s) (bval s) = s.
Proof.
  apply (list_ext false); [apply bitsr_length|]. intros i Hi. rewrite bitsr_length in Hi. rewrite bitsr_nth by exact Hi. rewrite bval_bit.
  destruct (Nat.ltb_spec (length s - 1 - i) (length s)); [|lia]. cbn [andb]. f_equal. lia.
Qed.
Lemma bval_bitsr n x : x < 2 ^ N.of_nat n -> bval (bitsr n x) = x.
Proof.
  intros H. apply N.bits_inj. intros q. rewrite <- (N2Nat.id q). fold (occ (bval (bitsr n x)) (N.to_nat q)). rewrite bval_bit, bitsr_length.
  destruct (Nat.ltb_spec (N.to_nat q) n) as [L|L]; cbn [andb].
  - rewrite bitsr_nth by lia. unfold occ. f_equal. lia.
  - symmetry. destruct (N.eq_dec x 0) as [->|n0]; [apply N.bits_0|]. apply N.bits_above_log2. apply N.log2_lt_pow2; [lia|]. eapply N.lt_le_trans; [exact H|]. apply N.pow_le_mono_r; lia.
Qed.
Lemma bitsr_lxor n x y : bitsr n (N.lxor x y) = map (fun p => xorb (fst p) (snd p)) (combine (bitsr n x) (bitsr n y)).
Proof. induction n as [|n IH]; [reflexivity|]. cbn [bitsr combine map fst snd]. rewrite IH. unfold occ. rewrite N.lxor_spec. reflexivity. Qed.

(** ---- alpha and beta strings ---- *)
Lemma eo_true m x : bval (every_other true (bitsr (2 * m) x)) = spin_string 1 m x /\ cnt (every_other true (bitsr (2 * m) x)) = electrons 1 m x /\ length (every_other true (bitsr (2 * m) x)) = m.
Proof.
  induction m as [|m (IH1 & IH2 & IH3)]; [repeat split|]. replace (2 * S m)%nat with (S (S (2 * m))) by lia. cbn [bitsr every_other bval cnt length spin_string electrons].
  rewrite IH1, IH2, IH3. replace (2 * m + 1)%nat with (S (2 * m)) by lia. unfold b2N. destruct (occ x (S (2 * m))); repeat split; lia.
Qed.
Lemma eo_false m x : bval (every_other false (bitsr (2 * m) x)) = spin_string 0 m x /\ cnt (every_other false (bitsr (2 * m) x)) = electrons 0 m x /\ length (every_other false (bitsr (2 * m) x)) = m.
Proof.
  induction m as [|m (IH1 & IH2 & IH3)]; [repeat split|]. replace (2 * S m)%nat with (S (S (2 * m))) by lia. cbn [bitsr every_other bval cnt length spin_string electrons].
  rewrite IH1, IH2, IH3. replace (2 * m + 0)%nat with (2 * m)%nat by lia. unfold b2N. destruct (occ x (2 * m)); repeat split; lia.
Qed.
Lemma interleave_length b : forall a, length a = length b -> length (interleave b a) = (2 * length b)%nat.
Proof. induction b as [|x b IH]; intros [|y a] H; try discriminate; [reflexivity|]. cbn. rewrite IH by (cbn in H; lia). lia. Qed.
Lemma every_interleave b : forall a, length a = length b -> every_other true (interleave b a) = b /\ every_other false (interleave b a) = a.
Proof. induction b as [|x b IH]; intros [|y a] H; try discriminate; [split; reflexivity|]. cbn. destruct (IH a) as [-> ->]; [cbn in H; lia|split; reflexivity]. Qed.
Lemma interleave_every m x : interleave (every_other true (bitsr (2 * m) x)) (every_other false (bitsr (2 * m) x)) = bitsr (2 * m) x.
Proof. induction m as [|m IH]; [reflexivity|]. replace (2 * S m)%nat with (S (S (2 * m))) by lia. cbn [bitsr every_other interleave]. rewrite IH. reflexivity. Qed.

(** ---- sort ---- *)
Lemma insN_perm x l : Permutation (insN x l) (x :: l).
Proof. induction l as [|y l IH]; cbn; [reflexivity|]. destruct (y <? x); [rewrite IH; apply perm_swap|reflexivity]. Qed.
Lemma sortN_perm l : Permutation (sortN l) l.
Proof. induction l as [|x l IH]; cbn; [reflexivity|]. rewrite insN_perm, IH. reflexivity. Qed.
Lemma sortN_sorted l : StronglySorted N.le (sortN l).
Proof.
  induction l as [|x l IH]; [constructor|]. change (sortN (x :: l)) with (insN x (sortN l)). induction (sortN l) as [|y r IHr]; cbn; [constructor; constructor|]. inversion IH; subst. destruct (N.ltb_spec y x).
  - constructor; [auto|]. apply Forall_forall. intros z Hz. apply (Permutation_in _ (insN_perm x r)) in Hz. destruct Hz as [<-|Hz]; [lia|]. rewrite Forall_forall in H2; auto.
  - constructor; [exact IH|]. constructor; [exact H|]. eapply Forall_impl; [|exact H2]. intros; lia.
Qed.
Lemma sorted_nodup_lt l : StronglySorted N.le l -> NoDup l -> StronglySorted N.lt l.
Proof.
  induction 1 as [|x l HS IH HF]; intros HN; [constructor|]. inversion HN; subst. constructor; [auto|]. rewrite Forall_forall in *. intros y Hy. specialize (HF y Hy).
  assert (x <> y) by (intros ->; contradiction). lia.
Qed.

(** ---- the determinants ---- *)
Definition reachable (m : nat) (R D : N) : Prop := D < 2 ^ N.of_nat (2 * m) /\ (forall s, (s < 2)%nat -> electrons s m D = electrons s m R) /\
  (forall s, (s < 2)%nat -> spin_string s m R <= spin_string s m D).
Lemma sorted_nodup_bval L : StronglySorted (fun a b => bval a < bval b) L -> NoDup L.
Proof. induction 1 as [|x l HS IH HF]; constructor; [|exact IH]. intros HI. rewrite Forall_forall in HF. specialize (HF x HI). lia. Qed.
Lemma NoDup_flat_map {A B} (f : A -> list B) l : NoDup l -> (forall x, In x l -> NoDup (f x)) -> (forall x y z, In x l -> In y l -> In z (f x) -> In z (f y) -> x = y) -> NoDup (flat_map f l).
Proof.
  induction l as [|x l IH]; intros HN H1 H2; [constructor|]. inversion HN; subst. cbn.
  assert (HD : forall z, In z (f x) -> ~ In z (flat_map f l)).
  { intros z Hz Hz'. apply in_flat_map in Hz'. destruct Hz' as (y & Hy & Hz'). assert (x = y) by (eapply H2; [left; reflexivity|right; exact Hy|exact Hz|exact Hz']). subst; contradiction. }
  specialize (IH H4 (fun y Hy => H1 y (or_intror Hy)) (fun y z w Hy Hz => H2 y z w (or_intror Hy) (or_intror Hz))).
  pose proof (H1 x (or_introl eq_refl)) as HX. clear H1 H2 H4. induction (f x) as [|z r IHr]; [exact IH|]. inversion HX; subst. cbn. constructor.
  - rewrite in_app_iff. intros [H|H]; [contradiction|]. apply (HD z); [left; reflexivity|exact H].
  - apply IHr; [intros w Hw; apply HD; right; exact Hw|assumption].
Qed.
Lemma dets_spec m R : exists alphas betas,
  all_permutations (S (Nat.pow 2 (length (every_other false (bitsr (2 * m) R))))) (every_other false (bitsr (2 * m) R)) = Ok alphas /\
  all_permutations (S (Nat.pow 2 (length (every_other true (bitsr (2 * m) R))))) (every_other true (bitsr (2 * m) R)) = Ok betas /\
  let dets := sortN (flat_map (fun a => map (fun b => str_int (interleave b a)) betas) alphas) in
  StronglySorted N.lt dets /\ forall D, In D dets <-> reachable m R D.
Proof.
  destruct (eo_true m R) as (VB & KB & LB). destruct (eo_false m R) as (VA & KA & LA).
  set (sb := every_other true (bitsr (2 * m) R)) in *. set (sa := every_other false (bitsr (2 * m) R)) in *.
  assert (HP : forall s : list bool, 2 ^ N.of_nat (length s) < N.of_nat (S (Nat.pow 2 (length s))) + bval s) by (intros s; rewrite Nat2N.inj_succ, Nat2N.inj_pow; change (N.of_nat 2) with 2; lia).
  destruct (all_perm_spec _ sa (HP sa)) as (al & Ea & Sa & Ia). destruct (all_perm_spec _ sb (HP sb)) as (be & Eb & Sb & Ib).
  exists al, be. split; [exact Ea|]. split; [exact Eb|]. cbv zeta. set (l := flat_map _ al).
  assert (HL : forall a b, In a al -> In b be -> length a = m /\ length b = m /\ length a = length b).
  { intros a b Ha Hb. apply Ia in Ha. apply Ib in Hb. unfold similar in *. lia. }
  assert (HB : forall a b, length a = m -> length b = m -> bitsr (2 * m) (str_int (interleave b a)) = interleave b a).
  { intros a b H1 H2. rewrite str_int_bval. rewrite <- H2 at 1. rewrite <- (interleave_length b a) by lia. apply bitsr_bval. }
  split.
  - apply sorted_nodup_lt; [apply sortN_sorted|]. eapply Permutation_NoDup; [symmetry; apply sortN_perm|].
    assert (HI : forall a b a' b', In a al -> In b be -> In a' al -> In b' be -> str_int (interleave b a) = str_int (interleave b' a') -> a = a' /\ b = b').
    { intros a b a' b' H1 H2 H3 H4 E. destruct (HL a b H1 H2) as (L1 & L2 & _). destruct (HL a' b' H3 H4) as (L3 & L4 & _).
      pose proof (HB a b L1 L2) as B1. pose proof (HB a' b' L3 L4) as B2. rewrite E, B2 in B1. destruct (every_interleave b a) as [X1 X2]; [lia|]. destruct (every_interleave b' a') as [Y1 Y2]; [lia|].
      rewrite B1 in Y1, Y2. split; congruence. }
    apply NoDup_flat_map; [apply sorted_nodup_bval, Sa| |].
    + intros a Ha. pose proof (sorted_nodup_bval _ Sb) as NB. assert (HB' : forall b, In b be -> In b be) by auto. revert HB' NB. generalize be at 1 3 4 as bl.
      induction bl as [|b bl IHb]; intros Hin NB; [constructor|]. apply NoDup_cons_iff in NB. destruct NB as [NB1 NB2]. cbn. constructor.
      * rewrite in_map_iff. intros (b' & E & Hb'). destruct (HI a b a b') as [_ ->]; auto; [apply Hin; left; reflexivity|apply Hin; right; exact Hb'].
      * apply IHb; [intros; apply Hin; right; assumption|assumption].
    + intros a a' z Ha Ha' Hz Hz'. apply in_map_iff in Hz. destruct Hz as (b & <- & Hb). apply in_map_iff in Hz'. destruct Hz' as (b' & E & Hb'). destruct (HI a' b' a b); auto.
  - intros D. assert (HX : In D (sortN l) <-> In D l) by (split; apply Permutation_in; [|symmetry]; apply sortN_perm). rewrite HX. unfold l. rewrite in_flat_map. clear HX l. split.
    + intros (a & Ha & HD). apply in_map_iff in HD. destruct HD as (b & <- & Hb). destruct (HL a b Ha Hb) as (L1 & L2 & L3). pose proof (HB a b L1 L2) as B.
      destruct (every_interleave b a L3) as [X1 X2]. rewrite <- B in X1, X2. destruct (eo_true m (str_int (interleave b a))) as (V1 & K1 & _). destruct (eo_false m (str_int (interleave b a))) as (V0 & K0 & _).
      rewrite X1 in V1, K1. rewrite X2 in V0, K0. apply Ia in Ha. apply Ib in Hb. destruct Ha as [[_ KA'] VA']. destruct Hb as [[_ KB'] VB']. split; [|split].
      * rewrite str_int_bval. pose proof (bval_lt (interleave b a)) as H. rewrite interleave_length in H by lia. rewrite L2 in H. exact H.
      * intros [|[|s]] Hs; [lia|lia|lia].
      * intros [|[|s]] Hs; [lia|lia|lia].
    + intros (HD & HE & HV). exists (every_other false (bitsr (2 * m) D)). destruct (eo_true m D) as (V1 & K1 & L1). destruct (eo_false m D) as (V0 & K0 & L0). split.
      * apply Ia. rewrite V0, VA. split; [split; [lia|]|apply HV; lia]. rewrite K0, KA. apply HE; lia.
      * apply in_map_iff. exists (every_other true (bitsr (2 * m) D)). split; [rewrite interleave_every, str_int_bval; apply bval_bitsr, HD|].
        apply Ib. rewrite V1, VB. split; [split; [lia|]|apply HV; lia]. rewrite K1, KB. apply HE; lia.
Qed.
