(** permutation_phase computes the sign of the permutation that sorts a list. *)
From Coq Require Import Reals List Arith Lia Bool Lra Permutation.
From Verif Require Import CBase Result Bits Spec SQSpec GateModel ComputerModel CircuitModel OperatorModel SQModel.
Import ListNotations.
Local Open Scope C_scope.

(** ---- antisymmetric functions of a list ---- *)
Definition antisym (F : list nat -> C) : Prop := forall a x y b, F (a ++ x :: y :: b) = - F (a ++ y :: x :: b).
Definition spow (n : nat) : C := sgn (Nat.odd n).
Lemma sgn_sgn b : sgn b * sgn b = C1.
Proof. destruct b; unfold sgn; ring. Qed.
Lemma sgn_neg b : sgn (negb b) = - sgn b.
Proof. destruct b; unfold sgn; cbn [negb]; ring. Qed.
Lemma sgn_xor a b : sgn (xorb a b) = sgn a * sgn b.
Proof. destruct a, b; unfold sgn; cbn [xorb]; ring. Qed.
Lemma spow_S n : spow (S n) = - spow n.
Proof. unfold spow. rewrite Nat.odd_succ, <- Nat.negb_odd, sgn_neg. reflexivity. Qed.
Lemma move_right F : antisym F -> forall m a x b, F (a ++ x :: m ++ b) = spow (length m) * F (a ++ m ++ x :: b).
Proof.
  intros HF. induction m as [|y m IH]; intros a x b; cbn [app length].
  - unfold spow, sgn; cbn. ring.
  - rewrite HF. specialize (IH (a ++ [y])%list x b). rewrite <- !app_assoc in IH. cbn [app] in IH. rewrite IH, spow_S. ring.
Qed.
Lemma transpose F : antisym F -> forall a x m y b, F (a ++ x :: m ++ y :: b) = - F (a ++ y :: m ++ x :: b).
Proof.
  intros HF a x m y b. rewrite (move_right F HF m a x (y :: b)).
  pose proof (move_right F HF m a y (x :: b)) as H2. rewrite H2.
  replace (F (a ++ m ++ x :: y :: b)) with (- F (a ++ m ++ y :: x :: b)); [ring|].
  pose proof (HF (a ++ m)%list x y b) as H3. rewrite <- !app_assoc in H3. rewrite H3. ring.
Qed.
Lemma split_two {A} (d : A) (p : list A) i j : (i < j < length p)%nat ->
  exists a m b, p = (a ++ nth i p d :: m ++ nth j p d :: b)%list /\ length a = i /\ (i + 1 + length m)%nat = j.
Proof.
  intros H. destruct (nth_split p d (n := i)) as (a & r & E & HL); [lia|].
  assert (Hj : nth j p d = nth (j - i - 1) r d).
  { rewrite E at 1. rewrite app_nth2 by lia. rewrite HL. destruct (j - i)%nat as [|k] eqn:Ek; [lia|]. cbn [nth]. f_equal. lia. }
  assert (Hlen : length p = (i + 1 + length r)%nat) by (rewrite E at 1; rewrite app_length; cbn [length]; lia).
  destruct (nth_split r d (n := (j - i - 1)%nat)) as (m & b & E2 & HL2); [lia|].
  exists a, m, b. rewrite Hj. split; [|split; [exact HL|lia]]. rewrite <- E2. exact E.
Qed.
Lemma list_set_app {A} (a r : list A) x v : list_set (a ++ x :: r) (length a) v = (a ++ v :: r)%list.
Proof. induction a as [|y a IH]; cbn; [reflexivity|]. rewrite IH; reflexivity. Qed.
Lemma list_set_app2 {A} (a m b : list A) x y v : list_set (a ++ x :: m ++ y :: b) (length a + 1 + length m) v = (a ++ x :: m ++ v :: b)%list.
Proof.
  replace (a ++ x :: m ++ y :: b)%list with ((a ++ x :: m) ++ y :: b)%list by (rewrite <- app_assoc; reflexivity).
  replace (length a + 1 + length m)%nat with (length (a ++ x :: m)) by (rewrite app_length; cbn; lia).
  rewrite list_set_app, <- app_assoc. reflexivity.
Qed.
Lemma list_set_comm {A} (p : list A) i j x y : i <> j -> list_set (list_set p i x) j y = list_set (list_set p j y) i x.
Proof.
  revert i j. induction p as [|a p IH]; intros [|i] [|j] H; cbn; try reflexivity; try lia. f_equal. apply IH. lia.
Qed.
(** the swap of two entries *)
Definition swapl (p : list nat) (i j : nat) : list nat := list_set (list_set p i (nth j p 0%nat)) j (nth i p 0%nat).
Lemma swapl_sym p i j : i <> j -> swapl p i j = swapl p j i.
Proof. intros H. unfold swapl. apply list_set_comm. exact H. Qed.
Lemma swapl_antisym_lt F (f : nat -> nat) p i j : antisym F -> (i < j < length p)%nat -> F (map f (swapl p i j)) = - F (map f p).
Proof.
  intros HF H. destruct (split_two 0%nat p i j H) as (a & m & b & E & Ha & Hm).
  unfold swapl. set (x := nth i p 0%nat) in *. set (y := nth j p 0%nat) in *.
  rewrite E. rewrite <- Ha at 1. rewrite list_set_app. rewrite <- Hm, <- Ha, list_set_app2.
  rewrite !map_app. cbn [map]. rewrite !map_app. cbn [map]. apply transpose, HF.
Qed.
Lemma swapl_antisym F (f : nat -> nat) p i j : antisym F -> (i < length p)%nat -> (j < length p)%nat -> i <> j ->
  F (map f (swapl p i j)) = - F (map f p).
Proof.
  intros HF Hi Hj Hn. destruct (lt_dec i j); [apply swapl_antisym_lt; [exact HF|lia]|].
  rewrite swapl_sym by exact Hn. apply swapl_antisym_lt; [exact HF|lia].
Qed.
Lemma swapl_nth p i j k : (i < length p)%nat -> (j < length p)%nat ->
  nth k (swapl p i j) 0%nat = if (k =? j)%nat then nth i p 0%nat else if (k =? i)%nat then nth j p 0%nat else nth k p 0%nat.
Proof. intros Hi Hj. unfold swapl. rewrite nth_list_set by (rewrite list_set_length; exact Hj). rewrite nth_list_set by exact Hi. reflexivity. Qed.
Lemma swapl_length p i j : length (swapl p i j) = length p.
Proof. unfold swapl. rewrite !list_set_length. reflexivity. Qed.

(** ---- lists of all indices ---- *)
Definition is_perm (p : list nat) : Prop := NoDup p /\ forall k, In k p -> (k < length p)%nat.
Lemma is_perm_bound p i : is_perm p -> (i < length p)%nat -> (nth i p 0%nat < length p)%nat.
Proof. intros [_ H] Hi. apply H, nth_In, Hi. Qed.
Lemma is_perm_inj p i j : is_perm p -> (i < length p)%nat -> (j < length p)%nat -> nth i p 0%nat = nth j p 0%nat -> i = j.
Proof. intros [H _] Hi Hj E. apply (proj1 (NoDup_nth p 0%nat) H); assumption. Qed.
Lemma swapl_perm p i j : is_perm p -> (i < length p)%nat -> (j < length p)%nat -> is_perm (swapl p i j).
Proof.
  intros HP Hi Hj. split.
  - apply (NoDup_nth _ 0%nat). rewrite swapl_length. intros x y Hx Hy. rewrite !swapl_nth by assumption. intros E.
    destruct (Nat.eqb_spec x j), (Nat.eqb_spec y j), (Nat.eqb_spec x i), (Nat.eqb_spec y i); subst; try reflexivity; try lia;
      try (apply is_perm_inj in E; [lia|exact HP|lia|lia]).
  - intros k Hk. rewrite swapl_length. apply (In_nth _ _ 0%nat) in Hk. destruct Hk as (x & Hx & <-). rewrite swapl_length in Hx.
    rewrite swapl_nth by assumption. destruct (x =? j)%nat; [|destruct (x =? i)%nat]; apply is_perm_bound; assumption.
Qed.
Definition fixed (p : list nat) : nat := length (filter (fun k => nth k p 0%nat =? k)%nat (seq 0 (length p))).
Lemma fixed_le p : (fixed p <= length p)%nat.
Proof.
  unfold fixed. rewrite <- (seq_length (length p) 0) at 2. generalize (seq 0 (length p)) as l. induction l as [|x l IH]; cbn; [lia|].
  destruct (nth x p 0%nat =? x)%nat; cbn; lia.
Qed.
Lemma filter_more {A} (f g : A -> bool) l x : (forall y, f y = true -> g y = true) -> In x l -> f x = false -> g x = true ->
  (length (filter f l) < length (filter g l))%nat.
Proof.
  intros H. assert (HLE : forall l, (length (filter f l) <= length (filter g l))%nat).
  { induction l0 as [|y l0 IH]; cbn; [lia|]. destruct (f y) eqn:E; [rewrite (H y E); cbn; lia|]. destruct (g y); cbn; lia. }
  induction l as [|y l IH]; intros HI Hf Hg; [destruct HI|]. destruct HI as [->|HI]; cbn [filter].
  - rewrite Hf, Hg. cbn. specialize (HLE l). lia.
  - specialize (IH HI Hf Hg). destruct (f y) eqn:E; [rewrite (H y E); cbn; lia|]. destruct (g y); cbn; lia.
Qed.
Lemma swapl_fixed p i : is_perm p -> (i < length p)%nat -> nth i p 0%nat <> i ->
  (fixed p < fixed (swapl p i (nth i p 0%nat)))%nat.
Proof.
  intros HP Hi Hne. pose proof (is_perm_bound p i HP Hi) as Hb. unfold fixed. rewrite swapl_length.
  apply filter_more with (x := nth i p 0%nat).
  - intros y Hy. apply Nat.eqb_eq in Hy. rewrite swapl_nth by assumption. apply Nat.eqb_eq.
    destruct (Nat.eqb_spec y (nth i p 0%nat)) as [E|N]; [congruence|]. destruct (Nat.eqb_spec y i) as [E|N2]; [congruence|exact Hy].
  - apply in_seq; lia.
  - apply Nat.eqb_neq. intros E. apply (is_perm_inj p _ i HP Hb Hi) in E. congruence.
  - rewrite swapl_nth by assumption. rewrite Nat.eqb_refl. apply Nat.eqb_refl.
Qed.

Lemma cycle_loop_spec : forall fuel i p cnt, is_perm p -> (i < length p)%nat -> (length p - fixed p < fuel)%nat ->
  exists p' cnt', cycle_loop fuel i (p, cnt) = Ok (p', cnt') /\ is_perm p' /\ length p' = length p /\ nth i p' 0%nat = i /\
    (forall k, (k < length p)%nat -> nth k p 0%nat = k -> nth k p' 0%nat = k) /\
    (forall F f, antisym F -> F (map f p') * spow cnt' = F (map f p) * spow cnt).
Proof.
  induction fuel as [|fuel IH]; intros i p cnt HP Hi Hf; [lia|]. cbn [cycle_loop fst snd].
  rewrite (vget_ok p i 0%nat Hi). cbn [bind]. destruct (Nat.eqb_spec i (nth i p 0%nat)) as [E|N].
  - exists p, cnt. split; [reflexivity|]. split; [exact HP|]. split; [reflexivity|]. split; [symmetry; exact E|]. split; [auto|]. reflexivity.
  - pose proof (is_perm_bound p i HP Hi) as Hb. rewrite (vget_ok p _ 0%nat Hb). cbn [bind]. rewrite vset_ok by exact Hi. cbn [bind].
    rewrite vset_ok by (rewrite list_set_length; exact Hb). cbn [bind].
    change (list_set (list_set p i (nth (nth i p 0%nat) p 0%nat)) (nth i p 0%nat) (nth i p 0%nat)) with (swapl p i (nth i p 0%nat)).
    pose proof (swapl_fixed p i HP Hi (not_eq_sym N)) as HX. pose proof (fixed_le (swapl p i (nth i p 0%nat))) as HY. rewrite swapl_length in HY.
    destruct (IH i (swapl p i (nth i p 0%nat)) (S cnt)) as (p' & cnt' & E & H1 & H2 & H3 & H4 & H5).
    + apply swapl_perm; assumption.
    + rewrite swapl_length; exact Hi.
    + rewrite swapl_length; lia.
    + exists p', cnt'. rewrite swapl_length in *. split; [exact E|]. split; [exact H1|]. split; [exact H2|]. split; [exact H3|]. split.
      * intros k Hk Ek. apply H4; [exact Hk|]. rewrite swapl_nth by assumption.
        destruct (Nat.eqb_spec k (nth i p 0%nat)); [congruence|]. destruct (Nat.eqb_spec k i); [congruence|exact Ek].
      * intros F f HF. rewrite (H5 F f HF), (swapl_antisym F f p i _ HF Hi Hb N), spow_S. ring.
Qed.
Lemma phase_loop n : forall k p cnt, (k <= n)%nat -> is_perm p -> length p = n ->
  (forall j, (j < k)%nat -> nth j p 0%nat = j) ->
  exists p' cnt', foreach (seq k (n - k)) (fun i s => cycle_loop (S n) i s) (p, cnt) = Ok (p', cnt') /\ length p' = n /\
    (forall j, (j < n)%nat -> nth j p' 0%nat = j) /\ (forall F f, antisym F -> F (map f p') * spow cnt' = F (map f p) * spow cnt).
Proof.
  intros k p cnt Hk. remember (n - k)%nat as m eqn:Em. revert k Hk Em p cnt. induction m as [|m IH]; intros k Hk Em p cnt HP HL Hfix.
  - exists p, cnt. split; [reflexivity|]. split; [exact HL|]. split; [intros j Hj; apply Hfix; lia|reflexivity].
  - cbn [seq foreach]. destruct (cycle_loop_spec (S n) k p cnt HP) as (p1 & c1 & E & H1 & H2 & H3 & H4 & H5); [lia|lia|].
    rewrite E. cbn [bind]. destruct (IH (S k) ltac:(lia) ltac:(lia) p1 c1 H1 ltac:(lia)) as (p' & c' & E' & A & B & D).
    + intros j Hj. destruct (Nat.eq_dec j k) as [->|]; [exact H3|]. apply H4; [lia|]. apply Hfix; lia.
    + exists p', c'. split; [exact E'|]. split; [exact A|]. split; [exact B|]. intros F f HF. rewrite (D F f HF). apply H5, HF.
Qed.
(** permutation_phase never fails and its result is the sign *)
Lemma permutation_phase_spec p : is_perm p ->
  exists b, permutation_phase p = Ok b /\ forall F f, antisym F -> F (map f p) = sgn b * F (map f (seq 0 (length p))).
Proof.
  intros HP. unfold permutation_phase.
  destruct (phase_loop (length p) 0 p 0%nat ltac:(lia) HP eq_refl) as (p' & c & E & HL & HN & HF); [intros; lia|].
  rewrite Nat.sub_0_r in E. rewrite E. cbn [bind snd]. eexists. split; [reflexivity|]. intros F f HA.
  assert (Ep : p' = seq 0 (length p)).
  { apply (list_ext 0%nat); [rewrite seq_length; exact HL|]. intros i Hi. rewrite HN by lia. rewrite seq_nth by lia. reflexivity. }
  rewrite <- Ep. pose proof (HF F f HA) as H. change (negb (Nat.even c)) with (Nat.odd c).
  change (spow 0) with C1 in H. unfold spow in H. transitivity (F (map f p) * C1); [ring|]. rewrite <- H. ring.
Qed.

(** ---- canonicalize_helper ---- *)
Lemma desc_weak (l : list nat) : weak_order (fun i j => Nat.ltb (nth j l 0%nat) (nth i l 0%nat)).
Proof.
  split; [|split].
  - intros x. apply Nat.ltb_irrefl.
  - intros x y z H1 H2. apply Nat.ltb_lt in H1, H2. apply Nat.ltb_lt. lia.
  - intros x y z H1 H2 H3 H4. apply Nat.ltb_ge in H1, H2, H3, H4. split; apply Nat.ltb_ge; lia.
Qed.
Lemma map_nth_seq {A} (d : A) (l : list A) : map (fun k => nth k l d) (seq 0 (length l)) = l.
Proof.
  apply (list_ext d); [rewrite map_length, seq_length; reflexivity|]. intros i Hi. rewrite map_length, seq_length in Hi.
  rewrite (nth_indep _ d (nth 0 l d)) by (rewrite map_length, seq_length; exact Hi).
  rewrite (map_nth (fun k => nth k l d)), seq_nth by exact Hi. reflexivity.
Qed.
Lemma mapM_vget {A} (d : A) (l : list A) ks : (forall k, In k ks -> (k < length l)%nat) -> mapM (fun k => vget l k) ks = Ok (map (fun k => nth k l d) ks).
Proof.
  induction ks as [|k ks IH]; intros H; [reflexivity|]. cbn [mapM map]. rewrite (vget_ok l k d) by (apply H; left; reflexivity). cbn [bind].
  rewrite IH by (intros; apply H; right; assumption). reflexivity.
Qed.
Lemma canonicalize_spec srt l : legal_sort srt -> exists l' b, canonicalize_helper srt l = Ok (l', sgn b) /\
  Permutation l' l /\ descending l' /\ forall F, antisym F -> F l = sgn b * F l'.
Proof.
  intros HS. unfold canonicalize_helper. set (lt := fun i j => Nat.ltb (nth j l 0%nat) (nth i l 0%nat)).
  destruct (HS lt (seq 0 (length l)) (desc_weak l)) as [HP HO]. set (temp := srt lt (seq 0 (length l))) in *.
  assert (HLen : length temp = length l) by (rewrite (Permutation_length HP), seq_length; reflexivity).
  assert (HI : is_perm temp).
  { split; [eapply Permutation_NoDup; [symmetry; exact HP|apply seq_NoDup]|]. intros k Hk. rewrite HLen.
    apply (Permutation_in _ HP) in Hk. apply in_seq in Hk. lia. }
  rewrite (mapM_vget 0%nat) by (intros k Hk; rewrite <- HLen; apply HI, Hk). cbn [bind].
  destruct (permutation_phase_spec temp HI) as (b & E & HF). rewrite E. cbn [bind].
  exists (map (fun k => nth k l 0%nat) temp), b. split; [destruct b; reflexivity|]. split; [|split].
  - transitivity (map (fun k => nth k l 0%nat) (seq 0 (length l))); [apply Permutation_map, HP|]. rewrite map_nth_seq. reflexivity.
  - intros i j d Hij. rewrite map_length in Hij. rewrite HLen in Hij. rewrite seq_length in HO. specialize (HO i j 0%nat Hij). unfold lt in HO. apply Nat.ltb_ge in HO.
    rewrite !(nth_indep _ d (nth 0 l 0%nat)) by (rewrite map_length, HLen; lia). rewrite !(map_nth (fun k => nth k l 0%nat)). exact HO.
  - intros F HA. rewrite (HF F (fun k => nth k l 0%nat) HA). rewrite HLen, map_nth_seq.
    transitivity ((sgn b * sgn b) * F l); [rewrite sgn_sgn; ring|ring].
Qed.

(** ---- the sign is the parity of the number of inversions ---- *)
Fixpoint nodupb (l : list nat) : bool := match l with [] => true | x :: r => negb (existsb (Nat.eqb x) r) && nodupb r end.
Lemma nodupb_spec l : nodupb l = true <-> NoDup l.
Proof.
  induction l as [|x r IH]; cbn [nodupb]; [split; [constructor|reflexivity]|]. rewrite andb_true_iff, IH, negb_true_iff. split.
  - intros [H1 H2]. constructor; [|exact H2]. intros HI. apply Bool.not_true_iff_false in H1. apply H1. apply existsb_exists. exists x. split; [exact HI|apply Nat.eqb_refl].
  - intros H. inversion H; subst. split; [|assumption]. apply Bool.not_true_iff_false. intros HE. apply existsb_exists in HE. destruct HE as (y & Hy & E).
    apply Nat.eqb_eq in E. subst y. contradiction.
Qed.
Lemma inversions_swap a x y b : x <> y -> Nat.odd (inversions (a ++ x :: y :: b)) = negb (Nat.odd (inversions (a ++ y :: x :: b))).
Proof.
  intros H. induction a as [|z a IH]; cbn [app inversions filter].
  - destruct (Nat.ltb_spec x y), (Nat.ltb_spec y x); try lia; cbn [length].
    + replace (S (length (filter (fun y0 => x <? y0)%nat b)) + (length (filter (fun y0 => y <? y0)%nat b) + inversions b))%nat
        with (S (length (filter (fun y0 => y <? y0)%nat b) + (length (filter (fun y0 => x <? y0)%nat b) + inversions b)))%nat by lia.
      rewrite Nat.odd_succ, <- Nat.negb_odd. reflexivity.
    + replace (S (length (filter (fun y0 => y <? y0)%nat b)) + (length (filter (fun y0 => x <? y0)%nat b) + inversions b))%nat
        with (S (length (filter (fun y0 => x <? y0)%nat b) + (length (filter (fun y0 => y <? y0)%nat b) + inversions b)))%nat by lia.
      rewrite Nat.odd_succ, <- Nat.negb_odd. rewrite negb_involutive. reflexivity.
  - rewrite !Nat.odd_add, IH.
    assert (E : length (filter (fun y0 => (z <? y0)%nat) (a ++ x :: y :: b)) = length (filter (fun y0 => (z <? y0)%nat) (a ++ y :: x :: b))).
    { rewrite !filter_app, !app_length. cbn [filter]. destruct (z <? x)%nat, (z <? y)%nat; reflexivity. }
    rewrite E. clear. destruct (Nat.odd (length _)), (Nat.odd (inversions _)); reflexivity.
Qed.
Definition Finv (l : list nat) : C := if nodupb l then sgn (Nat.odd (inversions l)) else C0.
Lemma Finv_antisym : antisym Finv.
Proof.
  intros a x y b. unfold Finv.
  assert (E : nodupb (a ++ x :: y :: b) = nodupb (a ++ y :: x :: b)).
  { apply Bool.eq_true_iff_eq. rewrite !nodupb_spec. split; apply Permutation_NoDup; apply Permutation_app_head, perm_swap. }
  rewrite E. destruct (nodupb (a ++ y :: x :: b)) eqn:EN; [|ring]. apply nodupb_spec in EN.
  rewrite inversions_swap, sgn_neg; [reflexivity|]. intros ->. apply NoDup_remove_2 in EN. apply EN, in_or_app. right; left; reflexivity.
Qed.
Lemma descending_inversions l : descending l -> inversions l = 0%nat.
Proof.
  induction l as [|x r IH]; intros H; [reflexivity|]. cbn [inversions]. rewrite IH by (intros i j d Hij; apply (H (S i) (S j) d); cbn; lia).
  replace (filter (fun y => (x <? y)%nat) r) with (@nil nat); [reflexivity|]. symmetry.
  assert (HA : forall y, In y r -> (y <= x)%nat).
  { intros y Hy. apply (In_nth _ _ 0%nat) in Hy. destruct Hy as (k & Hk & <-). apply (H 0%nat (S k) 0%nat). cbn; lia. }
  clear - HA. induction r as [|y r IH]; [reflexivity|]. cbn [filter]. destruct (Nat.ltb_spec x y) as [HL|_]; [specialize (HA y (or_introl eq_refl)); lia|].
  apply IH. intros; apply HA; right; assumption.
Qed.
Lemma sign_inversions srt l : legal_sort srt -> NoDup l -> exists l',
  canonicalize_helper srt l = Ok (l', sgn (Nat.odd (inversions l))) /\ Permutation l' l /\ descending l'.
Proof.
  intros HS HN. destruct (canonicalize_spec srt l HS) as (l' & b & E & HP & HD & HF). exists l'. split; [|split; assumption].
  rewrite E. f_equal. f_equal. specialize (HF Finv Finv_antisym). unfold Finv in HF.
  rewrite (proj2 (nodupb_spec l) HN) in HF. rewrite (proj2 (nodupb_spec l')) in HF by (eapply Permutation_NoDup; [symmetry; exact HP|exact HN]).
  rewrite (descending_inversions l' HD) in HF. cbn [Nat.odd] in HF. rewrite HF. change (sgn (Nat.odd 0)) with C1. ring.
Qed.
