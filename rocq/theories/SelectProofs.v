From Coq Require Import Reals String List Arith NArith ZArith Bool Lia Lra Permutation Sorted.
From Verif Require Import CBase Result Spec SQSpec GateModel LibProofs OperatorModel SQModel SQPoolModel SelectModel SelectSpec.
Import ListNotations.
Local Open Scope R_scope.

(** ---- sorting ---- *)
Definition tle (a b : R * N) : Prop := fst a <= fst b.
Lemma tuple_ins_perm x l : Permutation (tuple_ins x l) (x :: l).
Proof. induction l as [|y l IH]; cbn [tuple_ins]; [reflexivity|]. destruct (tuple_ltb y x); [|reflexivity]. rewrite IH. apply perm_swap. Qed.
Lemma tuple_sort_perm l : Permutation (tuple_sort l) l.
Proof. induction l as [|x l IH]; [reflexivity|]. cbn [tuple_sort fold_right]. rewrite tuple_ins_perm. constructor. exact IH. Qed.
Lemma tuple_ltb_le a b : tuple_ltb a b = true -> fst a <= fst b.
Proof. unfold tuple_ltb. destruct (Rltb_spec (fst a) (fst b)); [lra|]. destruct (Rltb_spec (fst b) (fst a)); cbn; [discriminate|lra]. Qed.
Lemma tuple_ltb_ge a b : tuple_ltb a b = false -> fst b <= fst a.
Proof. unfold tuple_ltb. destruct (Rltb_spec (fst a) (fst b)); cbn [orb]; [discriminate|]. lra. Qed.
Lemma tuple_ins_sorted x l : StronglySorted tle l -> StronglySorted tle (tuple_ins x l).
Proof.
  intros H. induction H as [|y l H IH HF]; cbn [tuple_ins]; [repeat constructor|]. destruct (tuple_ltb y x) eqn:E.
  - constructor; [exact IH|]. apply tuple_ltb_le in E. eapply Permutation_Forall; [symmetry; apply tuple_ins_perm|]. constructor; [exact E|exact HF].
  - apply tuple_ltb_ge in E. constructor; [constructor; assumption|]. constructor; [exact E|]. eapply Forall_impl; [|exact HF]. intros a Ha. unfold tle in *. lra.
Qed.
Lemma tuple_sort_sorted l : StronglySorted tle (tuple_sort l).
Proof. induction l as [|x l IH]; [constructor|]. cbn [tuple_sort fold_right]. apply tuple_ins_sorted, IH. Qed.

Lemma total_perm {A} (w : A -> R) a b : Permutation a b -> total w a = total w b.
Proof. unfold total. induction 1; cbn [fold_right]; lra. Qed.
Lemma total_map {A B} (w : B -> R) (f : A -> B) l : total w (map f l) = total (fun a => w (f a)) l.
Proof. induction l as [|x l IH]; cbn; [reflexivity|]. unfold total in IH. rewrite IH. reflexivity. Qed.
Lemma total_app {A} (w : A -> R) a b : total w (a ++ b) = total w a + total w b.
Proof. unfold total. induction a; cbn [app fold_right]; lra. Qed.
Lemma total_pos {A} (w : A -> R) l : (forall a, 0 <= w a) -> 0 <= total w l.
Proof. intros H. unfold total. induction l as [|x l IH]; cbn [fold_right]; [lra|]. specialize (H x). lra. Qed.
Lemma total_ext {A} (w v : A -> R) l : (forall a, In a l -> w a = v a) -> total w l = total v l.
Proof. intros H. unfold total. induction l as [|x l IH]; cbn [fold_right]; [reflexivity|]. rewrite IH by (intros; apply H; right; assumption). rewrite H by (left; reflexivity). reflexivity. Qed.

(** ---- the running sum ---- *)
Fixpoint runsel (T acc : R) (l : list (R * N)) : list (R * N) :=
  match l with [] => [] | x :: r => if Rltb T (acc + fst x) then x :: runsel T (acc + fst x) r else runsel T (acc + fst x) r end.
Lemma runsel_all T l : forall acc, Forall (fun x => 0 <= fst x) l -> T < acc -> runsel T acc l = l.
Proof.
  induction l as [|x l IH]; intros acc HF HT; cbn [runsel]; [reflexivity|]. inversion HF as [|? ? Hx HF']; subst. destruct (Rltb_spec T (acc + fst x)); [|lra]. f_equal. apply IH; [assumption|lra].
Qed.
Lemma runsel_spec T l : forall acc, Forall (fun x => 0 <= fst x) l -> acc <= T ->
  exists pre, l = (pre ++ runsel T acc l)%list /\ acc + total fst pre <= T /\ match runsel T acc l with [] => True | x :: _ => T < acc + total fst pre + fst x end.
Proof.
  induction l as [|x l IH]; intros acc HF HT; cbn [runsel].
  - exists []. split; [reflexivity|]. unfold total; cbn. split; [lra|exact I].
  - inversion HF as [|? ? Hx HF']; subst. destruct (Rltb_spec T (acc + fst x)) as [L|L].
    + exists []. unfold total; cbn [fold_right app]. split; [|split; [lra|lra]]. f_equal. symmetry. apply runsel_all; assumption.
    + destruct (IH (acc + fst x) HF') as (pre & E & H1 & H2); [lra|]. exists (x :: pre). split; [cbn [app]; f_equal; exact E|]. unfold total in *. cbn [fold_right]. split; [lra|].
      destruct (runsel T (acc + fst x) l); [exact I|lra].
Qed.
Lemma sorted_app_le {A} (P : A -> A -> Prop) a b : StronglySorted P (a ++ b) -> StronglySorted P b /\ forall x y, In x a -> In y b -> P x y.
Proof.
  induction a as [|x a IH]; cbn [app]; intros H; [split; [exact H|intros x y []]|]. inversion H as [|? ? H1 H2]; subst. destruct (IH H1) as [I1 I2]. split; [exact I1|].
  intros u y [<-|Hu] Hy; [|apply I2; assumption]. rewrite Forall_forall in H2. apply H2, in_or_app. right. exact Hy.
Qed.
(** the selection made by sorting and summing up *)
Lemma runsel_above (w : N -> R) T (l : list N) : 0 <= T -> (forall a, 0 <= w a) ->
  let sel := map snd (runsel T 0 (tuple_sort (map (fun a => (w a, a)) l))) in
  AboveCumulative w T l sel /\ Ascending w sel.
Proof.
  intros HT Hw. cbv zeta. set (srt := tuple_sort (map (fun a => (w a, a)) l)).
  assert (HP : Permutation srt (map (fun a => (w a, a)) l)) by apply tuple_sort_perm.
  assert (HW : Forall (fun x => fst x = w (snd x)) srt).
  { eapply Permutation_Forall; [symmetry; exact HP|]. apply Forall_forall. intros x Hx. apply in_map_iff in Hx. destruct Hx as (a & <- & _). reflexivity. }
  assert (HS : StronglySorted tle srt) by apply tuple_sort_sorted.
  destruct (runsel_spec T srt 0) as (pre & E & H1 & H2); [|lra|].
  { eapply Forall_impl; [|exact HW]. intros x Hx. cbn beta in Hx. rewrite Hx. apply Hw. }
  set (sel := runsel T 0 srt) in *. rewrite E in HW, HS. apply Forall_app in HW. destruct HW as [W1 W2]. rewrite Forall_forall in W1, W2.
  destruct (sorted_app_le _ _ _ HS) as [S1 S2].
  assert (ET : total w (map snd pre) = total fst pre) by (rewrite total_map; apply total_ext; intros a Ha; rewrite (W1 a Ha); reflexivity).
  split.
  - exists (map snd pre). split; [|split; [|split]].
    + rewrite <- map_app, <- E. rewrite HP, map_map. cbn [snd]. rewrite map_id. reflexivity.
    + intros a b Ha Hb. apply in_map_iff in Ha. apply in_map_iff in Hb. destruct Ha as (x & <- & Hx). destruct Hb as (y & <- & Hy). rewrite <- (W1 x Hx), <- (W2 y Hy). apply S2; assumption.
    + rewrite ET. lra.
    + intros b Hb. rewrite ET. apply in_map_iff in Hb. destruct Hb as (y & <- & Hy). rewrite <- (W2 y Hy). clearbody sel. destruct sel as [|x sel]; [destruct Hy|].
      assert (fst x <= fst y) by (destruct Hy as [<-|Hy]; [lra|]; inversion S1 as [|? ? _ HF]; subst; rewrite Forall_forall in HF; apply HF, Hy). lra.
  - unfold Ascending. clear E H2 HS S2. induction S1 as [|x r S1 IH HF]; cbn [map]; constructor; [apply IH; intros y Hy; apply W2; right; exact Hy|].
    apply Forall_forall. intros b Hb. apply in_map_iff in Hb. destruct Hb as (y & <- & Hy). rewrite Forall_forall in HF. rewrite <- (W2 x (or_introl eq_refl)), <- (W2 y (or_intror Hy)). apply HF, Hy.
Qed.

(** ---- ADAPT: scanning the gradients ---- *)
Lemma enumerate_cons_aux (l : list R) k : combine (map N.of_nat (seq k (length l))) l = match l with [] => [] | x :: r => (N.of_nat k, x) :: combine (map N.of_nat (seq (S k) (length r))) r end.
Proof. destruct l; reflexivity. Qed.
Definition scan_inv (pre : list R) (s : scan_t) : Prop :=
  match snd (fst s) with
  | None => fst (fst s) = 0 /\ snd s = None /\ Forall (eq 0) pre
  | Some m => Largest pre m /\ fst (fst s) = nth (N.to_nat m) pre 0 /\ fst (fst s) <> 0
  end.
Lemma scan_spec l : forall pre s, scan_inv pre s ->
  exists s', foreach (combine (map N.of_nat (seq (length pre) (length l))) l) scan_grad s = Ok s' /\ scan_inv (pre ++ l) s'.
Proof.
  induction l as [|x l IH]; intros pre s HI.
  - exists s. cbn. rewrite app_nil_r. split; [reflexivity|exact HI].
  - rewrite enumerate_cons_aux. cbn [foreach].
    replace (pre ++ x :: l)%list with ((pre ++ [x]) ++ l)%list by (rewrite <- app_assoc; reflexivity).
    enough (HX : exists s1, scan_grad (N.of_nat (length pre), x) s = Ok s1 /\ scan_inv (pre ++ [x]) s1).
    { destruct HX as (s1 & -> & HI1). cbn [bind]. specialize (IH (pre ++ [x])%list s1 HI1). rewrite app_length in IH. cbn [length] in IH. rewrite Nat.add_1_r in IH. exact IH. }
    unfold scan_grad. destruct s as [[g im] sec]. unfold scan_inv in *. cbn [fst snd] in *. destruct (Rltb_spec (Rabs g) (Rabs x)) as [L|L].
    + assert (HN : Largest (pre ++ [x]) (N.of_nat (length pre)) /\ x = nth (N.to_nat (N.of_nat (length pre))) (pre ++ [x]) 0 /\ x <> 0).
      { rewrite Nat2N.id. rewrite app_nth2, Nat.sub_diag by lia. split; [|split; [reflexivity|intros ->; rewrite Rabs_R0 in L; pose proof (Rabs_pos g); lra]].
        exists (length pre). rewrite app_length; cbn [length]. rewrite app_nth2, Nat.sub_diag by lia. cbn [nth].
        assert (HB : forall j, (j < length pre)%nat -> Rabs (nth j (pre ++ [x]) 0) <= Rabs g).
        { intros j Hj. rewrite app_nth1 by exact Hj. destruct im as [m|].
          - destruct HI as ((i & -> & Hi & Hmax & _) & -> & _). rewrite Nat2N.id. apply Hmax, Hj.
          - destruct HI as (-> & _ & HF). rewrite Forall_forall in HF. rewrite <- (HF (nth j pre 0)) by (apply nth_In, Hj). lra. }
        repeat split; [lia| |].
        - intros j Hj. destruct (Nat.eq_dec j (length pre)) as [->|n]; [rewrite app_nth2, Nat.sub_diag by lia; cbn; lra|]. specialize (HB j ltac:(lia)). lra.
        - intros j Hj. specialize (HB j Hj). lra. }
      destruct (Rltb_spec 0 (Rabs g)) as [L0|L0].
      * destruct im as [m|]; [|destruct HI as (-> & _); rewrite Rabs_R0 in L0; lra]. cbn [bind]. eexists. split; [reflexivity|]. exact HN.
      * destruct im as [m|]; [destruct HI as (_ & _ & H0); apply Rabs_pos_lt in H0; lra|]. cbn [bind]. eexists. split; [reflexivity|]. exact HN.
    + eexists. split; [reflexivity|]. cbn [fst snd]. destruct im as [m|].
      * destruct HI as ((i & -> & Hi & Hmax & Hlt) & E & H0). rewrite Nat2N.id in *. assert (Hi' : nth i (pre ++ [x]) 0 = nth i pre 0) by (apply app_nth1, Hi).
        rewrite Hi'. split; [|split; assumption]. exists i. rewrite app_length; cbn [length]. rewrite Hi'. repeat split; [lia| |].
        -- intros j Hj. destruct (Nat.eq_dec j (length pre)) as [->|n]; [rewrite app_nth2, Nat.sub_diag by lia; cbn; rewrite <- E; lra|]. rewrite app_nth1 by lia. apply Hmax; lia.
        -- intros j Hj. rewrite app_nth1 by lia. apply Hlt, Hj.
      * destruct HI as (-> & -> & HF). split; [reflexivity|]. split; [reflexivity|]. apply Forall_app. split; [exact HF|]. constructor; [|constructor].
        rewrite Rabs_R0 in L. pose proof (Rabs_pos x). destruct (Req_dec 0 x) as [e|n]; [exact e|]. assert (x <> 0) by (intros ->; apply n; reflexivity). apply Rabs_pos_lt in H0. lra.
Qed.
Lemma sum_sq_total l : sum_sq l = total (fun x => x * x) l.
Proof.
  unfold sum_sq. enough (G : forall a, fold_left (fun a g => a + g * g) l a = a + total (fun x => x * x) l) by (rewrite G; lra).
  induction l as [|x l IH]; intros a; cbn [fold_left]; unfold total in *; cbn [fold_right]; [lra|]. rewrite IH. lra.
Qed.
Lemma largest_pos g m : Largest g m -> norm g <> 0 -> nth (N.to_nat m) g 0 <> 0.
Proof.
  intros (i & -> & Hi & Hmax & _) Hn H0. rewrite Nat2N.id in H0. apply Hn. unfold norm. replace (total (fun x => x * x) g) with 0; [apply sqrt_0|]. symmetry.
  assert (HZ : Forall (eq 0) g).
  { apply Forall_forall. intros x Hx. destruct (In_nth g x 0 Hx) as (j & Hj & <-). specialize (Hmax j Hj). rewrite H0, Rabs_R0 in Hmax. pose proof (Rabs_pos (nth j g 0)).
    destruct (Req_dec 0 (nth j g 0)) as [e|n]; [exact e|]. assert (n' : nth j g 0 <> 0) by (intros e; apply n; symmetry; exact e). apply Rabs_pos_lt in n'. lra. }
  clear - HZ. induction HZ as [|x l <- _ IH]; [reflexivity|]. unfold total in *. cbn [fold_right]. rewrite IH. lra.
Qed.
Lemma zero_norm g : Forall (eq 0) g -> norm g = 0.
Proof. intros H. unfold norm. replace (total (fun x => x * x) g) with 0; [apply sqrt_0|]. symmetry. induction H as [|x l <- _ IH]; [reflexivity|]. unfold total in *. cbn [fold_right]. rewrite IH. lra. Qed.

(** cumulative selection *)
Lemma adapt_cumulative_spec T grads tamps :
  let r := adapt_cumulative T grads tamps in
  let w := fun m : N => nth (N.to_nat m) grads 0 * nth (N.to_nat m) grads 0 in
  AboveCumulative w (T * T) (map N.of_nat (seq 0 (length grads))) (snd (fst r)) /\ Descending w (snd (fst r)) /\
  snd r = (tamps ++ repeat 0 (length (snd (fst r))))%list.
Proof.
  cbv zeta. set (w := fun m : N => nth (N.to_nat m) grads 0 * nth (N.to_nat m) grads 0).
  assert (EL : map (fun mg : N * R => (snd mg * snd mg, fst mg)) (enumerate grads) = map (fun a => (w a, a)) (map N.of_nat (seq 0 (length grads)))).
  { unfold enumerate, w. rewrite map_map. enough (G : forall l k, (forall i, (i < length l)%nat -> nth i l 0 = nth (k + i) grads 0) -> map (fun mg : N * R => (snd mg * snd mg, fst mg)) (combine (map N.of_nat (seq k (length l))) l) =
      map (fun i => (nth (N.to_nat (N.of_nat i)) grads 0 * nth (N.to_nat (N.of_nat i)) grads 0, N.of_nat i)) (seq k (length l))) by (apply G; reflexivity).
    induction l as [|x l IH]; intros k H; [reflexivity|]. cbn [length seq map combine]. f_equal.
    - cbn [fst snd]. rewrite Nat2N.id. pose proof (H O ltac:(cbn; lia)) as H0. rewrite Nat.add_0_r in H0. cbn [nth] in H0. rewrite <- H0. reflexivity.
    - apply IH. intros i Hi. specialize (H (S i) ltac:(cbn; lia)). cbn [nth] in H. rewrite H. f_equal. lia. }
  unfold adapt_cumulative. rewrite EL. set (srt := tuple_sort _).
  assert (GF : forall l acc sel t, fold_left (fun s g => let total := fst (fst s) + fst g in if Rltb (T * T) total then (total, snd g :: snd (fst s), (snd s ++ [0])%list) else (total, snd (fst s), snd s)) l (acc, sel, t) =
     (acc + total fst l, (rev (map snd (runsel (T * T) acc l)) ++ sel)%list, (t ++ repeat 0 (length (runsel (T * T) acc l)))%list)).
  { induction l as [|x l IH]; intros acc sel t; cbn [fold_left runsel].
    - unfold total; cbn [fold_right map rev app length repeat]. rewrite app_nil_r. f_equal. f_equal. lra.
    - cbn [fst snd]. destruct (Rltb_spec (T * T) (acc + fst x)); rewrite IH; unfold total; cbn [fold_right map rev length repeat]; rewrite <- ?app_assoc, Rplus_assoc; reflexivity. }
  rewrite GF. cbn [fst snd]. rewrite app_nil_r.
  destruct (runsel_above w (T * T) (map N.of_nat (seq 0 (length grads)))) as [HA HD]; [apply Rle_0_sqr|intros a; apply Rle_0_sqr|]. fold srt in HA, HD.
  rewrite rev_length, map_length. split; [|split; [|reflexivity]].
  - destruct HA as (rest & P1 & P2 & P3 & P4). exists rest. split; [rewrite <- (Permutation_rev (map snd _)); exact P1|]. split; [intros a b Ha Hb; apply P2; [exact Ha|apply in_rev; exact Hb]|]. split; [exact P3|].
    intros b Hb. apply P4. apply in_rev. exact Hb.
  - unfold Ascending, Descending in *. clear -HD. induction HD as [|x l HS IH HF]; cbn [rev]; [constructor|].
    assert (HF' : Forall (fun b => w x <= w b) (rev l)) by (eapply Permutation_Forall; [apply Permutation_rev|exact HF]). clear - IH HF'.
    induction IH as [|y r HS2 IH2 HF2]; cbn [app]; [repeat constructor|]. inversion HF'; subst. constructor; [apply IH2; assumption|]. apply Forall_app. split; [exact HF2|]. constructor; [assumption|constructor].
Qed.
