(** Proofs about the sparse matrix class (SparseModel.v). *)
From Coq Require Import Reals String List Arith Lia Bool Lra Sorting.Sorted.
From Verif Require Import CBase Result Bits Spec GateModel ComputerModel CircuitModel OperatorModel SparseModel SafeProofs.
Import ListNotations.

(** *** maps *)
Definition ksorted {V} (m : list (nat * V)) : Prop := StronglySorted lt (map fst m).
Lemma mfind_mput {V} k v k' (m : list (nat * V)) : mfind k' (mput k v m) = if k' =? k then Some v else mfind k' m.
Proof.
  induction m as [|[k0 v0] m IH]; cbn [mput mfind]; [reflexivity|].
  destruct (Nat.ltb_spec k k0); [cbn [mfind]; reflexivity|].
  destruct (Nat.eqb_spec k k0) as [->|N]; cbn [mfind].
  - destruct (k' =? k0); reflexivity.
  - rewrite IH. destruct (Nat.eqb_spec k' k0), (Nat.eqb_spec k' k); subst; congruence.
Qed.
Lemma mput_keys {V} k v x (m : list (nat * V)) : In x (map fst (mput k v m)) <-> x = k \/ In x (map fst m).
Proof.
  induction m as [|[k0 v0] m IH]; cbn [mput]; [cbn; intuition|].
  destruct (Nat.ltb_spec k k0); [cbn; intuition|].
  destruct (Nat.eqb_spec k k0) as [->|N]; cbn [map fst In]; [intuition|]. rewrite IH. intuition.
Qed.
Lemma ksorted_mput {V} k v (m : list (nat * V)) : ksorted m -> ksorted (mput k v m).
Proof.
  unfold ksorted. induction m as [|[k0 v0] m IH]; cbn [mput map fst]; intros H; [repeat constructor|].
  inversion H as [|? ? HS HF]; subst.
  destruct (Nat.ltb_spec k k0).
  - cbn [map fst]. constructor; [exact H|]. constructor; [exact H0|]. eapply Forall_impl; [|exact HF]. intros a Ha; cbn in *; lia.
  - destruct (Nat.eqb_spec k k0) as [->|N]; cbn [map fst]; [constructor; assumption|].
    constructor; [apply IH, HS|]. apply Forall_forall. intros x Hx. apply mput_keys in Hx. destruct Hx as [->|Hx]; [lia|].
    rewrite Forall_forall in HF. exact (HF x Hx).
Qed.
Lemma ksorted_notin {V} k v (m : list (nat * V)) : ksorted ((k, v) :: m) -> mfind k m = None /\ ksorted m.
Proof.
  unfold ksorted. cbn [map fst]. intros H; inversion H as [|? ? HS HF]; subst. split; [|exact HS]. clear H HS.
  induction m as [|[k0 v0] m IH]; [reflexivity|]. cbn [mfind]. cbn [map fst] in HF. inversion HF; subst.
  destruct (Nat.eqb_spec k k0); [lia|]. auto.
Qed.
Lemma mfind_merase {V} k k' (m : list (nat * V)) : ksorted m -> mfind k' (merase k m) = if k' =? k then None else mfind k' m.
Proof.
  induction m as [|[k0 v0] m IH]; cbn [merase mfind]; intros H; [destruct (_ =? _); reflexivity|].
  apply ksorted_notin in H as [H1 H2].
  destruct (Nat.eqb_spec k k0) as [->|N].
  - destruct (Nat.eqb_spec k' k0); subst; [exact H1|reflexivity].
  - cbn [mfind]. rewrite IH by exact H2. destruct (Nat.eqb_spec k' k0), (Nat.eqb_spec k' k); subst; congruence.
Qed.
Lemma ksorted_merase {V} k (m : list (nat * V)) : ksorted m -> ksorted (merase k m).
Proof.
  unfold ksorted. induction m as [|[k0 v0] m IH]; cbn [merase map fst]; intros H; [exact H|]. inversion H as [|? ? HS HF]; subst.
  destruct (_ =? _); [exact HS|]. cbn [map fst]. constructor; [apply IH, HS|].
  clear - HF. induction m as [|[k1 v1] m IH]; cbn [merase map fst] in *; [constructor|]. inversion HF; subst.
  destruct (k =? k1); [assumption|]. cbn. constructor; auto.
Qed.
Lemma mfind_in {V} k v (m : list (nat * V)) : ksorted m -> (In (k, v) m <-> mfind k m = Some v).
Proof.
  induction m as [|[k0 v0] m IH]; cbn [In mfind]; intros H; [split; [tauto|discriminate]|].
  apply ksorted_notin in H as [H1 H2]. rewrite (IH H2). destruct (Nat.eqb_spec k k0) as [->|N].
  - split; [intros [E|E]; [congruence|congruence]|intros E; left; congruence].
  - split; [intros [E|E]; congruence|auto].
Qed.
Lemma mfind_key {V} k (m : list (nat * V)) : mfind k m = None <-> ~ In k (map fst m).
Proof.
  induction m as [|[k0 v0] m IH]; cbn [mfind map fst In]; [tauto|]. destruct (Nat.eqb_spec k k0) as [->|N]; [split; [discriminate|intuition]|].
  rewrite IH. intuition.
Qed.
Lemma ksorted_nodup {V} (m : list (nat * V)) : ksorted m -> NoDup (map fst m).
Proof.
  unfold ksorted. induction (map fst m) as [|x l IH]; intros H; [constructor|]. inversion H as [|? ? HS HF]; subst. constructor; [|auto].
  rewrite Forall_forall in HF. intros Hx. specialize (HF x Hx). lia.
Qed.

(** *** matrices *)
Definition wfm (m : smat) : Prop := ksorted m /\ Forall (fun r => ksorted (snd r)) m.
Lemma wfm_nil : wfm [].
Proof. split; constructor. Qed.
Lemma wfm_row m I : wfm m -> ksorted (row m I).
Proof.
  intros [H1 H2]. unfold row. destruct (mfind I m) eqn:E; [|constructor].
  apply mfind_in in E; [|exact H1]. rewrite Forall_forall in H2. exact (H2 _ E).
Qed.
Lemma wfm_put m I r : wfm m -> ksorted r -> wfm (mput I r m).
Proof.
  intros [H1 H2] Hr. split; [apply ksorted_mput, H1|]. apply Forall_forall. intros [k v] Hin.
  apply mfind_in in Hin; [|apply ksorted_mput, H1]. rewrite mfind_mput in Hin. cbn. destruct (_ =? _).
  - congruence.
  - apply mfind_in in Hin; [|exact H1]. rewrite Forall_forall in H2. exact (H2 _ Hin).
Qed.
Lemma sget_row m I J : sget m I J = vec_get (row m I) J.
Proof. unfold sget, row. destruct (mfind I m); reflexivity. Qed.
Lemma row_put m I r I' : row (mput I r m) I' = if I' =? I then r else row m I'.
Proof. unfold row. rewrite mfind_mput. destruct (_ =? _); reflexivity. Qed.
Lemma vec_get_put r J c J' : vec_get (mput J c r) J' = if J' =? J then c else vec_get r J'.
Proof. unfold vec_get. rewrite mfind_mput. destruct (_ =? _); reflexivity. Qed.
Lemma vec_get_erase r J J' : ksorted r -> vec_get (merase J r) J' = if J' =? J then C0 else vec_get r J'.
Proof. intros H. unfold vec_get. rewrite mfind_merase by exact H. destruct (_ =? _); reflexivity. Qed.
Definition at2 (I J I' J' : nat) : bool := (I' =? I) && (J' =? J).
Lemma sget_sset m I J c I' J' : sget (sset m I J c) I' J' = if at2 I J I' J' then c else sget m I' J'.
Proof.
  unfold sset, at2. rewrite !sget_row, row_put. destruct (Nat.eqb_spec I' I) as [->|]; [|reflexivity].
  rewrite vec_get_put. destruct (_ =? _); reflexivity.
Qed.
Lemma sget_serase m I J I' J' : wfm m -> sget (serase m I J) I' J' = if at2 I J I' J' then C0 else sget m I' J'.
Proof.
  intros H. unfold serase, at2. rewrite !sget_row, row_put. destruct (Nat.eqb_spec I' I) as [->|]; [|reflexivity].
  rewrite vec_get_erase by (apply wfm_row, H). destruct (_ =? _); reflexivity.
Qed.
Lemma wfm_sset m I J c : wfm m -> wfm (sset m I J c).
Proof. intros H. apply wfm_put; [exact H|]. apply ksorted_mput, wfm_row, H. Qed.
Lemma wfm_serase m I J : wfm m -> wfm (serase m I J).
Proof. intros H. apply wfm_put; [exact H|]. apply ksorted_merase, wfm_row, H. Qed.

(** *** thresholding *)
Definition drop (t : R) (v : C) : C := if Rltb t (Cabs v) then v else C0.
Lemma drop_cases t v : (drop t v = v /\ (t < Cabs v)%R) \/ (drop t v = C0 /\ (Cabs v <= t)%R).
Proof. unfold drop. destruct (Rltb_spec t (Cabs v)); [left; auto|right; split; [reflexivity|lra]]. Qed.
Lemma drop_0 t : drop t C0 = C0.
Proof. unfold drop. destruct (Rltb _ _); reflexivity. Qed.

(** *** a loop assigning distinct entries *)
Lemma fold_put {E} (key : E -> nat * nat) (step : smat -> E -> smat) (val : E -> C) (base : nat -> nat -> C) es :
  (forall m e, wfm m -> In e es -> sget m (fst (key e)) (snd (key e)) = base (fst (key e)) (snd (key e)) ->
     wfm (step m e) /\ forall I J, sget (step m e) I J = if at2 (fst (key e)) (snd (key e)) I J then val e else sget m I J) ->
  NoDup (map key es) -> forall m, wfm m -> (forall e, In e es -> sget m (fst (key e)) (snd (key e)) = base (fst (key e)) (snd (key e))) ->
  wfm (fold_left step es m) /\
  (forall e, In e es -> sget (fold_left step es m) (fst (key e)) (snd (key e)) = val e) /\
  (forall I J, ~ In (I, J) (map key es) -> sget (fold_left step es m) I J = sget m I J).
Proof.
  induction es as [|e es IH]; intros HS HN m Hm HB; cbn [fold_left map] in *.
  - split; [exact Hm|]. split; [intros ? []|reflexivity].
  - inversion HN as [|? ? Hnot HN']; subst.
    destruct (HS m e Hm (or_introl eq_refl) (HB e (or_introl eq_refl))) as [Hw He].
    assert (HOTHER : forall e', In e' es -> at2 (fst (key e)) (snd (key e)) (fst (key e')) (snd (key e')) = false).
    { intros e' He'. unfold at2. destruct (Nat.eqb_spec (fst (key e')) (fst (key e))) as [E1|]; [|reflexivity].
      destruct (Nat.eqb_spec (snd (key e')) (snd (key e))) as [E2|]; [|reflexivity]. exfalso. apply Hnot.
      apply in_map_iff. exists e'. split; [|exact He']. destruct (key e'), (key e); cbn in *; congruence. }
    assert (HSELF : at2 (fst (key e)) (snd (key e)) (fst (key e)) (snd (key e)) = true) by (unfold at2; rewrite !Nat.eqb_refl; reflexivity).
    destruct (IH ltac:(intros; apply HS; [assumption|right; assumption|assumption]) HN' (step m e) Hw) as (H1 & H2 & H3).
    { intros e' He'. rewrite He, HOTHER by exact He'. apply HB; right; exact He'. }
    split; [exact H1|]. split.
    + intros e' [<-|He']; [|apply H2, He'].
      rewrite H3; [rewrite He, HSELF; reflexivity|]. destruct (key e); exact Hnot.
    + intros I J Hn. rewrite H3 by (intros HH; apply Hn; right; exact HH). rewrite He. unfold at2.
      destruct (Nat.eqb_spec I (fst (key e))) as [E1|]; [|reflexivity].
      destruct (Nat.eqb_spec J (snd (key e))) as [E2|]; [|reflexivity]. exfalso; apply Hn; left. subst. destruct (key e); reflexivity.
Qed.
Lemma fold_flat {A B S} (f : S -> A -> B -> S) (g : A -> list B) l s :
  fold_left (fun s a => fold_left (fun s b => f s a b) (g a) s) l s =
  fold_left (fun s p => f s (fst p) (snd p)) (flat_map (fun a => map (fun b => (a, b)) (g a)) l) s.
Proof.
  revert s; induction l as [|a l IH]; intros s; [reflexivity|]. cbn [fold_left flat_map]. rewrite fold_left_app, IH. f_equal.
  generalize (g a) as bs. intros bs; revert s; induction bs as [|b bs IHb]; intros s; cbn [fold_left map fst snd]; auto.
Qed.
Lemma nodup_app2 {A} (l1 l2 : list A) : NoDup l1 -> NoDup l2 -> (forall x, In x l1 -> In x l2 -> False) -> NoDup (l1 ++ l2).
Proof.
  induction l1 as [|a l1 IH]; intros H1 H2 H; [exact H2|]. inversion H1; subst. cbn. constructor.
  - rewrite in_app_iff. intros [HH|HH]; [contradiction|]. apply (H a); [left; reflexivity|exact HH].
  - apply IH; [assumption|assumption|]. intros x Hx Hy. apply (H x); [right; exact Hx|exact Hy].
Qed.
Lemma nodup_keys {A B} (k1 : A -> nat) (k2 : B -> nat) (g : A -> list B) l :
  NoDup (map k1 l) -> Forall (fun a => NoDup (map k2 (g a))) l ->
  NoDup (map (fun p => (k1 (fst p), k2 (snd p))) (flat_map (fun a => map (fun b => (a, b)) (g a)) l)).
Proof.
  induction l as [|a l IH]; cbn [map flat_map]; intros H1 H2; [constructor|]. inversion H1; inversion H2; subst.
  rewrite map_app. apply nodup_app2; [| |].
  - rewrite map_map. cbn [fst snd]. rewrite <- (map_map k2 (fun x => (k1 a, x))). apply FinFun.Injective_map_NoDup; [intros x y E; congruence|assumption].
  - auto.
  - intros [x y] Hx Hy. apply in_map_iff in Hx, Hy. destruct Hx as (p & E & Hp), Hy as (p' & E' & Hp').
    apply in_map_iff in Hp. destruct Hp as (b & <- & Hb). apply in_flat_map in Hp'. destruct Hp' as (a' & Ha' & Hb').
    apply in_map_iff in Hb'. destruct Hb' as (b' & <- & Hb'). cbn in E, E'. inversion E; inversion E'; subst.
    apply H3. apply in_map_iff. exists a'. split; [congruence|exact Ha'].
Qed.

(** *** add *)
Definition entry_of (p : (nat * svec) * (nat * C)) := (fst (fst p), fst (snd p)).
Lemma sadd_spec this M f : wfm this -> wfm M ->
  wfm (sadd_mat this M f) /\ forall I J, sget (sadd_mat this M f) I J =
    match mfind I M with
    | Some r => match mfind J r with Some x => drop thr16 (f * x + sget this I J)%C | None => sget this I J end
    | None => sget this I J end.
Proof.
  intros HT HM.
  pose proof (fold_flat (fun temp (i : nat * svec) (j : nat * C) => let val := (f * snd j + sget this (fst i) (fst j))%C in
      if Rltb thr16 (Cabs val) then sset temp (fst i) (fst j) val else serase temp (fst i) (fst j)) (fun i => snd i) M this) as HF. match type of HF with _ = ?R => change (sadd_mat this M f = R) in HF end. rewrite HF. clear HF.
  set (es := flat_map _ M).
  destruct (fold_put entry_of (fun s p => let val := (f * snd (snd p) + sget this (fst (fst p)) (fst (snd p)))%C in
      if Rltb thr16 (Cabs val) then sset s (fst (fst p)) (fst (snd p)) val else serase s (fst (fst p)) (fst (snd p)))
      (fun p => drop thr16 (f * snd (snd p) + sget this (fst (fst p)) (fst (snd p)))%C) (sget this) es) with (m := this) as (H1 & H2 & H3).
  - intros m e Hm _ _. unfold entry_of. cbn [fst snd]. unfold drop. destruct (Rltb _ _).
    + split; [apply wfm_sset, Hm|]. intros; apply sget_sset.
    + split; [apply wfm_serase, Hm|]. intros; apply sget_serase, Hm.
  - unfold es, entry_of. apply (nodup_keys (@fst nat svec) (@fst nat C)); [apply ksorted_nodup, HM|]. destruct HM as [_ HM].
    eapply Forall_impl; [|exact HM]. intros a. apply ksorted_nodup.
  - exact HT.
  - reflexivity.
  - split; [exact H1|]. intros I J.
    assert (HNO : (forall r x, In (I, r) M -> In (J, x) r -> False) -> ~ In (I, J) (map entry_of es)).
    { intros Hno Hin. apply in_map_iff in Hin. destruct Hin as (p & E & Hp). unfold es in Hp. apply in_flat_map in Hp.
      destruct Hp as ([k r] & Hr & Hp). apply in_map_iff in Hp. destruct Hp as ([j x] & <- & Hx). unfold entry_of in E; cbn in E. inversion E; subst.
      exact (Hno r x Hr Hx). }
    destruct (mfind I M) as [r|] eqn:ER; [destruct (mfind J r) as [x|] eqn:EJ|].
    + apply mfind_in in ER; [|apply HM]. destruct HM as [HM1 HM2]. rewrite Forall_forall in HM2. pose proof (HM2 _ ER) as Hr; cbn in Hr.
      apply mfind_in in EJ; [|exact Hr].
      apply (H2 ((I, r), (J, x))). unfold es. apply in_flat_map. exists (I, r). split; [exact ER|]. apply in_map_iff. exists (J, x). auto.
    + rewrite H3; [reflexivity|]. apply HNO. intros r' x Hr Hx. apply mfind_in in Hr; [|apply HM]. assert (r' = r) by congruence. subst r'.
      apply mfind_key in EJ. apply EJ. apply in_map_iff. exists (J, x). auto.
    + rewrite H3; [reflexivity|]. apply HNO. intros r' x Hr Hx. apply mfind_in in Hr; [|apply HM]. congruence.
Qed.

(** *** left_multiply *)
Lemma unique_js_in m j : In j (get_unique_js m) <-> exists I r x, In (I, r) m /\ In (j, x) r.
Proof.
  pose proof (fold_flat (fun js (i : nat * svec) (j : nat * C) => if existsb (Nat.eqb (fst j)) js then js else (js ++ [fst j])%list) (fun i => snd i) m []) as HF.
  change (get_unique_js m = fold_left (fun s (p : (nat * svec) * (nat * C)) => if existsb (Nat.eqb (fst (snd p))) s then s else s ++ [fst (snd p)]) (flat_map (fun a : nat * svec => map (fun b => (a, b)) (snd a)) m) []) in HF. rewrite HF; clear HF.
  set (es := flat_map _ m).
  assert (HG : forall es js, In j (fold_left (fun s (p : (nat * svec) * (nat * C)) => if existsb (Nat.eqb (fst (snd p))) s then s else s ++ [fst (snd p)]) es js) <-> In j js \/ exists p, In p es /\ fst (snd p) = j).
  { clear. induction es as [|e es IH]; intros js; cbn [fold_left]; [split; [auto|intros [H|(p & [] & _)]; exact H]|].
    rewrite IH. destruct (existsb _ js) eqn:EX.
    - apply existsb_exists in EX. destruct EX as (y & Hy & Ey). apply Nat.eqb_eq in Ey. split.
      + intros [H|(p & Hp & E)]; [left; exact H|right; exists p; split; [right; exact Hp|exact E]].
      + intros [H|(p & [<-|Hp] & E)]; [left; exact H|left; congruence|right; exists p; auto].
    - rewrite in_app_iff. cbn [In]. split.
      + intros [[H|[H|[]]]|(p & Hp & E)]; [left; exact H|right; exists e; split; [left; reflexivity|exact H]|right; exists p; split; [right; exact Hp|exact E]].
      + intros [H|(p & [<-|Hp] & E)]; [tauto|left; right; left; exact E|right; exists p; auto]. }
  rewrite HG. split.
  - intros [[]|([i [j' x]] & Hp & E)]. unfold es in Hp. apply in_flat_map in Hp. destruct Hp as ([k r] & Hr & Hp).
    apply in_map_iff in Hp. destruct Hp as ([j'' x'] & E' & Hx). inversion E'; subst. cbn. exists k, r, x. auto.
  - intros (I & r & x & Hr & Hx). right. exists ((I, r), (j, x)). split; [|reflexivity]. unfold es. apply in_flat_map. exists (I, r). split; [exact Hr|].
    apply in_map_iff. exists (j, x). auto.
Qed.
Lemma unique_js_nodup m : NoDup (get_unique_js m).
Proof.
  pose proof (fold_flat (fun js (i : nat * svec) (j : nat * C) => if existsb (Nat.eqb (fst j)) js then js else (js ++ [fst j])%list) (fun i => snd i) m []) as HF.
  change (get_unique_js m = fold_left (fun s (p : (nat * svec) * (nat * C)) => if existsb (Nat.eqb (fst (snd p))) s then s else s ++ [fst (snd p)]) (flat_map (fun a : nat * svec => map (fun b => (a, b)) (snd a)) m) []) in HF. rewrite HF; clear HF.
  set (es := flat_map _ m). assert (HG : forall js : list nat, NoDup js -> NoDup (fold_left (fun s (p : (nat * svec) * (nat * C)) => if existsb (Nat.eqb (fst (snd p))) s then s else s ++ [fst (snd p)]) es js)).
  { induction es as [|e es IH]; intros js Hj; cbn [fold_left]; [exact Hj|]. apply IH. destruct (existsb _ js) eqn:EX; [exact Hj|].
    apply nodup_app2; [exact Hj|repeat constructor; intros []|]. intros a Ha [<-|[]]. assert (existsb (Nat.eqb (fst (snd e))) js = true) by (apply existsb_exists; exists (fst (snd e)); split; [exact Ha|apply Nat.eqb_refl]). congruence. }
  apply HG. constructor.
Qed.
Lemma unique_js_zero m I j : wfm m -> ~ In j (get_unique_js m) -> sget m I j = C0.
Proof.
  intros [H1 H2] H. unfold sget, vec_get. destruct (mfind I m) as [r|] eqn:ER; [|reflexivity]. destruct (mfind j r) as [x|] eqn:EX; [|reflexivity].
  exfalso. apply H. apply unique_js_in. apply mfind_in in ER; [|exact H1]. rewrite Forall_forall in H2. pose proof (H2 _ ER) as Hr. apply mfind_in in EX; [|exact Hr]. eauto.
Qed.
Lemma fold_sum {A} (f : A -> C) l a : fold_left (fun v k => (v + f k)%C) l a = (a + Csum f l)%C.
Proof. revert a; induction l as [|x l IH]; intros a; cbn [fold_left]; [rewrite Csum_nil; ring|]. rewrite IH, Csum_cons. ring. Qed.
Lemma Csum_delta (g : nat -> C) k N : Csum (fun x => if x =? k then g x else C0) (seq 0 N) = if k <? N then g k else C0.
Proof.
  induction N as [|N IH]; [reflexivity|]. rewrite seq_S, Csum_app, IH. cbn [Nat.add]. rewrite Csum_cons, Csum_nil.
  destruct (Nat.ltb_spec k N), (Nat.ltb_spec k (S N)), (Nat.eqb_spec N k); subst; try lia; ring.
Qed.
Lemma row_sum r (g : nat -> C) N : ksorted r -> (forall k, vec_get r k <> C0 -> k < N) ->
  Csum (fun k => (snd k * g (fst k))%C) r = Csum (fun k => (vec_get r k * g k)%C) (seq 0 N).
Proof.
  induction r as [|[k0 x] r IH]; intros Hs HN.
  - rewrite Csum_nil. symmetry. apply Csum_zero. intros. unfold vec_get; cbn. ring.
  - apply ksorted_notin in Hs as [Hn Hs]. rewrite Csum_cons. cbn [fst snd].
    assert (HV : forall k, vec_get ((k0, x) :: r) k = ((if k =? k0 then x else C0) + vec_get r k)%C).
    { intros k. unfold vec_get. cbn [mfind]. destruct (Nat.eqb_spec k k0); [subst; rewrite Hn; ring|ring]. }
    rewrite IH; [|exact Hs|].
    + rewrite (Csum_ext (fun k => (vec_get ((k0, x) :: r) k * g k)%C) (fun k => ((if k =? k0 then (x * g k)%C else C0) + vec_get r k * g k)%C))
        by (intros k _; rewrite HV; destruct (_ =? _); ring).
      rewrite Csum_add, Csum_delta. f_equal. destruct (Nat.ltb_spec k0 N); [reflexivity|].
      assert (x = C0). { destruct (Ceq_dec x C0) as [E|E]; [exact E|]. exfalso. assert (k0 < N); [|lia]. apply HN. rewrite HV, Nat.eqb_refl. unfold vec_get; rewrite Hn. intros E'; apply E. rewrite <- E'. ring. }
      subst; ring.
    + intros k Hk. apply HN. rewrite HV. destruct (Nat.eqb_spec k k0) as [->|]; [|intros E; apply Hk; rewrite <- E; ring].
      exfalso. apply Hk. unfold vec_get; rewrite Hn; reflexivity.
Qed.
Lemma left_multiply_spec this L N : wfm this -> wfm L -> (forall I K, sget L I K <> C0 -> K < N) ->
  wfm (left_multiply this L) /\ forall I J, sget (left_multiply this L) I J =
    drop thr16 (Csum (fun K => (sget L I K * sget this K J)%C) (seq 0 N)).
Proof.
  intros HT HL HN.
  set (val := fun (r : svec) j => Csum (fun k : nat * C => (snd k * sget this (fst k) j)%C) r).
  pose proof (fold_flat (fun temp (i : nat * svec) j =>
      let val := fold_left (fun val k => (val + snd k * sget this (fst k) j)%C) (snd i) C0 in
      if Rltb thr16 (Cabs val) then sset temp (fst i) j val else temp) (fun _ => get_unique_js this) L []) as HF. match type of HF with _ = ?R => change (left_multiply this L = R) in HF end. rewrite HF; clear HF.
  set (es := flat_map _ L).
  destruct (fold_put (fun p : (nat * svec) * nat => (fst (fst p), snd p)) (fun s p =>
      let val := fold_left (fun val k => (val + snd k * sget this (fst k) (snd p))%C) (snd (fst p)) C0 in
      if Rltb thr16 (Cabs val) then sset s (fst (fst p)) (snd p) val else s)
      (fun p => drop thr16 (val (snd (fst p)) (snd p))) (fun _ _ => C0) es) with (m := @nil (nat * svec)) as (H1 & H2 & H3).
  - intros m e Hm _ Hb. cbn [fst snd] in *. cbv zeta. rewrite fold_sum. rewrite Cadd_0_l. fold (val (snd (fst e)) (snd e)). unfold drop.
    destruct (Rltb _ _).
    + split; [apply wfm_sset, Hm|]. intros; apply sget_sset.
    + split; [exact Hm|]. intros I J. unfold at2. destruct (Nat.eqb_spec I (fst (fst e))); [|reflexivity]. destruct (Nat.eqb_spec J (snd e)); [|reflexivity]. subst; exact Hb.
  - unfold es. assert (HN2 : NoDup (map (fun p : (nat * svec) * nat => (fst (fst p), (fun x : nat => x) (snd p))) (flat_map (fun a => map (fun b => (a, b)) (get_unique_js this)) L))).
    { apply (nodup_keys (@fst nat svec) (fun x : nat => x)); [apply ksorted_nodup, HL|]. apply Forall_forall. intros a _. rewrite map_id. apply unique_js_nodup. }
    exact HN2.
  - apply wfm_nil.
  - reflexivity.
  - split; [exact H1|]. intros I J.
    assert (HROW : Csum (fun K => (sget L I K * sget this K J)%C) (seq 0 N) = val (row L I) J).
    { unfold val. rewrite (row_sum (row L I) (fun K => sget this K J) N).
      - apply Csum_ext; intros; rewrite sget_row; reflexivity.
      - apply wfm_row, HL.
      - intros k Hk. apply (HN I). rewrite sget_row. exact Hk. }
    rewrite HROW.
    destruct (mfind I L) as [r|] eqn:ER.
    + unfold row; rewrite ER. destruct (in_dec Nat.eq_dec J (get_unique_js this)) as [HJ|HJ].
      * apply mfind_in in ER; [|apply HL]. apply (H2 ((I, r), J)). unfold es. apply in_flat_map. exists (I, r). split; [exact ER|]. apply in_map_iff. eauto.
      * rewrite H3.
        { unfold val. rewrite Csum_zero; [rewrite drop_0; reflexivity|]. intros x _. rewrite (unique_js_zero this _ J HT HJ). ring. }
        intros Hin. apply in_map_iff in Hin. destruct Hin as ([i j] & E & Hp). unfold es in Hp. apply in_flat_map in Hp. destruct Hp as (i' & _ & Hp).
        apply in_map_iff in Hp. destruct Hp as (j' & E' & Hj). inversion E'; inversion E; subst. contradiction.
    + unfold row; rewrite ER. unfold val; rewrite Csum_nil, drop_0. apply H3. intros Hin. apply in_map_iff in Hin. destruct Hin as ([i j] & E & Hp). unfold es in Hp.
      apply in_flat_map in Hp. destruct Hp as ([k r] & Hr & Hp). apply in_map_iff in Hp. destruct Hp as (j' & E' & Hj). inversion E'; subst. cbn in E. inversion E; subst.
      apply mfind_in in Hr; [|apply HL]. congruence.
Qed.

(** *** identity *)
Lemma identity_spec n : wfm (make_identity n) /\ forall I J, sget (make_identity n) I J = if (I =? J) && (I <? n) then C1 else C0.
Proof.
  unfold make_identity. induction n as [|n [IH1 IH2]]; [split; [apply wfm_nil|]; intros I J; rewrite andb_false_r; reflexivity|].
  rewrite seq_S, fold_left_app. cbn [fold_left Nat.add]. split; [apply wfm_sset, IH1|]. intros I J. rewrite sget_sset, IH2. unfold at2.
  destruct (Nat.eqb_spec I n), (Nat.eqb_spec J n), (Nat.eqb_spec I J), (Nat.ltb_spec I n), (Nat.ltb_spec I (S n)); subst; try lia; try congruence; reflexivity.
Qed.
