(** The block loops of the simulator visit each index pair exactly once. *)
From Coq Require Import Reals List Arith Lia Bool.
From Verif Require Import CBase Result Bits Spec GateModel ComputerModel.
Import ListNotations.

Fixpoint idxs (s blk off J : nat) : list nat :=
  match J with O => [] | S J' => seq s blk ++ idxs (s + off) blk off J' end.
Fixpoint nidxs (s blk off J stride K : nat) : list nat :=
  match K with O => [] | S K' => idxs s blk off J ++ nidxs (s + stride) blk off J stride K' end.

Lemma in_idxs s blk off J I :
  In I (idxs s blk off J) <-> exists j, j < J /\ s + j * off <= I < s + j * off + blk.
Proof.
  revert s; induction J as [|J IH]; intros s; simpl.
  - split; [tauto|]. intros (j & H & _); lia.
  - rewrite in_app_iff, in_seq, IH. split.
    + intros [H|(j & Hj & H)]; [exists 0; lia|exists (S j); simpl; lia].
    + intros ([|j] & Hj & H); [left; lia|]. right; exists j; simpl in H; lia.
Qed.
Lemma in_nidxs s blk off J stride K I :
  In I (nidxs s blk off J stride K) <->
  exists k j, k < K /\ j < J /\ s + k * stride + j * off <= I < s + k * stride + j * off + blk.
Proof.
  revert s; induction K as [|K IH]; intros s; simpl.
  - split; [tauto|]. intros (k & j & H & _); lia.
  - rewrite in_app_iff, in_idxs, IH. split.
    + intros [(j & Hj & H)|(k & j & Hk & Hj & H)]; [exists 0, j; simpl; lia|exists (S k), j; simpl; lia].
    + intros ([|k] & j & Hk & Hj & H); [left; exists j; simpl in H; lia|].
      right; exists k, j; simpl in H; lia.
Qed.

Lemma NoDup_app_disj {A} (l1 l2 : list A) :
  NoDup l1 -> NoDup l2 -> (forall x, In x l1 -> In x l2 -> False) -> NoDup (l1 ++ l2).
Proof.
  induction l1 as [|a l1 IH]; intros H1 H2 D; simpl; [assumption|].
  inversion H1; subst. constructor.
  - rewrite in_app_iff. intros [H|H]; [contradiction|]. apply (D a); [left; reflexivity|exact H].
  - apply IH; auto. intros x Hx Hx2; apply (D x); [right; assumption|assumption].
Qed.
Lemma NoDup_idxs s blk off J : blk <= off -> NoDup (idxs s blk off J).
Proof.
  intros Hb. revert s; induction J as [|J IH]; intros s; simpl; [constructor|].
  apply NoDup_app_disj; [apply seq_NoDup|apply IH|].
  intros x H1 H2. apply in_seq in H1. apply in_idxs in H2. destruct H2 as (j & Hj & H2). nia.
Qed.
Lemma NoDup_nidxs s blk off J stride K :
  blk <= off -> J * off <= stride -> NoDup (nidxs s blk off J stride K).
Proof.
  intros Hb Hs. revert s; induction K as [|K IH]; intros s; simpl; [constructor|].
  apply NoDup_app_disj; [apply NoDup_idxs; assumption|apply IH|].
  intros x H1 H2. apply in_idxs in H1. destruct H1 as (j1 & Hj1 & H1).
  apply in_nidxs in H2. destruct H2 as (k & j & Hk & Hj & H2). nia.
Qed.

Lemma foreach_seq_shift s len d (body : nat -> nat -> list C -> res (list C)) v :
  foreach (seq s len) (fun I0 => body I0 (s + d + (I0 - s))) v
  = foreach (seq s len) (fun I0 => body I0 (I0 + d)) v.
Proof.
  apply foreach_ext. intros x s' Hx. apply in_seq in Hx. f_equal. lia.
Qed.

Lemma inner2_seq s blk d body v :
  inner2 s (s + d) (s + blk) body v = foreach (seq s blk) (fun I0 => body I0 (I0 + d)) v.
Proof. unfold inner2. replace (s + blk - s) with blk by lia. apply foreach_seq_shift. Qed.
Lemma inner1_seq s blk body v : inner1 s (s + blk) body v = foreach (seq s blk) body v.
Proof. unfold inner1. replace (s + blk - s) with blk by lia. reflexivity. Qed.

Lemma blocks2_spec J : forall fuel limit s blk d off body v,
  J < fuel -> (forall j, j < J -> s + blk + j * off <= limit) -> limit < s + blk + J * off ->
  blocks2 fuel limit s (s + d) (s + blk) off body v =
  (do v' <- foreach (idxs s blk off J) (fun I0 => body I0 (I0 + d)) v;
   Ok (s + J * off, s + d + J * off, s + blk + J * off, v')).
Proof.
  induction J as [|J IH]; intros fuel limit s blk d off body v Hf H1 H2.
  - destruct fuel as [|fuel]; [lia|]. unfold blocks2; simpl while_.
    destruct (Nat.leb_spec (s + blk) limit); [lia|]. simpl. rewrite !Nat.add_0_r. reflexivity.
  - destruct fuel as [|fuel]; [lia|]. unfold blocks2. simpl while_.
    pose proof (H1 0 ltac:(lia)) as H0. simpl in H0. rewrite Nat.add_0_r in H0.
    destruct (Nat.leb_spec (s + blk) limit); [|lia].
    rewrite inner2_seq. simpl idxs. rewrite foreach_app.
    destruct (foreach (seq s blk) (fun I0 => body I0 (I0 + d)) v) as [v1|e]; simpl; [|reflexivity].
    specialize (IH fuel limit (s + off) blk d off body v1 ltac:(lia)).
    unfold blocks2 in IH.
    replace (s + d + off) with (s + off + d) by lia.
    replace (s + blk + off) with (s + off + blk) by lia.
    rewrite IH.
    + destruct (foreach _ _ v1); simpl; [|reflexivity]. f_equal. f_equal. f_equal; [f_equal|]; lia.
    + intros j Hj. specialize (H1 (S j) ltac:(lia)). simpl in H1. lia.
    + simpl in H2. lia.
Qed.

Lemma blocks1_spec J : forall fuel limit s blk off body v,
  J < fuel -> (forall j, j < J -> s + blk + j * off <= limit) -> limit < s + blk + J * off ->
  blocks1 fuel limit s (s + blk) off body v =
  (do v' <- foreach (idxs s blk off J) body v; Ok (s + J * off, s + blk + J * off, v')).
Proof.
  induction J as [|J IH]; intros fuel limit s blk off body v Hf H1 H2.
  - destruct fuel as [|fuel]; [lia|]. unfold blocks1; simpl while_.
    destruct (Nat.leb_spec (s + blk) limit); [lia|]. simpl. rewrite !Nat.add_0_r. reflexivity.
  - destruct fuel as [|fuel]; [lia|]. unfold blocks1. simpl while_.
    pose proof (H1 0 ltac:(lia)) as H0. simpl in H0. rewrite Nat.add_0_r in H0.
    destruct (Nat.leb_spec (s + blk) limit); [|lia].
    rewrite inner1_seq.
    simpl idxs. rewrite foreach_app.
    destruct (foreach (seq s blk) body v) as [v1|e]; simpl; [|reflexivity].
    specialize (IH fuel limit (s + off) blk off body v1 ltac:(lia)).
    unfold blocks1 in IH.
    replace (s + blk + off) with (s + off + blk) by lia.
    rewrite IH.
    + destruct (foreach _ _ v1); simpl; [|reflexivity]. f_equal. f_equal. f_equal; lia.
    + intros j Hj. specialize (H1 (S j) ltac:(lia)). simpl in H1. lia.
    + simpl in H2. lia.
Qed.

(** nested loops *)
Lemma nest2_while K : forall fuel nb oe sub s blk d off outer J body v,
  K < fuel -> J < S nb ->
  (forall k, k < K -> oe + k * (J * off + outer) <= nb) -> nb < oe + K * (J * off + outer) ->
  sub <= oe ->
  (forall j, j < J -> s + blk + j * off <= oe - sub) -> oe - sub < s + blk + J * off ->
  while_ fuel (fun s => let '(oe, _, _, _, _) := s in oe <=? nb)
    (fun s => let '(oe, s0, s1, e0, v) := s in
       do r <- blocks2 (S nb) (oe - sub) s0 s1 e0 off body v;
       let '(s0, s1, e0, v) := r in
       Ok (oe + (J * off + outer), s0 + outer, s1 + outer, e0 + outer, v))
    (oe, s, s + d, s + blk, v) =
  (do v' <- foreach (nidxs s blk off J (J * off + outer) K) (fun I0 => body I0 (I0 + d)) v;
   let st := K * (J * off + outer) in
   Ok (oe + st, s + st, s + d + st, s + blk + st, v')).
Proof.
  induction K as [|K IH]; intros fuel nb oe sub s blk d off outer J body v Hf HJ H1 H2 Hsub H3 H4.
  - destruct fuel as [|fuel]; [lia|]. simpl while_.
    destruct (Nat.leb_spec oe nb); [lia|]. simpl. rewrite !Nat.add_0_r. reflexivity.
  - destruct fuel as [|fuel]; [lia|]. simpl while_.
    pose proof (H1 0 ltac:(lia)) as H0. simpl in H0. rewrite Nat.add_0_r in H0.
    destruct (Nat.leb_spec oe nb); [|lia].
    rewrite (blocks2_spec J) by assumption.
    simpl nidxs. rewrite foreach_app.
    destruct (foreach (idxs s blk off J) (fun I0 => body I0 (I0 + d)) v) as [v1|e]; simpl; [|reflexivity].
    specialize (IH fuel nb (oe + (J * off + outer)) sub (s + (J * off + outer)) blk d off outer J body v1).
    replace (s + J * off + outer) with (s + (J * off + outer)) by lia.
    replace (s + d + J * off + outer) with (s + (J * off + outer) + d) by lia.
    replace (s + blk + J * off + outer) with (s + (J * off + outer) + blk) by lia.
    rewrite IH.
    + simpl. destruct (foreach _ _ v1); simpl; [|reflexivity]. do 2 f_equal. f_equal; [f_equal; [f_equal|]|]; lia.
    + lia.
    + lia.
    + intros k Hk. specialize (H1 (S k) ltac:(lia)). simpl in H1. lia.
    + simpl in H2. lia.
    + lia.
    + intros j Hj. specialize (H3 j Hj). lia.
    + lia.
Qed.

Lemma nest2_spec K J nb oe sub s blk d off outer body v :
  K < S nb -> J < S nb ->
  (forall k, k < K -> oe + k * (J * off + outer) <= nb) -> nb < oe + K * (J * off + outer) ->
  sub <= oe ->
  (forall j, j < J -> s + blk + j * off <= oe - sub) -> oe - sub < s + blk + J * off ->
  nest2 nb oe sub s (s + d) (s + blk) off outer (J * off + outer) body v =
  foreach (nidxs s blk off J (J * off + outer) K) (fun I0 => body I0 (I0 + d)) v.
Proof.
  intros. unfold nest2. rewrite (nest2_while K) by assumption.
  destruct (foreach _ _ v); reflexivity.
Qed.

Lemma nest1_while K : forall fuel nb oe s blk off outer J body v,
  K < fuel -> J < S nb ->
  (forall k, k < K -> oe + k * (J * off + outer) <= nb) -> nb < oe + K * (J * off + outer) ->
  (forall j, j < J -> s + blk + j * off <= oe) -> oe < s + blk + J * off ->
  while_ fuel (fun s => let '(oe, _, _, _) := s in oe <=? nb)
    (fun s => let '(oe, s0, e, v) := s in
       do r <- blocks1 (S nb) oe s0 e off body v;
       let '(s0, e, v) := r in
       Ok (oe + (J * off + outer), s0 + outer, e + outer, v))
    (oe, s, s + blk, v) =
  (do v' <- foreach (nidxs s blk off J (J * off + outer) K) body v;
   let st := K * (J * off + outer) in
   Ok (oe + st, s + st, s + blk + st, v')).
Proof.
  induction K as [|K IH]; intros fuel nb oe s blk off outer J body v Hf HJ H1 H2 H3 H4.
  - destruct fuel as [|fuel]; [lia|]. simpl while_.
    destruct (Nat.leb_spec oe nb); [lia|]. simpl. rewrite !Nat.add_0_r. reflexivity.
  - destruct fuel as [|fuel]; [lia|]. simpl while_.
    pose proof (H1 0 ltac:(lia)) as H0. simpl in H0. rewrite Nat.add_0_r in H0.
    destruct (Nat.leb_spec oe nb); [|lia].
    rewrite (blocks1_spec J) by assumption.
    simpl nidxs. rewrite foreach_app.
    destruct (foreach (idxs s blk off J) body v) as [v1|e]; simpl; [|reflexivity].
    specialize (IH fuel nb (oe + (J * off + outer)) (s + (J * off + outer)) blk off outer J body v1).
    replace (s + J * off + outer) with (s + (J * off + outer)) by lia.
    replace (s + blk + J * off + outer) with (s + (J * off + outer) + blk) by lia.
    rewrite IH.
    + simpl. destruct (foreach _ _ v1); simpl; [|reflexivity]. do 2 f_equal. f_equal; [f_equal|]; lia.
    + lia.
    + lia.
    + intros k Hk. specialize (H1 (S k) ltac:(lia)). simpl in H1. lia.
    + simpl in H2. lia.
    + intros j Hj. specialize (H3 j Hj). lia.
    + lia.
Qed.

Lemma nest1_spec K J nb oe s blk off outer body v :
  K < S nb -> J < S nb ->
  (forall k, k < K -> oe + k * (J * off + outer) <= nb) -> nb < oe + K * (J * off + outer) ->
  (forall j, j < J -> s + blk + j * off <= oe) -> oe < s + blk + J * off ->
  nest1 nb oe s (s + blk) off outer (J * off + outer) body v =
  foreach (nidxs s blk off J (J * off + outer) K) body v.
Proof.
  intros. unfold nest1. rewrite (nest1_while K) by assumption.
  destruct (foreach _ _ v); reflexivity.
Qed.

Lemma for_inner_spec J : forall fuel lim s blk off body (v : list C),
  J < fuel -> (forall j, j < J -> s + j * off < lim) -> lim <= s + J * off ->
  while_ fuel (fun s => let '(bs, _) := s in bs <? lim)
    (fun s => let '(bs, v) := s in do v <- inner1 bs (bs + blk) body v; Ok (bs + off, v)) (s, v)
  = (do v' <- foreach (idxs s blk off J) body v; Ok (s + J * off, v')).
Proof.
  induction J as [|J IH]; intros fuel lim s blk off body v Hf H1 H2.
  - destruct fuel as [|fuel]; [lia|]. simpl while_.
    destruct (Nat.ltb_spec s lim); [lia|]. simpl. rewrite Nat.add_0_r. reflexivity.
  - destruct fuel as [|fuel]; [lia|]. simpl while_.
    pose proof (H1 0 ltac:(lia)) as H0. simpl in H0. rewrite Nat.add_0_r in H0.
    destruct (Nat.ltb_spec s lim); [|lia].
    rewrite inner1_seq.
    simpl idxs. rewrite foreach_app.
    destruct (foreach (seq s blk) body v) as [v1|e]; simpl; [|reflexivity].
    rewrite (IH fuel lim (s + off)).
    + destruct (foreach _ _ v1); simpl; [|reflexivity]. do 2 f_equal. lia.
    + lia.
    + intros j Hj. specialize (H1 (S j) ltac:(lia)). simpl in H1. lia.
    + simpl in H2. lia.
Qed.

Lemma while_S {S} f (cond : S -> bool) body s :
  while_ (Datatypes.S f) cond body s = if cond s then do s' <- body s; while_ f cond body s' else Ok s.
Proof. reflexivity. Qed.

Lemma nest_for_while K : forall fuel nb os outer_off outer blk off J body (v : list C),
  K < fuel -> J < S nb ->
  (forall k, k < K -> os + k * outer_off < nb) -> nb <= os + K * outer_off ->
  (forall j, j < J -> blk + j * off < outer) -> outer <= blk + J * off ->
  while_ fuel (fun s => let '(os, _) := s in os <? nb)
    (fun s => let '(os, v) := s in
       do r <- while_ (S nb) (fun s => let '(bs, _) := s in bs <? os + outer)
         (fun s => let '(bs, v) := s in
            do v <- inner1 bs (bs + blk) body v;
            Ok (bs + off, v)) (os + blk, v);
       Ok (os + outer_off, snd r)) (os, v)
  = (do v' <- foreach (nidxs (os + blk) blk off J outer_off K) body v; Ok (os + K * outer_off, v')).
Proof.
  induction K as [|K IH]; intros fuel nb os outer_off outer blk off J body v Hf HJ H1 H2 H3 H4.
  - destruct fuel as [|fuel]; [lia|]. simpl while_.
    destruct (Nat.ltb_spec os nb); [lia|]. simpl. rewrite Nat.add_0_r. reflexivity.
  - destruct fuel as [|fuel]; [lia|]. rewrite while_S.
    pose proof (H1 0 ltac:(lia)) as H0. simpl in H0. rewrite Nat.add_0_r in H0.
    destruct (Nat.ltb_spec os nb); [|lia].
    rewrite (for_inner_spec J).
    2: lia.
    2: intros j Hj; specialize (H3 j Hj); lia.
    2: lia.
    simpl nidxs. rewrite foreach_app.
    destruct (foreach (idxs (os + blk) blk off J) body v) as [v1|e]; [|reflexivity].
    rewrite !bind_Ok. cbv beta iota. rewrite ?bind_Ok. cbn [snd].
    specialize (IH fuel nb (os + outer_off) outer_off outer blk off J body v1).
    replace (os + blk + outer_off) with (os + outer_off + blk) by lia.
    rewrite IH.
    + simpl. destruct (foreach _ _ v1); simpl; [|reflexivity]. do 2 f_equal. lia.
    + lia.
    + lia.
    + intros k Hk. specialize (H1 (S k) ltac:(lia)). simpl in H1. lia.
    + simpl in H2. lia.
    + assumption.
    + lia.
Qed.

Lemma nest_for_spec K J nb outer_off outer blk off body v :
  K < S nb -> J < S nb ->
  (forall k, k < K -> k * outer_off < nb) -> nb <= K * outer_off ->
  (forall j, j < J -> blk + j * off < outer) -> outer <= blk + J * off ->
  nest_for nb outer_off outer blk off body v =
  foreach (nidxs blk blk off J outer_off K) body v.
Proof.
  intros. unfold nest_for. rewrite (nest_for_while K (S nb) nb 0 outer_off outer blk off J) by (simpl; assumption).
  simpl. destruct (foreach _ _ v); reflexivity.
Qed.

(** effect of a loop over distinct indices *)
Lemma foreach_single (f : C -> C) (l : list nat) : forall (body : nat -> list C -> res (list C)) (v : list C),
  NoDup l -> (forall I, In I l -> I < length v) ->
  (forall I w, In I l -> length w = length v -> body I w = Ok (list_set w I (f (nth I w C0)))) ->
  exists v', foreach l body v = Ok v' /\ length v' = length v /\
    (forall k, In k l -> nth k v' C0 = f (nth k v C0)) /\
    (forall k, ~ In k l -> nth k v' C0 = nth k v C0).
Proof.
  induction l as [|I l IH]; intros body v ND HL HB.
  - exists v; simpl; intuition.
  - inversion ND as [|? ? HI ND']; subst. simpl foreach.
    rewrite HB by (simpl; auto). simpl bind.
    assert (HIl : I < length v) by (apply HL; left; reflexivity).
    destruct (IH body (list_set v I (f (nth I v C0)))) as (v' & E & Len & H1 & H2); auto.
    { intros J HJ. rewrite list_set_length. apply HL; right; exact HJ. }
    { intros J w HJ Hw. rewrite list_set_length in Hw. apply HB; [right; exact HJ|exact Hw]. }
    rewrite list_set_length in Len.
    exists v'; split; [exact E|split; [exact Len|split]].
    + intros k [->|Hk].
      * rewrite (H2 k HI), nth_list_set, Nat.eqb_refl by exact HIl. reflexivity.
      * rewrite (H1 k Hk), nth_list_set by exact HIl.
        destruct (Nat.eqb_spec k I); [subst; contradiction|reflexivity].
    + intros k Hk. rewrite H2 by (intros H; apply Hk; right; exact H).
      rewrite nth_list_set by exact HIl.
      destruct (Nat.eqb_spec k I); [subst; exfalso; apply Hk; left; reflexivity|reflexivity].
Qed.

Lemma foreach_pair (d : nat) (f0 f1 : C -> C -> C) (l : list nat) :
  forall (body : nat -> nat -> list C -> res (list C)) (v : list C),
  0 < d -> NoDup l -> (forall I, In I l -> I + d < length v) -> (forall I, In I l -> ~ In (I + d) l) ->
  (forall I w, In I l -> length w = length v ->
     body I (I + d) w = Ok (list_set (list_set w I (f0 (nth I w C0) (nth (I + d) w C0)))
                              (I + d) (f1 (nth I w C0) (nth (I + d) w C0)))) ->
  exists v', foreach l (fun I => body I (I + d)) v = Ok v' /\ length v' = length v /\
    (forall k, In k l -> nth k v' C0 = f0 (nth k v C0) (nth (k + d) v C0)) /\
    (forall k, In k l -> nth (k + d) v' C0 = f1 (nth k v C0) (nth (k + d) v C0)) /\
    (forall k, ~ In k l -> (forall j, In j l -> k <> j + d) -> nth k v' C0 = nth k v C0).
Proof.
  induction l as [|I l IH]; intros body v Hd ND HL HD HB.
  - exists v; simpl; intuition.
  - inversion ND as [|? ? HI ND']; subst. simpl foreach.
    rewrite HB by (simpl; auto). simpl bind.
    assert (HIl : I + d < length v) by (apply HL; left; reflexivity).
    set (w := list_set (list_set v I _) (I + d) _).
    assert (Hw : length w = length v) by (unfold w; rewrite !list_set_length; reflexivity).
    assert (Nw : forall k, nth k w C0 = if k =? I + d then f1 (nth I v C0) (nth (I + d) v C0)
                 else if k =? I then f0 (nth I v C0) (nth (I + d) v C0) else nth k v C0).
    { intros k. unfold w. rewrite nth_list_set by (rewrite list_set_length; exact HIl).
      rewrite nth_list_set by lia. reflexivity. }
    clearbody w.
    destruct (IH body w) as (v' & E & Len & H1 & H1' & H2); auto.
    { intros J HJ. rewrite Hw. apply HL; right; exact HJ. }
    { intros J HJ H. apply (HD J); right; assumption. }
    { intros J u HJ Hu. apply HB; [right; exact HJ|congruence]. }
    exists v'; split; [exact E|split; [congruence|split; [|split]]].
    + intros k [->|Hk].
      * rewrite H2.
        -- rewrite Nw. destruct (Nat.eqb_spec k (k + d)); [lia|]. rewrite Nat.eqb_refl. reflexivity.
        -- exact HI.
        -- intros j Hj Ej. apply (HD j); [right; exact Hj|left; exact Ej].
      * rewrite (H1 k Hk), !Nw.
        assert (k <> I) by (intros ->; contradiction).
        assert (k <> I + d) by (intros ->; apply (HD I); [left; reflexivity|right; exact Hk]).
        assert (k + d <> I) by (intros E'; apply (HD k); [right; exact Hk|left; symmetry; exact E']).
        destruct (Nat.eqb_spec k (I + d)); [lia|]. destruct (Nat.eqb_spec k I); [lia|].
        destruct (Nat.eqb_spec (k + d) (I + d)); [lia|]. destruct (Nat.eqb_spec (k + d) I); [lia|].
        reflexivity.
    + intros k [->|Hk].
      * rewrite H2.
        -- rewrite Nw, Nat.eqb_refl. reflexivity.
        -- intros H. apply (HD k); [left; reflexivity|right; exact H].
        -- intros j Hj Ej. assert (k = j) by lia. subst. contradiction.
      * rewrite (H1' k Hk), !Nw.
        assert (k <> I) by (intros ->; contradiction).
        assert (k <> I + d) by (intros ->; apply (HD I); [left; reflexivity|right; exact Hk]).
        assert (k + d <> I) by (intros E'; apply (HD k); [right; exact Hk|left; symmetry; exact E']).
        destruct (Nat.eqb_spec k (I + d)); [lia|]. destruct (Nat.eqb_spec k I); [lia|].
        destruct (Nat.eqb_spec (k + d) (I + d)); [lia|]. destruct (Nat.eqb_spec (k + d) I); [lia|].
        reflexivity.
    + intros k Hk Hk2. rewrite H2.
      * rewrite Nw.
        destruct (Nat.eqb_spec k (I + d)); [exfalso; apply (Hk2 I); [left; reflexivity|assumption]|].
        destruct (Nat.eqb_spec k I); [subst; exfalso; apply Hk; left; reflexivity|reflexivity].
      * intros H; apply Hk; right; exact H.
      * intros j Hj; apply Hk2; right; exact Hj.
Qed.
