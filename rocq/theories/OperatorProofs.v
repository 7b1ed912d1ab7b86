(** Proofs about QubitOperator (C16, C17, C51) and QubitOpPool joins (C34). *)
From Coq Require Import Reals String List Arith Lia Bool Lra Permutation Sorted.
From Verif Require Import CBase Result Bits Spec GateModel OpSpec ComputerModel SafeProofs GateProofs LibProofs SimProofs InteractProofs CircuitModel SimplifyProofs SimplifyLoop CircuitProofs CompareProofs PauliProofs OperatorModel.
Import ListNotations.
Local Open Scope C_scope.

(** circuits read as operator products (last gate acts first) *)
Definition wop (o : qop) (psi : state) : state := fun I => Csum (fun t => fst t * wact (snd t) psi I) o.

Definition pauli_op (o : qop) : Prop := Forall (fun t => Forall pauli_gate (snd t)) o.
Definition distinct_op (o : qop) : Prop := Forall (fun t => Forall pauli_gate (snd t) /\ NoDup (map gtarget (snd t))) o.
Definition canonical_op (o : qop) : Prop := Forall (fun t => canonical_pauli (snd t)) o.

Lemma canonical_distinct o : canonical_op o -> distinct_op o.
Proof. apply Forall_impl. intros t [H1 H2]. split; [exact H1|apply increasing_nodup, H2]. Qed.
Lemma distinct_pauli o : distinct_op o -> pauli_op o.
Proof. apply Forall_impl. intros t [H _]; exact H. Qed.
Lemma canonical_pauli_op o : canonical_op o -> pauli_op o.
Proof. intros H; apply distinct_pauli, canonical_distinct, H. Qed.
Lemma wop_op o psi : distinct_op o -> wop o psi == op_act o psi.
Proof.
  intros H I. unfold wop, op_act. apply Csum_ext. intros t Ht. destruct (proj1 (Forall_forall _ _) H t Ht) as [H1 H2].
  rewrite (wact_circ _ H1 H2 psi I). reflexivity.
Qed.
Lemma wop_nil psi : wop [] psi == szero.
Proof. intros I; reflexivity. Qed.
Lemma wop_cons t o psi : wop (t :: o) psi == sadd (sscale (fst t) (wact (snd t) psi)) (wop o psi).
Proof. intros I. unfold wop, sadd, sscale. rewrite Csum_cons. reflexivity. Qed.
Lemma wop_app a b psi : wop (a ++ b) psi == sadd (wop a psi) (wop b psi).
Proof. intros I. unfold wop, sadd. apply Csum_app. Qed.
Lemma wop_ext o a b : a == b -> wop o a == wop o b.
Proof. intros H I. unfold wop. apply Csum_ext. intros t _. rewrite (wact_ext _ _ _ H I). reflexivity. Qed.
Lemma wop_scale o c psi : wop o (sscale c psi) == sscale c (wop o psi).
Proof.
  intros I. unfold wop, sscale at 2. rewrite <- Csum_mul_l. apply Csum_ext. intros t _.
  rewrite (wact_scale (snd t) c psi I). unfold sscale. ring.
Qed.
Lemma wop_add o a b : wop o (sadd a b) == sadd (wop o a) (wop o b).
Proof.
  intros I. unfold wop, sadd at 2. rewrite <- Csum_add. apply Csum_ext. intros t _.
  rewrite (wact_add (snd t) a b I). unfold sadd. ring.
Qed.
Lemma wop_mult o c psi : wop (op_mult_coeffs o c) psi == sscale c (wop o psi).
Proof.
  intros I. unfold wop, op_mult_coeffs, sscale. rewrite Csum_map, <- Csum_mul_l. apply Csum_ext. intros t _. cbn [fst snd]. ring.
Qed.
Lemma wop_perm a b psi : Permutation a b -> wop a psi == wop b psi.
Proof. intros H I. unfold wop. apply Csum_perm, H. Qed.
Lemma wop_product l r psi : wop (raw_product l r) psi == wop l (wop r psi).
Proof.
  induction l as [|t l IH].
  - intros I; reflexivity.
  - unfold raw_product. cbn [flat_map]. fold (raw_product l r). eapply seq_trans; [apply wop_app|].
    eapply seq_trans; [|apply seq_sym, wop_cons]. apply sadd_ext; [|exact IH].
    intros I. unfold wop at 1. rewrite Csum_map. unfold sscale.
    transitivity (Csum (fun tr => fst t * (fst tr * wact (snd t) (wact (snd tr) psi) I)) r).
    { apply Csum_ext. intros tr _. cbn [fst snd]. rewrite wact_app. ring. }
    rewrite Csum_mul_l. f_equal. clear IH.
    induction r as [|tr r IHr].
    + cbn [wop Csum]. change (Csum _ []) with C0. symmetry.
      assert (HZ : wact (snd t) (wop [] psi) == szero).
      { eapply seq_trans; [apply wact_ext, wop_nil|]. rewrite wact_rev. apply circ_act_zero. }
      rewrite (HZ I). reflexivity.
    + rewrite Csum_cons, IHr. rewrite (wact_ext (snd t) _ _ (wop_cons tr r psi) I). rewrite (wact_add _ _ _ I). unfold sadd.
      rewrite (wact_scale _ _ _ I). reflexivity.
Qed.

(** ---- canonical_order ---- *)
Lemma canonical_order_spec o : pauli_op o ->
  exists o', canonical_order o = Ok o' /\ canonical_op o' /\ length o' = length o /\ (forall psi, wop o psi == wop o' psi) /\
   (forall n, Forall (fun t => Forall (fun g => gtarget g < n)%nat (snd t)) o -> Forall (fun t => Forall (fun g => gtarget g < n)%nat (snd t)) o').
Proof.
  induction o as [|[c gs] r IH]; intros H.
  - exists []. split; [reflexivity|]. split; [constructor|]. split; [reflexivity|]. split; [intros; apply seq_refl|auto].
  - inversion H; subst. destruct (IH H3) as (r' & E & HC & HL & HW & HR). cbn [snd] in *.
    destruct (canon_word gs H2) as (d & gs' & E1 & HC1 & _ & HT & HW1).
    cbn [canonical_order]. rewrite E1. cbn [bind fst snd]. rewrite E. cbn [bind].
    eexists. split; [reflexivity|]. split; [constructor; [exact HC1|exact HC]|]. split; [cbn; f_equal; exact HL|]. split.
    + intros psi. eapply seq_trans; [apply wop_cons|]. eapply seq_trans; [|apply seq_sym, wop_cons].
      apply sadd_ext; [|apply HW]. cbn [fst snd]. eapply seq_trans; [apply sscale_ext, HW1|apply sscale_sscale].
    + intros n HF. inversion HF as [|? ? HF1 HF2]; subst. constructor; [|apply HR, HF2]. cbn [snd] in *.
      apply Forall_forall. intros g Hg. specialize (HT (gtarget g) (in_map _ _ _ Hg)). apply in_map_iff in HT.
      destruct HT as (g' & <- & Hg'). rewrite Forall_forall in HF1. auto.
Qed.
Lemma canonical_order_fixed o : canonical_op o -> canonical_order o = Ok o.
Proof.
  induction o as [|[c gs] r IH]; intros H; [reflexivity|]. inversion H; subst. cbn [canonical_order snd] in *.
  rewrite canon_fixed by assumption. cbn [bind fst snd]. rewrite IH by assumption. cbn [bind]. rewrite Cmul_1_r. reflexivity.
Qed.

(** ---- the std::map of simplify ---- *)
Definition key_lt (a b : list gate * C) : Prop := circuit_ltb (fst a) (fst b) = true.
Definition sorted_map (m : list (list gate * C)) : Prop := StronglySorted key_lt m.
Definition swapt (kv : list gate * C) : C * list gate := (snd kv, fst kv).
Lemma pauli_stdg g : pauli_gate g -> stdg g.
Proof. intros [_ H]. destruct (make_gate_std _ _ _ _ _ H) as (p' & HS & _). eexists; eexists; exact HS. Qed.
Lemma canonical_stdg gs : canonical_pauli gs -> Forall stdg gs.
Proof. intros [H _]. eapply Forall_impl; [|exact H]. exact pauli_stdg. Qed.
Definition key_ok (kv : list gate * C) : Prop := canonical_pauli (fst kv).

Lemma accumulate_in k v m kv : In kv (map_accumulate k v m) ->
  (fst kv = k) \/ In (fst kv) (map fst m).
Proof.
  induction m as [|[k' v'] r IH]; cbn [map_accumulate].
  - intros [<-|[]]; auto.
  - destruct (circuit_ltb k k'); [|destruct (circuit_ltb k' k)].
    + intros [<-|H]; [auto|]. right. apply in_map. exact H.
    + intros [<-|H]; [right; left; reflexivity|]. destruct (IH H); [auto|right; right; assumption].
    + intros [<-|H]; [right; left; reflexivity|]. right; right. apply in_map. exact H.
Qed.
Lemma accumulate_sorted k v m : canonical_pauli k -> Forall key_ok m -> sorted_map m ->
  Forall key_ok (map_accumulate k v m) /\ sorted_map (map_accumulate k v m).
Proof.
  intros Hk Hm Hs. split.
  { apply Forall_forall. intros kv H. destruct (accumulate_in _ _ _ _ H) as [E|HI]; unfold key_ok; [rewrite E; exact Hk|].
    apply in_map_iff in HI. destruct HI as (kv' & E & HI). rewrite <- E. rewrite Forall_forall in Hm. exact (Hm kv' HI). }
  induction m as [|[k' v'] r IH]; cbn [map_accumulate]; [constructor; constructor|].
  inversion Hm as [|? ? Hk' Hr]; subst. inversion Hs as [|? ? Hsr Hall]; subst. unfold key_ok in Hk'; cbn [fst] in Hk'.
  destruct (circuit_ltb k k') eqn:E1; [|destruct (circuit_ltb k' k) eqn:E2].
  - constructor; [constructor; assumption|]. constructor; [exact E1|]. apply Forall_forall. intros kv Hkv.
    rewrite Forall_forall in Hall, Hr. specialize (Hall kv Hkv). unfold key_lt in *; cbn [fst] in *.
    eapply circuit_ltb_trans; [apply canonical_stdg, Hk|apply canonical_stdg, Hk'|apply canonical_stdg, (Hr kv Hkv)|exact E1|exact Hall].
  - constructor; [apply IH; assumption|]. apply Forall_forall. intros kv Hkv. destruct (accumulate_in _ _ _ _ Hkv) as [E|HI]; unfold key_lt; cbn [fst].
    + rewrite E; exact E2.
    + apply in_map_iff in HI. destruct HI as (kv' & E & HI). rewrite <- E. rewrite Forall_forall in Hall. exact (Hall kv' HI).
  - constructor; assumption.
Qed.
Lemma accumulate_wop k v m psi : canonical_pauli k -> Forall key_ok m ->
  wop (map swapt (map_accumulate k v m)) psi == sadd (sscale v (wact k psi)) (wop (map swapt m) psi).
Proof.
  intros Hk. induction m as [|[k' v'] r IH]; intros Hm; cbn [map_accumulate map].
  - eapply seq_trans; [apply wop_cons|]. apply seq_refl.
  - inversion Hm as [|? ? Hk' Hr]; subst. unfold key_ok in Hk'; cbn [fst] in Hk'.
    destruct (circuit_ltb k k') eqn:E1; [|destruct (circuit_ltb k' k) eqn:E2]; cbn [map].
    + eapply seq_trans; [apply wop_cons|]. apply seq_refl.
    + eapply seq_trans; [apply wop_cons|]. intros J. pose proof (IH Hr J) as HJ. unfold sadd, sscale in *.
      rewrite HJ. rewrite (wop_cons (swapt (k', v')) (map swapt r) psi J). unfold sadd, sscale, swapt; cbn [fst snd]. ring.
    + assert (k = k') by (apply circuit_ltb_total; [apply canonical_stdg, Hk|apply canonical_stdg, Hk'|assumption|assumption]). subst k'.
      intros J. rewrite (wop_cons (swapt (k, v' + v)) _ psi J). unfold sadd at 2. rewrite (wop_cons (swapt (k, v')) _ psi J).
      unfold sadd, sscale, swapt; cbn [fst snd]. ring.
Qed.
Lemma unique_spec_gen o : canonical_op o -> forall m, Forall key_ok m -> sorted_map m ->
  let m' := fold_left (fun m t => map_accumulate (snd t) (fst t) m) o m in
  Forall key_ok m' /\ sorted_map m' /\ (forall psi, wop (map swapt m') psi == sadd (wop o psi) (wop (map swapt m) psi)).
Proof.
  induction o as [|[c gs] r IH]; intros H m Hm Hs m'.
  - split; [exact Hm|]. split; [exact Hs|]. intros psi J. unfold sadd. rewrite (wop_nil psi J). unfold szero, m'; cbn [fold_left]. ring.
  - inversion H; subst. cbn [snd] in *. destruct (accumulate_sorted gs c m H2 Hm Hs) as [H4 H5].
    destruct (IH H3 _ H4 H5) as (A & B & D). split; [exact A|]. split; [exact B|]. intros psi J.
    unfold m'. cbn [fold_left fst snd]. rewrite (D psi J). unfold sadd. rewrite (accumulate_wop gs c m psi H2 Hm J).
    rewrite (wop_cons (c, gs) r psi J). unfold sadd, sscale; cbn [fst snd]. ring.
Qed.

(** ---- simplify ---- *)
(** strictly increasing circuits: pairwise different *)
Lemma sorted_keys_nodup m : Forall key_ok m -> sorted_map m -> NoDup (map fst m).
Proof.
  induction m as [|kv r IH]; intros Hk Hs; [constructor|]. inversion Hk; subst. inversion Hs; subst. cbn [map]. constructor; [|auto].
  intros HI. apply in_map_iff in HI. destruct HI as (kv' & E & HI). rewrite Forall_forall in H4. specialize (H4 kv' HI).
  unfold key_lt in H4. rewrite E, circuit_ltb_irrefl in H4. discriminate.
Qed.
Lemma wop_filter_split (f : list gate * C -> bool) m psi :
  wop (map swapt m) psi == sadd (wop (map swapt (filter f m)) psi) (wop (map swapt (filter (fun x => negb (f x)) m)) psi).
Proof.
  induction m as [|kv r IH]; intros J.
  - cbn [filter map]. unfold sadd. rewrite (wop_nil psi J). unfold szero; ring.
  - cbn [filter map]. rewrite (wop_cons _ _ psi J). unfold sadd at 1. rewrite (IH J). unfold sadd.
    destruct (f kv); cbn [map negb]; rewrite (wop_cons _ _ psi J); unfold sadd; ring.
Qed.
Lemma NoDup_map_filter {A B} (g : A -> B) (f : A -> bool) l : NoDup (map g l) -> NoDup (map g (filter f l)).
Proof.
  induction l as [|x r IH]; cbn [map filter]; intros H; [constructor|]. inversion H; subst. destruct (f x); cbn [map]; [|auto].
  constructor; [|auto]. intros HI. apply H2. apply in_map_iff in HI. destruct HI as (y & <- & HI). apply in_map. apply filter_In in HI. tauto.
Qed.
Lemma map_snd_swapt m : map snd (map swapt m) = map fst m.
Proof. rewrite map_map. reflexivity. Qed.

Lemma canonical_swapt m : Forall key_ok m -> canonical_op (map swapt m).
Proof. intros H. apply Forall_map. exact H. Qed.
Lemma unique_keys_from o : forall m kv, In kv (fold_left (fun m t => map_accumulate (snd t) (fst t) m) o m) ->
  In (fst kv) (map fst m) \/ In (fst kv) (map snd o).
Proof.
  induction o as [|[c gs] r IH]; intros m kv H; [left; apply in_map; exact H|]. cbn [fold_left fst snd] in H.
  destruct (IH _ _ H) as [HI|HI]; [|right; right; exact HI]. apply in_map_iff in HI. destruct HI as (kv' & E & HI).
  destruct (accumulate_in _ _ _ _ HI) as [E'|HI']; [right; left; cbn; congruence|left; congruence].
Qed.
Definition in_reg (n : nat) (o : qop) : Prop := Forall (fun t => Forall (fun g => gtarget g < n)%nat (snd t)) o.

Lemma simplify_spec combine o : pauli_op o ->
  exists kept dropped, op_simplify combine o = Ok kept /\
    canonical_op (kept ++ dropped) /\ NoDup (map snd (kept ++ dropped)) /\
    (combine = true -> Forall (fun t => 1e-12 < Cabs (fst t))%R kept) /\
    (combine = false -> dropped = []) /\
    Forall (fun t => Cabs (fst t) <= 1e-12)%R dropped /\
    (forall n, in_reg n o -> in_reg n kept) /\
    forall psi, wop o psi == sadd (wop kept psi) (wop dropped psi).
Proof.
  intros H. destruct (canonical_order_spec o H) as (o' & E & HC & _ & HW & HR).
  unfold op_simplify. rewrite E. cbn [bind]. fold swapt.
  destruct (unique_spec_gen o' HC [] (Forall_nil _) (SSorted_nil _)) as (HK & HS & HA).
  fold (unique_terms o') in HK, HS, HA. set (m := unique_terms o') in *.
  assert (Hall : forall psi, wop o psi == wop (map swapt m) psi).
  { intros psi. eapply seq_trans; [apply HW|]. intros J. rewrite (HA psi J). unfold sadd. cbn [map]. rewrite (wop_nil psi J). unfold szero; ring. }
  pose proof (sorted_keys_nodup m HK HS) as HN.
  assert (HR' : forall n, in_reg n o -> in_reg n (map swapt m)).
  { intros n Hn. specialize (HR n Hn). apply Forall_map. apply Forall_forall. intros kv Hkv. cbn [snd swapt].
    destruct (unique_keys_from o' [] kv Hkv) as [[]|HI]. apply in_map_iff in HI. destruct HI as (t & <- & HI).
    rewrite Forall_forall in HR. exact (HR t HI). }
  destruct combine.
  - set (f := fun kv : list gate * C => Rltb 1e-12 (Cabs (snd kv))).
    exists (map swapt (filter f m)), (map swapt (filter (fun x => negb (f x)) m)).
    split; [reflexivity|].
    assert (HP : Permutation (filter f m ++ filter (fun x => negb (f x)) m) m).
    { clear. induction m as [|kv r IH]; cbn [filter]; [constructor|]. destruct (f kv); cbn [negb app].
      - constructor; exact IH.
      - rewrite <- Permutation_middle. constructor. exact IH. }
    rewrite <- map_app. split; [apply canonical_swapt; eapply Forall_perm; [symmetry; exact HP|exact HK]|].
    split; [rewrite map_snd_swapt; eapply Permutation_NoDup; [apply Permutation_map; symmetry; exact HP|exact HN]|].
    split; [|split; [discriminate|split; [|split]]].
    + intros _. apply Forall_map, Forall_forall. intros kv HI. apply filter_In in HI. destruct HI as [_ HI]. unfold f in HI.
      destruct (Rltb_spec 1e-12 (Cabs (snd kv))); [assumption|discriminate].
    + apply Forall_map, Forall_forall. intros kv HI. apply filter_In in HI. destruct HI as [_ HI]. unfold f in HI.
      destruct (Rltb_spec 1e-12 (Cabs (snd kv))); [discriminate|]. cbn [fst swapt]. apply Rnot_lt_le. assumption.
    + intros n Hn. specialize (HR' n Hn). apply Forall_map, Forall_forall. intros kv HI. apply filter_In in HI. destruct HI as [HI _].
      apply (proj1 (Forall_map _ _ _)) in HR'. rewrite Forall_forall in HR'. exact (HR' kv HI).
    + intros psi. eapply seq_trans; [apply Hall|apply wop_filter_split].
  - exists (map swapt m), []. split; [reflexivity|]. rewrite app_nil_r. split; [apply canonical_swapt, HK|].
    split; [rewrite map_snd_swapt; exact HN|]. split; [discriminate|]. split; [reflexivity|]. split; [constructor|]. split; [exact HR'|].
    intros psi J. rewrite (Hall psi J). unfold sadd. rewrite (wop_nil psi J). unfold szero; ring.
Qed.

Definition sorted_op (o : qop) : Prop := StronglySorted (fun a b => circuit_ltb (snd a) (snd b) = true) o.
Lemma sorted_swapt m : sorted_map m -> sorted_op (map swapt m).
Proof.
  induction m as [|kv r IH]; intros H; cbn [map]; [constructor|]. inversion H; subst. constructor; [exact (IH H2)|]. apply Forall_map. assumption.
Qed.
Lemma sorted_filter f m : sorted_map m -> sorted_map (filter f m).
Proof.
  induction m as [|kv r IH]; intros H; cbn [filter]; [constructor|]. inversion H; subst. destruct (f kv); [|apply IH; assumption].
  constructor; [apply IH; assumption|]. apply Forall_forall. intros x Hx. apply filter_In in Hx. rewrite Forall_forall in H3. apply H3; tauto.
Qed.
Lemma simplify_sorted combine o o' : pauli_op o -> op_simplify combine o = Ok o' -> sorted_op o'.
Proof.
  intros H. destruct (canonical_order_spec o H) as (o1 & E & HC & _ & HW & HR).
  unfold op_simplify. rewrite E. cbn [bind]. fold swapt.
  destruct (unique_spec_gen o1 HC [] (Forall_nil _) (SSorted_nil _)) as (HK & HS & HA).
  fold (unique_terms o1) in HS. intros E'. apply (f_equal (fun r => match r with Ok x => x | _ => [] end)) in E'. rewrite <- E'.
  apply sorted_swapt. destruct combine; [apply sorted_filter|]; exact HS.
Qed.
(** accumulating a key above every key of the map appends it *)
Lemma accumulate_last k v m : Forall (fun kv => circuit_ltb (fst kv) k = true) m -> Forall key_ok m -> canonical_pauli k ->
  map_accumulate k v m = (m ++ [(k, v)])%list.
Proof.
  induction m as [|[k' v'] r IH]; intros H HK Hk; cbn [map_accumulate app]; [reflexivity|]. inversion H; subst. inversion HK; subst. cbn [fst] in *.
  unfold key_ok in *; cbn [fst] in *.
  assert (E : circuit_ltb k k' = false).
  { destruct (circuit_ltb k k') eqn:E; [|reflexivity].
    assert (circuit_ltb k k = true) by (apply (circuit_ltb_trans k k' k); try apply canonical_stdg; assumption).
    rewrite circuit_ltb_irrefl in H0; discriminate. }
  rewrite E, H2, IH by assumption. reflexivity.
Qed.
Lemma unique_sorted o : forall m, canonical_op o -> sorted_op (map swapt m ++ o) -> Forall key_ok m ->
  map swapt (fold_left (fun m t => map_accumulate (snd t) (fst t) m) o m) = (map swapt m ++ o)%list.
Proof.
  induction o as [|[c gs] r IH]; intros m HC HS HK; [cbn; rewrite app_nil_r; reflexivity|]. inversion HC; subst. cbn [fold_left fst snd] in *.
  assert (HL : Forall (fun kv => circuit_ltb (fst kv) gs = true) m).
  { clear IH. induction m as [|kv m IHm]; [constructor|]. cbn [map app] in HS. inversion HS; subst. inversion HK; subst. constructor; [|apply IHm; assumption].
    rewrite Forall_forall in H4. apply (H4 (c, gs)). apply in_or_app. right; left; reflexivity. }
  rewrite (accumulate_last gs c m HL HK H1). rewrite IH.
  - rewrite map_app. cbn [map app]. rewrite <- app_assoc. reflexivity.
  - assumption.
  - rewrite map_app. cbn [map]. rewrite <- app_assoc. exact HS.
  - apply Forall_app; split; [assumption|]. constructor; [exact H1|constructor].
Qed.
Lemma simplify_fixed o : canonical_op o -> sorted_op o -> Forall (fun t => 1e-12 < Cabs (fst t))%R o -> op_simplify true o = Ok o.
Proof.
  intros HC HS HB. unfold op_simplify. rewrite canonical_order_fixed by assumption. cbn [bind]. fold swapt.
  pose proof (unique_sorted o [] HC HS (Forall_nil _)) as HU. cbn [map app] in HU. fold (unique_terms o) in HU.
  set (m := unique_terms o) in *. f_equal. transitivity (map swapt m); [|exact HU]. f_equal.
  assert (HB' : Forall (fun kv : list gate * C => 1e-12 < Cabs (snd kv))%R m) by (rewrite <- HU in HB; exact (proj1 (Forall_map swapt (fun t => 1e-12 < Cabs (fst t))%R m) HB)).
  clear - HB'. induction m as [|kv r IH]; [reflexivity|]. inversion HB'; subst. cbn [filter]. rewrite (Rltb_true _ _ H1). f_equal. auto.
Qed.
Lemma simplify_idem o o' : pauli_op o -> op_simplify true o = Ok o' -> op_simplify true o' = Ok o'.
Proof.
  intros H E. pose proof (simplify_sorted true o o' H E) as HS.
  destruct (simplify_spec true o H) as (k & d & E' & HC & _ & HB & _). rewrite E' in E. assert (k = o') by congruence. subst k.
  apply simplify_fixed; [|exact HS|auto]. apply Forall_app in HC. tauto.
Qed.

(** ---- operator_product ---- *)
Lemma raw_product_pauli l r : pauli_op l -> pauli_op r -> pauli_op (raw_product l r).
Proof.
  intros Hl Hr. apply Forall_forall. intros t Ht. unfold raw_product in Ht. apply in_flat_map in Ht. destruct Ht as (tl & H1 & H2).
  apply in_map_iff in H2. destruct H2 as (tr & <- & H2). cbn [snd]. apply Forall_app; split.
  - exact (proj1 (Forall_forall _ _) Hl tl H1).
  - exact (proj1 (Forall_forall _ _) Hr tr H2).
Qed.
Lemma raw_product_reg n l r : in_reg n l -> in_reg n r -> in_reg n (raw_product l r).
Proof.
  intros Hl Hr. apply Forall_forall. intros t Ht. unfold raw_product in Ht. apply in_flat_map in Ht. destruct Ht as (tl & H1 & H2).
  apply in_map_iff in H2. destruct H2 as (tr & <- & H2). cbn [snd]. apply Forall_app; split.
  - exact (proj1 (Forall_forall _ _) Hl tl H1).
  - exact (proj1 (Forall_forall _ _) Hr tr H2).
Qed.
Lemma NoDup_app_r {A} (a b : list A) : NoDup (a ++ b) -> NoDup b.
Proof. induction a as [|x a IH]; cbn; intros H; [exact H|]. inversion H; auto. Qed.
Lemma NoDup_app_l {A} (a b : list A) : NoDup (a ++ b) -> NoDup a.
Proof. induction a as [|x a IH]; cbn; intros H; [constructor|]. inversion H; subst. constructor; [|auto]. intros HI; apply H2, in_or_app; auto. Qed.

Lemma simplify_small combine o : pauli_op o ->
  exists kept dropped, op_simplify combine o = Ok kept /\ canonical_op kept /\ NoDup (map snd kept) /\ canonical_op dropped /\ negligible dropped /\
    (combine = true -> Forall (fun t => 1e-12 < Cabs (fst t))%R kept) /\
    (combine = false -> dropped = []) /\ sorted_op kept /\ (forall n, in_reg n o -> in_reg n kept) /\
    forall psi, wop o psi == sadd (wop kept psi) (wop dropped psi).
Proof.
  intros H. destruct (simplify_spec combine o H) as (k & d & E & HC & HN & HB & HD & HS & HR & HW). exists k, d.
  split; [exact E|]. apply Forall_app in HC. destruct HC as [HC1 HC2]. rewrite map_app in HN.
  split; [exact HC1|]. split; [eapply NoDup_app_l, HN|]. split; [exact HC2|]. split; [split; [exact HS|eapply NoDup_app_r, HN]|].
  split; [exact HB|]. split; [exact HD|]. split; [exact (simplify_sorted _ _ _ H E)|]. split; [exact HR|exact HW].
Qed.

Lemma product_word l r pre post : pauli_op l -> pauli_op r ->
  exists p d1 d2, operator_product l r pre post = Ok p /\ canonical_op p /\ canonical_op d1 /\ negligible d1 /\ canonical_op d2 /\ negligible d2 /\
    (pre = false -> d1 = []) /\ (post = false -> d2 = []) /\
    (post = true -> NoDup (map snd p) /\ sorted_op p /\ Forall (fun t => 1e-12 < Cabs (fst t))%R p) /\
    (forall n, in_reg n l -> in_reg n r -> in_reg n p) /\
    forall psi, wop l (wop r psi) == sadd (wop p psi) (sadd (wop d2 psi) (wop d1 (wop r psi))).
Proof.
  intros Hl Hr.
  assert (HPre : exists l' d1, (if pre then op_simplify true l else Ok l) = Ok l' /\ pauli_op l' /\ canonical_op d1 /\ negligible d1 /\
     (pre = false -> d1 = []) /\ (forall n, in_reg n l -> in_reg n l') /\ forall psi, wop l psi == sadd (wop l' psi) (wop d1 psi)).
  { destruct pre.
    - destruct (simplify_small true l Hl) as (k & d & E & HC & HN & HC2 & HS & HB & HD & HSo & HR & HW). exists k, d.
      split; [exact E|]. split; [apply canonical_pauli_op, HC|]. split; [exact HC2|]. split; [exact HS|]. split; [discriminate|]. split; [exact HR|exact HW].
    - exists l, []. split; [reflexivity|]. split; [exact Hl|]. split; [constructor|]. split; [split; constructor|]. split; [reflexivity|]. split; [auto|].
      intros psi J. unfold sadd. rewrite (wop_nil psi J). unfold szero. ring. }
  destruct HPre as (l' & d1 & E1 & Hl' & HC1 & HS1 & HD1 & HR1 & HW1).
  unfold operator_product. rewrite E1. cbn [bind].
  pose proof (raw_product_pauli l' r Hl' Hr) as HP.
  assert (HF : forall p d2, (forall psi, wop (raw_product l' r) psi == sadd (wop p psi) (wop d2 psi)) ->
     forall psi, wop l (wop r psi) == sadd (wop p psi) (sadd (wop d2 psi) (wop d1 (wop r psi)))).
  { intros p d2 HW psi J. rewrite (HW1 (wop r psi) J). unfold sadd. rewrite <- (wop_product l' r psi J). rewrite (HW psi J). unfold sadd. ring. }
  destruct post.
  - destruct (simplify_small true _ HP) as (k & d & E & HC & HN & HC2 & HS & HB & HD & HSo & HR & HW). exists k, d1, d.
    split; [exact E|]. do 5 (split; [assumption|]). split; [exact HD1|]. split; [discriminate|]. split; [auto|].
    split; [|apply HF, HW]. intros n Hn1 Hn2. apply HR, raw_product_reg; auto.
  - destruct (canonical_order_spec _ HP) as (p & E & HC & _ & HW & HR). exists p, d1, [].
    split; [exact E|]. do 3 (split; [assumption|]). split; [constructor|]. split; [split; constructor|].
    split; [exact HD1|]. split; [reflexivity|]. split; [discriminate|]. split.
    + intros n Hn1 Hn2. apply HR, raw_product_reg; auto.
    + apply HF. intros psi J. rewrite (HW psi J). unfold sadd. rewrite (wop_nil psi J). unfold szero. ring.
Qed.

(** linearity of op_act in the state *)
Lemma op_act_ext o a b : a == b -> op_act o a == op_act o b.
Proof. intros H I. unfold op_act. apply Csum_ext. intros t _. rewrite (circ_act_ext _ _ _ H I). reflexivity. Qed.

Lemma product_op l r pre post : distinct_op l -> distinct_op r ->
  exists p d1 d2, operator_product l r pre post = Ok p /\ canonical_op p /\ negligible d1 /\ negligible d2 /\
    (pre = false -> d1 = []) /\ (post = false -> d2 = []) /\
    forall psi, op_act l (op_act r psi) == sadd (op_act p psi) (sadd (op_act d2 psi) (op_act d1 (op_act r psi))).
Proof.
  intros Hl Hr. destruct (product_word l r pre post (distinct_pauli l Hl) (distinct_pauli r Hr))
    as (p & d1 & d2 & E & HC & HC1 & HS1 & HC2 & HS2 & HD1 & HD2 & _ & _ & HW).
  exists p, d1, d2. do 6 (split; [assumption|]). intros psi J.
  rewrite <- (wop_op l _ Hl J). rewrite (wop_ext l _ _ (seq_sym _ _ (wop_op r psi Hr)) J). rewrite (HW psi J). unfold sadd.
  rewrite (wop_op p psi (canonical_distinct p HC) J), (wop_op d2 psi (canonical_distinct d2 HC2) J).
  rewrite (wop_ext d1 _ _ (wop_op r psi Hr) J), (wop_op d1 _ (canonical_distinct d1 HC1) J). reflexivity.
Qed.

(** ---- pools ---- *)
Lemma mapM_ok {A B} (f : A -> res B) (P : A -> B -> Prop) l :
  (forall x, In x l -> exists y, f x = Ok y /\ P x y) -> exists l', mapM f l = Ok l' /\ Forall2 P l l'.
Proof.
  induction l as [|x r IH]; intros H; cbn [mapM]; [exists []; split; [reflexivity|constructor]|].
  destruct (H x (or_introl eq_refl)) as (y & E & HP). rewrite E. cbn [bind].
  destruct (IH (fun z Hz => H z (or_intror Hz))) as (l' & E' & HF). rewrite E'. cbn [bind]. exists (y :: l'). split; [reflexivity|constructor; assumption].
Qed.
Definition pauli_pool (p : qpool) : Prop := Forall (fun t => distinct_op (snd t)) p.
Lemma op_act_app a b psi : op_act (a ++ b) psi == sadd (op_act a psi) (op_act b psi).
Proof. intros I. unfold op_act, sadd. apply Csum_app. Qed.
Lemma product_simplified l r : distinct_op l -> distinct_op r ->
  exists p d, operator_product l r false true = Ok p /\ op_simplify true p = Ok p /\ canonical_op p /\ negligible d /\ canonical_op d /\
    forall psi, op_act l (op_act r psi) == sadd (op_act p psi) (op_act d psi).
Proof.
  intros Hl Hr. destruct (product_word l r false true (distinct_pauli l Hl) (distinct_pauli r Hr))
    as (p & d1 & d2 & E & HC & HC1 & HS1 & HC2 & HS2 & HD1 & HD2 & HP & _ & HW).
  destruct (HP eq_refl) as (HN & HSo & HB).
  exists p, d2. split; [exact E|]. split; [apply simplify_fixed; assumption|]. do 3 (split; [assumption|]). intros psi J.
  rewrite (HD1 eq_refl) in HW.
  rewrite <- (wop_op l _ Hl J). rewrite (wop_ext l _ _ (seq_sym _ _ (wop_op r psi Hr)) J). rewrite (HW psi J). unfold sadd.
  rewrite (wop_op p psi (canonical_distinct p HC) J), (wop_op d2 psi (canonical_distinct d2 HC2) J).
  rewrite (wop_nil _ J). unfold szero. ring.
Qed.

Lemma join_right p q : pauli_pool p -> distinct_op q ->
  exists p', join_op_from_right p q = Ok p' /\ Forall2 (fun t t' => fst t' = fst t /\ canonical_op (snd t') /\ exists d, negligible d /\
    forall psi, op_act (snd t) (op_act q psi) == sadd (op_act (snd t') psi) (op_act d psi)) p p'.
Proof.
  intros Hp Hq. apply mapM_ok. intros t Ht. assert (Ht' : distinct_op (snd t)) by (exact (proj1 (Forall_forall _ _) Hp t Ht)).
  destruct (product_simplified (snd t) q Ht' Hq) as (o & d & E & E' & HC & HS & _ & HW). rewrite E. cbn [bind]. rewrite E'. cbn [bind].
  eexists. split; [reflexivity|]. cbn [fst snd]. split; [reflexivity|]. split; [exact HC|]. exists d. auto.
Qed.
Lemma join_left p q : pauli_pool p -> distinct_op q ->
  exists p', join_op_from_left p q = Ok p' /\ Forall2 (fun t t' => fst t' = fst t /\ canonical_op (snd t') /\ exists d, negligible d /\
    forall psi, op_act q (op_act (snd t) psi) == sadd (op_act (snd t') psi) (op_act d psi)) p p'.
Proof.
  intros Hp Hq. apply mapM_ok. intros t Ht. assert (Ht' : distinct_op (snd t)) by (exact (proj1 (Forall_forall _ _) Hp t Ht)).
  destruct (product_simplified q (snd t) Hq Ht') as (o & d & E & E' & HC & HS & _ & HW). unfold op_add_op; cbn [app]. rewrite E. cbn [bind]. rewrite E'. cbn [bind].
  eexists. split; [reflexivity|]. cbn [fst snd]. split; [reflexivity|]. split; [exact HC|]. exists d. auto.
Qed.
Lemma join_right_lazy p q : pauli_pool p -> distinct_op q ->
  exists p', join_op_from_right_lazy p q = Ok p' /\ Forall2 (fun t t' => fst t' = fst t /\ canonical_op (snd t') /\
    forall psi, op_act (snd t) (op_act q psi) == op_act (snd t') psi) p p'.
Proof.
  intros Hp Hq. apply mapM_ok. intros t Ht. assert (Ht' : distinct_op (snd t)) by (exact (proj1 (Forall_forall _ _) Hp t Ht)).
  destruct (product_op (snd t) q false false Ht' Hq) as (o & d1 & d2 & E & HC & _ & _ & H1 & H2 & HW). rewrite E. cbn [bind].
  eexists. split; [reflexivity|]. cbn [fst snd]. split; [reflexivity|]. split; [exact HC|]. intros psi J. etransitivity; [exact (HW psi J)|].
  rewrite (H1 eq_refl), (H2 eq_refl). unfold sadd. change (op_act [] psi J) with C0. change (op_act [] (op_act q psi) J) with C0. ring.
Qed.
Lemma square_spec p b : pauli_pool p ->
  exists p', pool_square p b = Ok p' /\ Forall2 (fun IJ t' => fst t' = Cconj (fst (fst IJ)) * fst (snd IJ) /\ canonical_op (snd t') /\ exists d, negligible d /\
    forall psi, op_act (snd (fst IJ)) (op_act (snd (snd IJ)) psi) == sadd (op_act (snd t') psi) (op_act d psi)) (if b then upper_pairs p else all_pairs p) p'.
Proof.
  intros Hp. apply mapM_ok. intros [I J] HIJ.
  assert (HI : In I p /\ In J p).
  { destruct b.
    - clear Hp. induction p as [|x r IH]; [destruct HIJ|]. cbn [upper_pairs] in HIJ. apply in_app_or in HIJ. destruct HIJ as [HIJ|HIJ].
      + apply in_map_iff in HIJ. destruct HIJ as (y & E & Hy). inversion E; subst. split; [left; reflexivity|exact Hy].
      + destruct (IH HIJ). split; right; assumption.
    - apply in_flat_map in HIJ. destruct HIJ as (x & Hx & HIJ). apply in_map_iff in HIJ. destruct HIJ as (y & E & Hy). inversion E; subst. auto. }
  destruct HI as [HI HJ].
  assert (H1 : distinct_op (snd I)) by (exact (proj1 (Forall_forall _ _) Hp I HI)).
  assert (H2 : distinct_op (snd J)) by (exact (proj1 (Forall_forall _ _) Hp J HJ)).
  destruct (product_simplified (snd I) (snd J) H1 H2) as (o & d & E & E' & HC & HS & _ & HW).
  unfold square_pair, op_add_op; cbn [app fst snd]. rewrite E. cbn [bind]. rewrite E'. cbn [bind].
  eexists. split; [reflexivity|]. cbn [fst snd]. split; [reflexivity|]. split; [exact HC|]. exists d. auto.
Qed.
Lemma commutator_spec p q : pauli_pool p -> distinct_op q ->
  exists p', join_as_commutator p q = Ok p' /\ Forall2 (fun t t' => fst t' = fst t /\ canonical_op (snd t') /\
    exists d1 d2 d3, negligible d1 /\ negligible d2 /\ negligible d3 /\ forall psi,
    ssub (op_act q (op_act (snd t) psi)) (op_act (snd t) (op_act q psi))
      == sadd (op_act (snd t') psi) (sadd (op_act d3 psi) (ssub (op_act d1 psi) (op_act d2 psi)))) p p'.
Proof.
  intros Hp Hq. apply mapM_ok. intros t Ht. assert (Ht' : distinct_op (snd t)) by (exact (proj1 (Forall_forall _ _) Hp t Ht)).
  destruct (product_simplified q (snd t) Hq Ht') as (o & d & E & _ & HC & HS & HCd & HW).
  destruct (product_simplified (snd t) q Ht' Hq) as (o' & d' & E' & _ & HC' & HS' & HCd' & HW').
  unfold op_add_op; cbn [app]. rewrite E. cbn [bind]. rewrite E'. cbn [bind].
  assert (HM : canonical_op (op_mult_coeffs o' (- C1))) by (apply Forall_map; exact HC').
  assert (HA : canonical_op (o ++ op_mult_coeffs o' (- C1))) by (apply Forall_app; auto).
  destruct (simplify_small true _ (canonical_pauli_op _ HA)) as (k & d3 & E3 & HC3 & HN3 & HCd3 & HS3 & _ & _ & _ & _ & HW3).
  rewrite E3. cbn [bind]. eexists. split; [reflexivity|]. cbn [fst snd]. split; [reflexivity|]. split; [exact HC3|].
  exists d, d', d3. do 3 (split; [assumption|]). unfold qop in *. intros psi J. unfold ssub. rewrite (HW psi J), (HW' psi J). unfold sadd.
  rewrite <- (wop_op k psi (canonical_distinct k HC3) J), <- (wop_op d3 psi (canonical_distinct d3 HCd3) J).
  pose proof (HW3 psi J) as H3. rewrite (wop_app _ _ psi J) in H3. unfold sadd in H3. rewrite (wop_mult o' (- C1) psi J) in H3. unfold sscale in H3.
  rewrite (wop_op o psi (canonical_distinct o HC) J), (wop_op o' psi (canonical_distinct o' HC') J) in H3.
  replace (op_act o psi J + op_act d psi J - (op_act o' psi J + op_act d' psi J)) with ((op_act o psi J + - C1 * op_act o' psi J) + (op_act d psi J - op_act d' psi J)) by ring.
  rewrite H3. ring.
Qed.

(** ---- order of terms ---- *)
Lemma ltb_asym a b : Forall stdg a -> Forall stdg b -> circuit_ltb a b = true -> circuit_ltb b a = false.
Proof.
  intros Ha Hb H. destruct (circuit_ltb b a) eqn:E; [|reflexivity].
  pose proof (circuit_ltb_trans a b a Ha Hb Ha H E) as HH. rewrite circuit_ltb_irrefl in HH. discriminate.
Qed.
Lemma accumulate_comm k1 v1 k2 v2 m : canonical_pauli k1 -> canonical_pauli k2 -> Forall key_ok m -> 
  map_accumulate k1 v1 (map_accumulate k2 v2 m) = map_accumulate k2 v2 (map_accumulate k1 v1 m).
Proof.
  intros K1 K2. pose proof (canonical_stdg _ K1) as S1. pose proof (canonical_stdg _ K2) as S2.
  assert (Heq : forall a b, Forall stdg a -> Forall stdg b -> a = b \/ (circuit_ltb a b = true /\ circuit_ltb b a = false) \/ (circuit_ltb a b = false /\ circuit_ltb b a = true)).
  { intros a b Ha Hb. destruct (circuit_ltb a b) eqn:E; destruct (circuit_ltb b a) eqn:E'.
    - rewrite (ltb_asym a b Ha Hb E) in E'; discriminate.
    - auto.
    - auto.
    - left; apply circuit_ltb_total; assumption. }
  induction m as [|[k v] r IH]; intros HK.
  - cbn [map_accumulate]. destruct (Heq k1 k2 S1 S2) as [E|[[E E']|[E E']]].
    + subst. rewrite circuit_ltb_irrefl. f_equal. f_equal. ring.
    + rewrite E, E'. reflexivity.
    + rewrite E, E'. reflexivity.
  - inversion HK; subst. unfold key_ok in H1; cbn [fst] in H1. pose proof (canonical_stdg _ H1) as S.
    specialize (IH H2).
    destruct (Heq k1 k S1 S) as [E1|[[E1 E1']|[E1 E1']]]; destruct (Heq k2 k S2 S) as [E2|[[E2 E2']|[E2 E2']]];
      destruct (Heq k1 k2 S1 S2) as [E3|[[E3 E3']|[E3 E3']]]; subst;
      try (rewrite circuit_ltb_irrefl in *; congruence); try congruence;
      repeat (cbn [map_accumulate]; rewrite ?circuit_ltb_irrefl;
        repeat match goal with E : circuit_ltb _ _ = _ |- _ => rewrite E end); try reflexivity; try congruence.
    all: try (f_equal; f_equal; ring).
    all: try (exfalso; match goal with
      | A : circuit_ltb ?a ?b = true, B : circuit_ltb ?b ?c = true, D : circuit_ltb ?a ?c = false |- _ =>
          assert (circuit_ltb a c = true) by (apply (circuit_ltb_trans a b c); assumption); congruence end).
Qed.
