(** Canonical ordering and simplification of second-quantised operators. *)
From Coq Require Import Reals List Arith Lia Bool Lra Permutation Sorted.
From Verif Require Import CBase Result Bits Spec SQSpec GateModel ComputerModel CircuitModel PauliProofs SafeProofs OperatorModel OperatorProofs SQModel SQPhase.
Import ListNotations.
Local Open Scope C_scope.

(** ---- ladder operators, uniformly ---- *)
Definition lad (d : bool) (p : nat) (psi : state) : state := fun I =>
  if Bool.eqb (bit I p) d then sgn (odd_below I p) * psi (upd I p (negb d)) else C0.
Lemma create_lad p psi : create p psi == lad true p psi.
Proof. intros I. unfold create, lad. destruct (bit I p); reflexivity. Qed.
Lemma annihilate_lad p psi : annihilate p psi == lad false p psi.
Proof. intros I. unfold annihilate, lad. destruct (bit I p); reflexivity. Qed.
Lemma odd_below_upd I q b p : odd_below (upd I q b) p = if (q <? p)%nat then xorb (odd_below I p) (xorb (bit I q) b) else odd_below I p.
Proof.
  induction p as [|p IH]; cbn [odd_below]; [reflexivity|]. rewrite IH, bit_upd.
  destruct (Nat.eqb_spec p q) as [->|N].
  - rewrite Nat.ltb_irrefl. destruct (Nat.ltb_spec q (S q)); [|lia]. destruct (bit I q), b, (odd_below I q); reflexivity.
  - destruct (Nat.ltb_spec q p), (Nat.ltb_spec q (S p)); try lia; destruct (bit I q), b, (odd_below I p), (bit I p); reflexivity.
Qed.
Lemma lad_ext d p a b : a == b -> lad d p a == lad d p b.
Proof. intros H I. unfold lad. rewrite H. reflexivity. Qed.
Lemma lad_scale d p c psi : lad d p (sscale c psi) == sscale c (lad d p psi).
Proof. intros I. unfold lad, sscale. destruct (Bool.eqb _ _); ring. Qed.
Lemma lad_add d p a b : lad d p (sadd a b) == sadd (lad d p a) (lad d p b).
Proof. intros I. unfold lad, sadd. destruct (Bool.eqb _ _); ring. Qed.
Lemma lad_anti d p q psi I : lad d p (lad d q psi) I = - lad d q (lad d p psi) I.
Proof.
  unfold lad. destruct (Nat.eq_dec p q) as [->|N].
  - destruct (Bool.eqb (bit I q) d); [|ring]. rewrite bit_upd_same. destruct d; cbn [negb Bool.eqb]; ring.
  - rewrite !(bit_upd_other I _ _ _ N), !(bit_upd_other I _ _ _ (not_eq_sym N)).
    destruct (Bool.eqb (bit I p) d) eqn:Ep, (Bool.eqb (bit I q) d) eqn:Eq; try ring.
    rewrite (upd_comm I p (negb d) q (negb d) N). apply Bool.eqb_prop in Ep, Eq.
    rewrite !odd_below_upd, Ep, Eq. destruct (Nat.ltb_spec p q), (Nat.ltb_spec q p); try lia;
      destruct d; cbn [negb xorb]; rewrite !sgn_xor; unfold sgn; ring.
Qed.
(** the opposite pair: {a_p, a+_q} = delta_pq *)
Lemma lad_anti_mixed p q psi I : create p (annihilate q psi) I + annihilate q (create p psi) I = if (p =? q)%nat then psi I else C0.
Proof.
  unfold create, annihilate. destruct (Nat.eqb_spec p q) as [->|N].
  - rewrite !bit_upd_same, !upd_upd. rewrite !odd_below_upd, Nat.ltb_irrefl. destruct (bit I q) eqn:E.
    + rewrite (upd_id' I q true E). transitivity ((sgn (odd_below I q) * sgn (odd_below I q)) * psi I); [ring|rewrite sgn_sgn; ring].
    + rewrite (upd_id' I q false E). transitivity ((sgn (odd_below I q) * sgn (odd_below I q)) * psi I); [ring|rewrite sgn_sgn; ring].
  - rewrite !(bit_upd_other I _ _ _ N), !(bit_upd_other I _ _ _ (not_eq_sym N)).
    destruct (bit I p) eqn:Ep, (bit I q) eqn:Eq; try ring.
    rewrite (upd_comm I p false q true N), !odd_below_upd, Ep, Eq.
    destruct (Nat.ltb_spec p q), (Nat.ltb_spec q p); try lia; cbn [xorb]; rewrite !sgn_xor; unfold sgn; ring.
Qed.
(** words of ladder operators of one kind *)
Definition lads (d : bool) (l : list nat) (psi : state) : state := fold_right (lad d) psi l.
Lemma lads_ext d l a b : a == b -> lads d l a == lads d l b.
Proof. intros H. induction l as [|p l IH]; [exact H|]. apply lad_ext, IH. Qed.
Lemma lads_scale d l c psi : lads d l (sscale c psi) == sscale c (lads d l psi).
Proof. induction l as [|p l IH]; [apply seq_refl|]. cbn. eapply seq_trans; [apply lad_ext, IH|apply lad_scale]. Qed.
Lemma lads_add d l a b : lads d l (sadd a b) == sadd (lads d l a) (lads d l b).
Proof. induction l as [|p l IH]; [apply seq_refl|]. cbn. eapply seq_trans; [apply lad_ext, IH|apply lad_add]. Qed.
Lemma lads_app d a b psi : lads d (a ++ b) psi = lads d a (lads d b psi).
Proof. unfold lads. apply fold_right_app. Qed.
Lemma lads_antisym d psi I : antisym (fun l => lads d l psi I).
Proof.
  intros a x y b. rewrite !lads_app. cbn.
  assert (H : lad d x (lad d y (lads d b psi)) == sscale (- C1) (lad d y (lad d x (lads d b psi)))).
  { intros J. rewrite lad_anti. unfold sscale. ring. }
  fold (lads d b psi). rewrite (lads_ext d a _ _ H I), (lads_scale d a _ _ I). unfold sscale. ring.
Qed.
Lemma fold_lads_cre l psi : fold_right create psi l == lads true l psi.
Proof. induction l as [|p l IH]; [apply seq_refl|]. cbn. eapply seq_trans; [apply create_lad|apply lad_ext, IH]. Qed.
Lemma fold_lads_ann l psi : fold_right annihilate psi l == lads false l psi.
Proof. induction l as [|p l IH]; [apply seq_refl|]. cbn. eapply seq_trans; [apply annihilate_lad|apply lad_ext, IH]. Qed.
Definition word (cre ann : list nat) (psi : state) : state := lads true cre (lads false ann psi).
Lemma ladder_word cre ann psi : ladder_act cre ann psi == word cre ann psi.
Proof. unfold ladder_act, word. eapply seq_trans; [apply fold_lads_cre|]. apply lads_ext, fold_lads_ann. Qed.
Lemma fermi_word o psi I : fermi_act o psi I = Csum (fun t => fcoef t * word (fcre t) (fann t) psi I) o.
Proof. unfold fermi_act. apply Csum_ext. intros t _. rewrite (ladder_word _ _ psi I). reflexivity. Qed.
Lemma fermi_app a b psi : fermi_act (a ++ b) psi == sadd (fermi_act a psi) (fermi_act b psi).
Proof. intros I. unfold fermi_act, sadd. apply Csum_app. Qed.
Lemma fermi_cons t o psi I : fermi_act (t :: o) psi I = fcoef t * word (fcre t) (fann t) psi I + fermi_act o psi I.
Proof. rewrite !fermi_word, Csum_cons. reflexivity. Qed.

(** ---- canonical_order ---- *)
Definition canonical_term (t : fterm) : Prop := descending (fcre t) /\ descending (fann t).
Lemma single_term_spec srt t : legal_sort srt -> exists t', canonical_order_single_term srt t = Ok t' /\ canonical_term t' /\
  Permutation (fcre t') (fcre t) /\ Permutation (fann t') (fann t) /\ Cabs (fcoef t') = Cabs (fcoef t) /\
  forall psi I, fcoef t * word (fcre t) (fann t) psi I = fcoef t' * word (fcre t') (fann t') psi I.
Proof.
  intros HS. destruct t as [[c cre] ann]. unfold canonical_order_single_term, fcre, fann, fcoef; cbn [fst snd].
  destruct (canonicalize_spec srt cre HS) as (cre' & b1 & E1 & HP1 & HD1 & HF1). rewrite E1. cbn [bind].
  destruct (canonicalize_spec srt ann HS) as (ann' & b2 & E2 & HP2 & HD2 & HF2). rewrite E2. cbn [bind fst snd].
  eexists. split; [reflexivity|]. cbn [fst snd]. split; [split; assumption|]. split; [exact HP1|]. split; [exact HP2|]. split.
  { rewrite !Cabs_mul. assert (HA : forall b, Cabs (sgn b) = 1%R) by (intros []; unfold sgn; rewrite ?Cabs_neg; apply Cabs_C1). rewrite !HA. ring. }
  intros psi I. unfold word. rewrite (HF1 _ (lads_antisym true (lads false ann psi) I)).
  assert (H : lads false ann psi == sscale (sgn b2) (lads false ann' psi)).
  { intros J. exact (HF2 _ (lads_antisym false psi J)). }
  rewrite (lads_ext true cre' _ _ H I), (lads_scale true cre' _ _ I). unfold sscale. ring.
Qed.
Lemma sq_canonical_spec srt o : legal_sort srt -> exists o', sq_canonical_order srt o = Ok o' /\ Forall canonical_term o' /\
  Forall2 (fun t t' => Permutation (fcre t') (fcre t) /\ Permutation (fann t') (fann t) /\ Cabs (fcoef t') = Cabs (fcoef t) /\
     forall psi I, fcoef t * word (fcre t) (fann t) psi I = fcoef t' * word (fcre t') (fann t') psi I) o o' /\
  forall psi, fermi_act o psi == fermi_act o' psi.
Proof.
  intros HS. induction o as [|t o IH].
  - exists []. split; [reflexivity|]. split; [constructor|]. split; [constructor|]. intros; apply seq_refl.
  - destruct IH as (o' & E & HC & HF & HA). destruct (single_term_spec srt t HS) as (t' & E' & HC' & HP1 & HP2 & HM & HW).
    unfold sq_canonical_order in *. cbn [mapM]. rewrite E'. cbn [bind]. rewrite E. cbn [bind]. exists (t' :: o').
    split; [reflexivity|]. split; [constructor; assumption|]. split; [constructor; [auto|assumption]|].
    intros psi I. rewrite !fermi_cons, HW, (HA psi I). reflexivity.
Qed.

(** ---- the ordered map ---- *)
Lemma vec_ltb_irrefl a : vec_ltb a a = false.
Proof. induction a as [|x a IH]; cbn [vec_ltb]; [reflexivity|]. rewrite Nat.ltb_irrefl. exact IH. Qed.
Lemma vec_ltb_trans : forall a b c, vec_ltb a b = true -> vec_ltb b c = true -> vec_ltb a c = true.
Proof.
  induction a as [|x a IH]; destruct b as [|y b], c as [|z c]; cbn [vec_ltb]; intros H1 H2; try discriminate; auto.
  destruct (Nat.ltb_spec x y), (Nat.ltb_spec y x), (Nat.ltb_spec y z), (Nat.ltb_spec z y), (Nat.ltb_spec x z), (Nat.ltb_spec z x); try lia; try discriminate; auto.
  eapply IH; eassumption.
Qed.
Lemma vec_ltb_total : forall a b, vec_ltb a b = false -> vec_ltb b a = false -> a = b.
Proof.
  induction a as [|x a IH]; destruct b as [|y b]; cbn [vec_ltb]; intros H1 H2; try discriminate; auto.
  destruct (Nat.ltb_spec x y), (Nat.ltb_spec y x); try lia; try discriminate. assert (x = y) by lia. subst. f_equal. auto.
Qed.
Lemma vec_ltb_asym a b : vec_ltb a b = true -> vec_ltb b a = false.
Proof. intros H. destruct (vec_ltb b a) eqn:E; [|reflexivity]. pose proof (vec_ltb_trans _ _ _ H E) as H2. rewrite vec_ltb_irrefl in H2. discriminate. Qed.
Lemma pair_ltb_irrefl a : pair_ltb a a = false.
Proof. unfold pair_ltb. rewrite !vec_ltb_irrefl. reflexivity. Qed.
Lemma pair_ltb_total a b : pair_ltb a b = false -> pair_ltb b a = false -> a = b.
Proof.
  destruct a as [a1 a2], b as [b1 b2]. unfold pair_ltb; cbn [fst snd]. destruct (vec_ltb a1 b1) eqn:E1; [discriminate|].
  destruct (vec_ltb b1 a1) eqn:E2; [discriminate|]. intros H1 H2. f_equal; apply vec_ltb_total; assumption.
Qed.
Lemma pair_ltb_trans a b c : pair_ltb a b = true -> pair_ltb b c = true -> pair_ltb a c = true.
Proof.
  destruct a as [a1 a2], b as [b1 b2], c as [c1 c2]. unfold pair_ltb; cbn [fst snd].
  destruct (vec_ltb a1 b1) eqn:E1.
  - intros _. destruct (vec_ltb b1 c1) eqn:E2; [rewrite (vec_ltb_trans _ _ _ E1 E2); auto|]. destruct (vec_ltb c1 b1) eqn:E3; [discriminate|].
    intros _. rewrite <- (vec_ltb_total _ _ E2 E3), E1. reflexivity.
  - destruct (vec_ltb b1 a1) eqn:E2; [discriminate|]. pose proof (vec_ltb_total _ _ E1 E2); subst b1. intros H1.
    destruct (vec_ltb a1 c1); [reflexivity|]. destruct (vec_ltb c1 a1); [discriminate|]. intros H2. eapply vec_ltb_trans; eassumption.
Qed.
Notation skey := (list nat * list nat)%type.
Definition smap_sorted (m : list (skey * C)) : Prop := StronglySorted (fun a b => pair_ltb (fst a) (fst b) = true) m.
Definition tof (kv : skey * C) : fterm := ((snd kv, fst (fst kv)), snd (fst kv)).
Lemma fkey_tof kv : fkey (tof kv) = fst kv.
Proof. destruct kv as [[a b] v]. reflexivity. Qed.
Lemma sq_acc_keys k v m kv : In kv (sq_accumulate k v m) -> fst kv = k \/ In (fst kv) (map fst m).
Proof.
  induction m as [|[k' v'] r IH]; cbn [sq_accumulate].
  - intros [<-|[]]; auto.
  - destruct (pair_ltb k k'); [|destruct (pair_ltb k' k)].
    + intros [<-|H]; [auto|]. right. apply in_map. exact H.
    + intros [<-|H]; [right; left; reflexivity|]. destruct (IH H); [auto|right; right; assumption].
    + intros [<-|H]; [right; left; reflexivity|]. right; right. apply in_map. exact H.
Qed.
Lemma sq_acc_sorted k v m : smap_sorted m -> smap_sorted (sq_accumulate k v m).
Proof.
  induction m as [|[k' v'] r IH]; cbn [sq_accumulate]; intros Hs; [constructor; constructor|]. inversion Hs as [|? ? Hsr Hall]; subst.
  destruct (pair_ltb k k') eqn:E1; [|destruct (pair_ltb k' k) eqn:E2].
  - constructor; [constructor; assumption|]. constructor; [exact E1|]. apply Forall_forall. intros kv Hkv. rewrite Forall_forall in Hall.
    specialize (Hall kv Hkv). cbn [fst] in *. eapply pair_ltb_trans; eassumption.
  - constructor; [apply IH; assumption|]. apply Forall_forall. intros kv Hkv. destruct (sq_acc_keys _ _ _ _ Hkv) as [E|HI]; cbn [fst].
    + rewrite E; exact E2.
    + apply in_map_iff in HI. destruct HI as (kv' & E & HI). rewrite <- E. rewrite Forall_forall in Hall. exact (Hall kv' HI).
  - constructor; assumption.
Qed.
Lemma sq_acc_act k v m psi I : fermi_act (map tof (sq_accumulate k v m)) psi I = v * word (fst k) (snd k) psi I + fermi_act (map tof m) psi I.
Proof.
  induction m as [|[k' v'] r IH]; cbn [sq_accumulate map].
  - rewrite fermi_cons. reflexivity.
  - destruct (pair_ltb k k') eqn:E1; [|destruct (pair_ltb k' k) eqn:E2]; cbn [map]; rewrite !fermi_cons.
    + reflexivity.
    + rewrite IH. unfold tof, fcoef, fcre, fann; cbn [fst snd]. ring.
    + pose proof (pair_ltb_total k k' E1 E2); subst k'. unfold tof, fcoef, fcre, fann; cbn [fst snd]. ring.
Qed.
Definition sq_map (o : list fterm) (m : list (skey * C)) := fold_left (fun m t => sq_accumulate (fcre t, fann t) (fcoef t) m) o m.
Lemma sq_map_spec o : forall m, smap_sorted m -> smap_sorted (sq_map o m) /\
  (forall psi I, fermi_act (map tof (sq_map o m)) psi I = fermi_act o psi I + fermi_act (map tof m) psi I) /\
  (forall kv, In kv (sq_map o m) -> In (fst kv) (map fst m) \/ In (fst kv) (map fkey o)).
Proof.
  induction o as [|t o IH]; intros m Hs.
  - split; [exact Hs|]. split; [intros; cbn [sq_map fold_left]; change (fermi_act [] psi I) with C0; ring|]. intros kv H. left. apply in_map, H.
  - destruct (IH _ (sq_acc_sorted (fcre t, fann t) (fcoef t) m Hs)) as (A & B & D). split; [exact A|]. split.
    + intros psi I. change (sq_map (t :: o) m) with (sq_map o (sq_accumulate (fcre t, fann t) (fcoef t) m)). rewrite B, sq_acc_act, fermi_cons. cbn [fst snd]. ring.
    + intros kv H. destruct (D kv H) as [HI|HI]; [|right; right; exact HI]. apply in_map_iff in HI. destruct HI as (kv' & E & HI).
      destruct (sq_acc_keys _ _ _ _ HI) as [E'|HI']; [right; left; unfold fkey; congruence|left; rewrite <- E; exact HI'].
Qed.
Lemma smap_nodup m : smap_sorted m -> NoDup (map fst m).
Proof.
  induction m as [|kv r IH]; intros Hs; [constructor|]. inversion Hs; subst. cbn [map]. constructor; [|auto].
  intros HI. apply in_map_iff in HI. destruct HI as (kv' & E & HI). rewrite Forall_forall in H2. specialize (H2 kv' HI). cbn in H2.
  rewrite E, pair_ltb_irrefl in H2. discriminate.
Qed.
Lemma filter_partition {A} (f : A -> bool) m : Permutation (filter f m ++ filter (fun x => negb (f x)) m) m.
Proof.
  induction m as [|kv r IH]; cbn [filter]; [constructor|]. destruct (f kv); cbn [negb app].
  - constructor; exact IH.
  - rewrite <- Permutation_middle. constructor. exact IH.
Qed.
Lemma sq_simplify_spec srt o : legal_sort srt -> exists kept dropped, sq_simplify srt o = Ok kept /\
  Forall canonical_term (kept ++ dropped) /\ NoDup (map fkey (kept ++ dropped)) /\
  Forall (fun t => 1e-12 < Cabs (fcoef t))%R kept /\ Forall (fun t => Cabs (fcoef t) <= 1e-12)%R dropped /\
  (forall t, In t (kept ++ dropped) -> exists t0, In t0 o /\ Permutation (fcre t) (fcre t0) /\ Permutation (fann t) (fann t0)) /\
  forall psi, fermi_act o psi == sadd (fermi_act kept psi) (fermi_act dropped psi).
Proof.
  intros HS. unfold sq_simplify. destruct (sq_canonical_spec srt o HS) as (o' & E & HC & HF2 & HA). rewrite E. cbn [bind]. cbv zeta.
  change (fold_left (fun m t => sq_accumulate (fcre t, fann t) (fcoef t) m) o' []) with (sq_map o' []).
  destruct (sq_map_spec o' [] (SSorted_nil _)) as (Hs & HM & HK). set (m := sq_map o' []) in *.
  set (f := fun kv : skey * C => Rltb 1e-12 (Cabs (snd kv))). fold tof.
  exists (map tof (filter f m)), (map tof (filter (fun x => negb (f x)) m)). rewrite <- map_app.
  pose proof (filter_partition f m) as HP.
  assert (HKC : forall kv, In kv m -> exists t, In t o' /\ fst kv = fkey t).
  { intros kv Hkv. destruct (HK kv Hkv) as [[]|HI]. apply in_map_iff in HI. destruct HI as (t & E' & HI). exists t. auto. }
  split; [reflexivity|]. split; [|split; [|split; [|split; [|split]]]].
  - apply Forall_map, Forall_forall. intros kv Hkv. apply (Permutation_in _ HP) in Hkv. destruct (HKC kv Hkv) as (t & Ht & Ek).
    rewrite Forall_forall in HC. specialize (HC t Ht). unfold canonical_term, tof, fcre, fann in *; cbn [fst snd]. rewrite Ek. exact HC.
  - rewrite map_map. rewrite (map_ext _ fst) by apply fkey_tof. eapply Permutation_NoDup; [apply Permutation_map; symmetry; exact HP|apply smap_nodup, Hs].
  - apply Forall_map, Forall_forall. intros kv HI. apply filter_In in HI. destruct HI as [_ HI]. unfold f in HI.
    destruct (Rltb_spec 1e-12 (Cabs (snd kv))); [assumption|discriminate].
  - apply Forall_map, Forall_forall. intros kv HI. apply filter_In in HI. destruct HI as [_ HI]. unfold f in HI.
    destruct (Rltb_spec 1e-12 (Cabs (snd kv))); [discriminate|]. apply Rnot_lt_le. assumption.
  - intros t Ht. apply in_map_iff in Ht. destruct Ht as (kv & <- & Hkv). apply (Permutation_in _ HP) in Hkv. destruct (HKC kv Hkv) as (t' & Ht & Ek).
    clear - HF2 Ht Ek. induction HF2 as [|x y l l' H HF IH]; [destruct Ht|]. destruct Ht as [->|Ht].
    + exists x. split; [left; reflexivity|]. unfold tof, fcre, fann in *; cbn [fst snd]. rewrite Ek. unfold fkey, fcre, fann; cbn [fst snd]. tauto.
    + destruct (IH Ht) as (t0 & H0 & H1). exists t0. split; [right; exact H0|exact H1].
  - intros psi I. rewrite (HA psi I). unfold sadd. rewrite <- (Cadd_0_r (fermi_act o' psi I)).
    change C0 with (fermi_act (map tof []) psi I). rewrite <- HM. fold m.
    transitivity (fermi_act (map tof (filter f m) ++ map tof (filter (fun x => negb (f x)) m)) psi I); [|apply fermi_app].
    rewrite <- map_app. unfold fermi_act. apply Csum_perm, Permutation_map. symmetry. exact HP.
Qed.
