(** Proofs about the organizer functions of transforms.py (TransModel.v). *)
From Coq Require Import Reals String List Arith Lia Bool Lra Permutation.
From Verif Require Import CBase Result Bits Spec SQSpec GateModel LibProofs SafeProofs GateEval PauliProofs OperatorModel SQProofs JWProofs PyModel TransModel TransSpec.
Import ListNotations.
Local Open Scope C_scope.
Local Open Scope string_scope.

(** *** letters *)
Lemma letter_pact s t psi : letter_act s t psi == pact s t psi.
Proof.
  intros I. unfold letter_act, pact. destruct (s =? "X"); [symmetry; apply ev_X|].
  destruct (s =? "Y"); [|destruct (s =? "Z"); [symmetry; apply ev_Z|reflexivity]].
  unfold act1, m_Y, mk44. rewrite flip_upd. destruct (bit I t); cbn [b2n nth negb]; ring.
Qed.
Lemma letter_ext s t a b : a == b -> letter_act s t a == letter_act s t b.
Proof. intros H I. unfold letter_act. rewrite !H. reflexivity. Qed.
Lemma letter_scale s t c psi : letter_act s t (sscale c psi) == sscale c (letter_act s t psi).
Proof. intros I. unfold letter_act, sscale. destruct (s =? "X"), (s =? "Y"), (s =? "Z"); ring. Qed.
Lemma letter_add s t a b : letter_act s t (sadd a b) == sadd (letter_act s t a) (letter_act s t b).
Proof. intros I. unfold letter_act, sadd. destruct (s =? "X"), (s =? "Y"), (s =? "Z"); ring. Qed.
Lemma letter_comm s t r u psi : t <> u -> letter_act s t (letter_act r u psi) == letter_act r u (letter_act s t psi).
Proof.
  intros H. eapply seq_trans; [apply letter_pact|]. eapply seq_trans; [apply pact_ext, letter_pact|].
  eapply seq_trans; [apply pact_comm, H|]. apply seq_sym. eapply seq_trans; [apply letter_pact|]. apply pact_ext, letter_pact.
Qed.
Lemma word_ext w a b : a == b -> word_act w a == word_act w b.
Proof. intros H. induction w as [|x w IH]; [exact H|]. cbn. apply letter_ext, IH. Qed.
Lemma word_scale w c psi : word_act w (sscale c psi) == sscale c (word_act w psi).
Proof. induction w as [|x w IH]; [apply seq_refl|]. cbn. eapply seq_trans; [apply letter_ext, IH|]. apply letter_scale. Qed.
Lemma word_add w a b : word_act w (sadd a b) == sadd (word_act w a) (word_act w b).
Proof. induction w as [|x w IH]; [apply seq_refl|]. cbn. eapply seq_trans; [apply letter_ext, IH|]. apply letter_add. Qed.
Lemma word_app a b psi : word_act (a ++ b) psi = word_act a (word_act b psi).
Proof. apply fold_right_app. Qed.
Lemma word_zero w : word_act w szero == szero.
Proof.
  induction w as [|x w IH]; [apply seq_refl|]. cbn. eapply seq_trans; [apply letter_ext, IH|].
  intros I. unfold letter_act, szero. destruct (fst x =? "X"), (fst x =? "Y"), (fst x =? "Z"); ring.
Qed.
Definition pl (s : string) : Prop := s = "X" \/ s = "Y" \/ s = "Z".
Lemma bit_flip_same I t : bit (flip I t) t = negb (bit I t).
Proof. rewrite bit_flip, Nat.eqb_refl. reflexivity. Qed.
Lemma contract_sound a b : pl a -> pl b -> exists c l, contractions a b = Ok (c, l) /\ (l = "I" \/ pl l) /\
  forall t psi, letter_act a t (letter_act b t psi) == sscale c (letter_act l t psi).
Proof.
  unfold pl. intros [-> | [-> | ->]] [-> | [-> | ->]]; do 2 eexists; (split; [reflexivity|]); (split; [tauto|]);
  intros t psi I; unfold letter_act, sscale; cbn [String.eqb Ascii.eqb Bool.eqb]; rewrite ?bit_flip_same, ?flip_flip; destruct (bit I t); cbn [negb]; csolve.
Qed.

(** *** the stable sort *)
Lemma insert_letter_perm x w : Permutation (insert_letter x w) (x :: w).
Proof.
  induction w as [|y w IH]; [reflexivity|]. cbn [insert_letter]. destruct (Nat.leb _ _); [reflexivity|].
  rewrite IH. apply perm_swap.
Qed.
Lemma sort_word_perm w : Permutation (sort_word w) w.
Proof. induction w as [|x w IH]; [reflexivity|]. cbn. rewrite insert_letter_perm, IH. reflexivity. Qed.
Lemma insert_letter_act x w psi : word_act (insert_letter x w) psi == word_act (x :: w) psi.
Proof.
  induction w as [|y w IH]; [apply seq_refl|]. cbn [insert_letter]. destruct (Nat.leb_spec (snd x) (snd y)) as [H|H]; [apply seq_refl|].
  cbn [word_act fold_right]. fold (word_act (insert_letter x w) psi). eapply seq_trans; [apply letter_ext, IH|].
  cbn [word_act fold_right]. apply letter_comm. lia.
Qed.
Lemma sort_word_act w psi : word_act (sort_word w) psi == word_act w psi.
Proof.
  induction w as [|x w IH]; [apply seq_refl|]. cbn [sort_word fold_right]. fold (sort_word w).
  eapply seq_trans; [apply insert_letter_act|]. cbn. apply letter_ext, IH.
Qed.
Fixpoint nondec_w (w : word) : Prop := match w with x :: r => (forall y, In y r -> (snd x <= snd y)%nat) /\ nondec_w r | [] => True end.
Lemma insert_letter_nondec x w : nondec_w w -> nondec_w (insert_letter x w).
Proof.
  induction w as [|y w IH]; intros H; [split; [intros ? []|exact I]|]. cbn [insert_letter]. destruct H as [H1 H2].
  destruct (Nat.leb_spec (snd x) (snd y)) as [L|L].
  - split; [|split; assumption]. intros z [<-|Hz]; [exact L|]. specialize (H1 z Hz). lia.
  - split; [|apply IH, H2]. intros z Hz. apply (Permutation_in _ (insert_letter_perm x w)) in Hz. destruct Hz as [<-|Hz]; [lia|apply H1, Hz].
Qed.
Lemma sort_word_nondec w : nondec_w (sort_word w).
Proof. induction w as [|x w IH]; [exact I|]. cbn. apply insert_letter_nondec, IH. Qed.
Lemma filter_perm_length {A} (f : A -> bool) a b : Permutation a b -> length (filter f a) = length (filter f b).
Proof. induction 1; cbn; try (destruct (f x)); try (destruct (f y)); cbn; congruence. Qed.
Lemma sort_at_most k w : at_most k w -> at_most k (sort_word w).
Proof. intros H q. rewrite (filter_perm_length _ _ _ (sort_word_perm w)). apply H. Qed.

(** *** condensing *)
Definition plw (w : word) : Prop := Forall pauli_letter w.
(** every qubit of [a] is below every qubit of [b] *)
Definition below (a b : word) : Prop := forall x y, In x a -> In y b -> (snd x < snd y)%nat.
Lemma at_most_tail k x w : at_most k (x :: w) -> at_most k w.
Proof. intros H q. specialize (H q). cbn in H. destruct (Nat.eqb (snd x) q); cbn in H; lia. Qed.
Lemma at_most_app j k a b : at_most j a -> at_most k b -> at_most (j + k) (a ++ b).
Proof. intros H1 H2 q. rewrite filter_app, app_length. specialize (H1 q). specialize (H2 q). lia. Qed.
Lemma increasing_cons x w : increasing_word (x :: w) <-> (forall y, In y w -> (snd x < snd y)%nat) /\ increasing_word w.
Proof.
  revert x. induction w as [|y w IH]; intros x; [cbn; firstorder|]. split.
  - intros [H1 H2]. split; [|exact H2]. intros z [<-|Hz]; [exact H1|]. apply IH in H2. destruct H2 as [H2 _]. specialize (H2 z Hz). lia.
  - intros [H1 H2]. split; [apply H1; left; reflexivity|exact H2].
Qed.
Lemma increasing_at_most w : increasing_word w -> at_most 1 w.
Proof.
  induction w as [|x w IH]; intros H q; [cbn; lia|]. apply increasing_cons in H. destruct H as [H1 H2]. cbn.
  destruct (Nat.eqb_spec (snd x) q) as [E|E]; [|apply IH, H2]. cbn.
  replace (filter (fun l => Nat.eqb (snd l) q) w) with (@nil (string * nat)); [cbn; lia|]. symmetry.
  clear IH H2. induction w as [|y w IHw]; [reflexivity|]. cbn. destruct (Nat.eqb_spec (snd y) q) as [E2|E2].
  - specialize (H1 y (or_introl eq_refl)). lia.
  - apply IHw. intros z Hz. apply H1. right. exact Hz.
Qed.
Lemma increasing_snoc_w w x : increasing_word w -> (forall y, In y w -> (snd y < snd x)%nat) -> increasing_word (w ++ [x]).
Proof.
  induction w as [|y w IH]; intros H1 H2; [exact I|]. cbn [app]. apply increasing_cons in H1. destruct H1 as [H1 H1'].
  apply increasing_cons. split; [|apply IH; [exact H1'|intros; apply H2; right; assumption]].
  intros z Hz. apply in_app_or in Hz. destruct Hz as [Hz|[<-|[]]]; [apply H1, Hz|apply H2; left; reflexivity].
Qed.
Lemma take_run_other q w : (forall y, In y w -> (q < snd y)%nat) -> take_run q w = [].
Proof. destruct w as [|y w]; [reflexivity|]. intros H. cbn. destruct (Nat.eqb_spec (snd y) q) as [E|E]; [specialize (H y (or_introl eq_refl)); lia|reflexivity]. Qed.

Definition good (w : word) : Prop := plw w /\ increasing_word w.
Lemma condense_loop_spec f : forall w c out, (length w <= f)%nat -> nondec_w w -> at_most 2 w -> plw w -> good out -> below out w ->
  exists c' w', condense_loop f w c out = Ok (c', w') /\ good w' /\ (forall x, In x w' -> exists y, In y (out ++ w) /\ snd x = snd y) /\
    forall psi, sscale c' (word_act w' psi) == sscale c (word_act (out ++ w) psi).
Proof.
  induction f as [|f IH]; intros w c out HL HN HA HP HG HB.
  - destruct w; [|cbn in HL; lia]. exists c, out. split; [reflexivity|]. split; [exact HG|]. rewrite app_nil_r. split; [eauto|intros; apply seq_refl].
  - destruct w as [|x w]; [exists c, out; split; [reflexivity|]; split; [exact HG|]; rewrite app_nil_r; split; [eauto|intros; apply seq_refl]|].
    destruct HN as [HN1 HN2]. inversion HP as [|? ? Px HP']; subst.
    assert (Hcase : (forall y, In y w -> (snd x < snd y)%nat) \/ exists y r, w = y :: r /\ snd y = snd x /\ forall z, In z r -> (snd x < snd z)%nat).
    { destruct w as [|y r]; [left; intros ? []|]. destruct (Nat.eq_dec (snd y) (snd x)) as [E|E].
      - right. exists y, r. split; [reflexivity|]. split; [exact E|]. intros z Hz. pose proof (HN1 z (or_intror Hz)).
        destruct (Nat.eq_dec (snd z) (snd x)) as [E2|E2]; [|lia]. exfalso. specialize (HA (snd x)). cbn in HA. rewrite Nat.eqb_refl, E, Nat.eqb_refl in HA. cbn in HA.
        assert (HF : In z (filter (fun l => Nat.eqb (snd l) (snd x)) r)) by (apply filter_In; split; [exact Hz|apply Nat.eqb_eq, E2]).
        destruct (filter (fun l => Nat.eqb (snd l) (snd x)) r); [destruct HF|cbn in HA; lia].
      - left. intros z [<-|Hz]; [specialize (HN1 y (or_introl eq_refl)); lia|]. destruct HN2 as [HN2 _]. specialize (HN2 z Hz). specialize (HN1 y (or_introl eq_refl)). lia. }
    destruct Hcase as [Hlt|(y & r & -> & Ey & Hlt)].
    + cbn [condense_loop]. assert (ER : take_run (snd x) (x :: w) = [x]) by (cbn; rewrite Nat.eqb_refl, take_run_other by exact Hlt; reflexivity).
      rewrite ER. cbn [length Nat.eqb skipn].
      destruct (IH w c (out ++ [x])%list) as (c' & w' & E & G & HQ & A).
      * cbn in HL; lia. * exact HN2. * eapply at_most_tail, HA. * exact HP'.
      * split; [apply Forall_app; split; [apply HG|apply F1_intro, Px]|]. apply increasing_snoc_w; [apply HG|]. intros z Hz. apply HB; [exact Hz|left; reflexivity].
      * intros a b Ha Hb. apply in_app_or in Ha. destruct Ha as [Ha|[<-|[]]]; [apply HB; [exact Ha|right; exact Hb]|apply Hlt, Hb].
      * exists c', w'. rewrite <- app_assoc in HQ, A. auto.
    + cbn [condense_loop]. assert (ER : take_run (snd x) (x :: y :: r) = [x; y]).
      { cbn. rewrite Nat.eqb_refl, Ey, Nat.eqb_refl. rewrite take_run_other by exact Hlt. reflexivity. }
      rewrite ER. cbn [length Nat.eqb skipn contract_run].
      inversion HP' as [|? ? Py HP'']; subst.
      destruct (contract_sound (fst x) (fst y) Px Py) as (k & l & EC & Hl & HA2). rewrite EC. cbn [bind fst snd app].
      set (out' := (if l =? "I" then out else out ++ [(l, snd x)])%list).
      destruct (IH r (c * k) out') as (c' & w' & E & G & HQ & A).
      * cbn in HL; lia. * apply HN2. * eapply at_most_tail, at_most_tail, HA. * exact HP''.
      * unfold out'. destruct (String.eqb_spec l "I") as [->|NI]; [exact HG|]. destruct Hl as [->|Hl]; [congruence|].
        split; [apply Forall_app; split; [apply HG|apply F1_intro; exact Hl]|]. apply increasing_snoc_w; [apply HG|]. intros z Hz. apply (HB z x Hz). left; reflexivity.
      * intros a b Ha Hb. unfold out' in Ha. destruct (l =? "I"); [apply HB; [exact Ha|right; right; exact Hb]|].
        apply in_app_or in Ha. destruct Ha as [Ha|[<-|[]]]; [apply HB; [exact Ha|right; right; exact Hb]|apply Hlt, Hb].
      * exists c', w'. split; [exact E|]. split; [exact G|]. split.
        { intros z Hz. destruct (HQ z Hz) as (u & Hu & Eu). apply in_app_or in Hu. destruct Hu as [Hu|Hu].
          - unfold out' in Hu. destruct (l =? "I"); [exists u; split; [apply in_or_app; left; exact Hu|exact Eu]|].
            apply in_app_or in Hu. destruct Hu as [Hu|[<-|[]]]; [exists u; split; [apply in_or_app; left; exact Hu|exact Eu]|].
            exists x. split; [apply in_or_app; right; left; reflexivity|exact Eu].
          - exists u. split; [apply in_or_app; right; right; right; exact Hu|exact Eu]. }
        intros psi. eapply seq_trans; [apply A|]. rewrite !word_app.
        assert (HO : sscale k (word_act out' (word_act r psi)) == word_act out (word_act (x :: y :: r) psi)).
        { eapply seq_trans; [apply seq_sym, word_scale|]. unfold out'.
          assert (HH : word_act (x :: y :: r) psi == sscale k (letter_act l (snd x) (word_act r psi))).
          { cbn [word_act fold_right]. rewrite Ey. apply HA2. }
          destruct (String.eqb_spec l "I") as [->|NI].
          - apply word_ext. eapply seq_trans; [|apply seq_sym, HH]. apply seq_refl.
          - rewrite word_app. apply word_ext. eapply seq_trans; [|apply seq_sym, HH]. cbn [word_act fold_right fst snd]. apply letter_scale. }
        intros J. unfold sscale. specialize (HO J). unfold sscale in HO. rewrite <- HO. ring.
Qed.

Definition narrow (o : organizer) : Prop := Forall (fun t => plw (snd t) /\ at_most 2 (snd t)) o.
Definition normal (o : organizer) : Prop := Forall (fun t => good (snd t)) o.
Lemma condense_term c w : plw w -> at_most 2 w ->
  exists c' w', condense_loop (length (sort_word w)) (sort_word w) c [] = Ok (c', w') /\ good w' /\ (forall x, In x w' -> exists y, In y w /\ snd x = snd y) /\
    forall psi, sscale c' (word_act w' psi) == sscale c (word_act w psi).
Proof.
  intros HP HA. destruct (condense_loop_spec (length (sort_word w)) (sort_word w) c []) as (c' & w' & E & G & HQ & A).
  - lia. - apply sort_word_nondec. - apply sort_at_most, HA. - eapply Permutation_Forall; [symmetry; apply sort_word_perm|exact HP].
  - split; [constructor|exact I]. - intros ? ? [].
  - exists c', w'. split; [exact E|]. split; [exact G|]. split.
    + intros x Hx. destruct (HQ x Hx) as (y & Hy & Ey). exists y. split; [|exact Ey]. eapply Permutation_in; [apply sort_word_perm|exact Hy].
    + intros psi. eapply seq_trans; [apply A|]. apply sscale_ext. cbn [app]. apply sort_word_act.
Qed.
Lemma org_cons t o psi I : org_act (t :: o) psi I = fst t * word_act (snd t) psi I + org_act o psi I.
Proof. unfold org_act. rewrite Csum_cons. reflexivity. Qed.
Lemma org_app a b psi I : org_act (a ++ b) psi I = org_act a psi I + org_act b psi I.
Proof. unfold org_act. apply Csum_app. Qed.
Lemma condense_spec o : narrow o -> exists o', pauli_condense o = Ok o' /\ normal o' /\ length o' = length o /\ forall psi, org_act o' psi == org_act o psi.
Proof.
  induction 1 as [|[c w] o [HP HA] HO IH]; [exists []; split; [reflexivity|]; split; [constructor|]; split; [reflexivity|intros; apply seq_refl]|].
  destruct IH as (o' & E & N & L & A). destruct (condense_term c w HP HA) as (c' & w' & E1 & G & _ & A1).
  exists ((c', w') :: o'). split; [|split; [|split]].
  - unfold pauli_condense in *. cbn [mapM fst snd]. rewrite E1. cbn [bind]. rewrite E. reflexivity.
  - constructor; [exact G|exact N].
  - cbn. congruence.
  - intros psi J. rewrite !org_cons. rewrite A. cbn [fst snd]. f_equal. apply A1.
Qed.

(** *** combining like terms *)
Lemma word_eqb_eq a : forall b, word_eqb a b = true <-> a = b.
Proof.
  induction a as [|[s n] a IH]; intros [|[s' n'] b]; cbn; try (split; congruence).
  rewrite !andb_true_iff, String.eqb_eq, Nat.eqb_eq, IH. split; [intros [[-> ->] ->]; reflexivity|intros E; injection E as -> -> ->; auto].
Qed.
Definition dact (d : list (word * C)) (psi : state) : state := fun I => Csum (fun wc => snd wc * word_act (fst wc) psi I) d.
Lemma dict_add_act w c d psi I : dact (dict_add w c d) psi I = dact d psi I + c * word_act w psi I.
Proof.
  unfold dact. induction d as [|[w' c'] d IH]; cbn [dict_add]; [rewrite Csum_cons; cbn [fst snd]; change (Csum _ []) with C0; ring|].
  destruct (word_eqb w w') eqn:E.
  - apply word_eqb_eq in E. subst. rewrite !Csum_cons. cbn [fst snd]. ring.
  - rewrite !Csum_cons, IH. cbn [fst snd]. ring.
Qed.
Lemma dict_add_keys w c d x : In x (map fst (dict_add w c d)) <-> x = w \/ In x (map fst d).
Proof.
  induction d as [|[w' c'] d IH]; cbn [dict_add]; [cbn; firstorder|]. destruct (word_eqb w w') eqn:E.
  - apply word_eqb_eq in E. subst. cbn. firstorder congruence.
  - cbn [map fst In]. rewrite IH. tauto.
Qed.
Lemma dict_add_nodup w c d : NoDup (map fst d) -> NoDup (map fst (dict_add w c d)).
Proof.
  induction d as [|[w' c'] d IH]; intros H; cbn [dict_add]; [cbn; constructor; [intros []|constructor]|].
  cbn in H. apply NoDup_cons_iff in H. destruct H as [H1 H2]. destruct (word_eqb w w') eqn:E.
  - cbn. constructor; assumption.
  - cbn [map fst]. constructor; [|apply IH, H2]. rewrite dict_add_keys. intros [->|H]; [|exact (H1 H)].
    rewrite (proj2 (word_eqb_eq w w) eq_refl) in E. discriminate.
Qed.
Definition dict_of (o : list organizer) : list (word * C) :=
  fold_left (fun d jw_term => fold_left (fun d t => dict_add (snd t) (fst t) d) jw_term d) o [].
Lemma dict_fold_concat (o : list organizer) : forall d,
  fold_left (fun d jw_term => fold_left (fun d t => dict_add (snd t) (fst t) d) jw_term d) o d = fold_left (fun d t => dict_add (snd t) (fst t) d) (concat o) d.
Proof. induction o as [|a o IH]; intros d; [reflexivity|]. cbn. rewrite IH, <- fold_left_app. reflexivity. Qed.
Lemma dict_fold_spec (l : organizer) : forall d, NoDup (map fst d) ->
  let d' := fold_left (fun d t => dict_add (snd t) (fst t) d) l d in
  NoDup (map fst d') /\ (forall x, In x (map fst d') <-> In x (map fst d) \/ In x (map snd l)) /\
  forall psi I, dact d' psi I = dact d psi I + org_act l psi I.
Proof.
  induction l as [|[c w] l IH]; intros d H d'; subst d'; [cbn [fold_left map In]; split; [exact H|]; split; [tauto|intros; unfold org_act; rewrite Csum_nil; ring]|].
  cbn [fold_left fst snd]. destruct (IH (dict_add w c d) (dict_add_nodup w c d H)) as (H1 & H2 & H3). split; [exact H1|]. split.
  - intros x. rewrite H2, dict_add_keys. cbn [map snd In]. split; intros [?|?]; auto; try tauto; destruct H0; subst; tauto.
  - intros psi I. rewrite H3, dict_add_act, org_cons. cbn [fst snd]. ring.
Qed.
Definition swap_t (wc : word * C) : C * word := (snd wc, fst wc).
Lemma dact_org d psi I : org_act (map swap_t d) psi I = dact d psi I.
Proof. unfold org_act, dact. rewrite Csum_map. reflexivity. Qed.
Lemma dact_split (f : word * C -> bool) d psi I : dact d psi I = dact (filter f d) psi I + dact (filter (fun x => negb (f x)) d) psi I.
Proof.
  unfold dact. induction d as [|x d IH]; [cbn [filter]; rewrite !Csum_nil; ring|]. cbn [filter]. rewrite Csum_cons, IH. destruct (f x); cbn [negb]; rewrite Csum_cons; ring.
Qed.
Lemma filter_split_perm {A} (f : A -> bool) l : Permutation (filter f l ++ filter (fun x => negb (f x)) l) l.
Proof.
  induction l as [|x l IH]; [reflexivity|]. cbn. destruct (f x); cbn [negb app]; [constructor; exact IH|].
  rewrite <- Permutation_middle. constructor. exact IH.
Qed.
Lemma combine_spec (o : list organizer) : exists dropped,
  (forall psi, org_act (concat o) psi == sadd (org_act (combine_like_terms o) psi) (org_act dropped psi)) /\
  Forall (fun t => (1e-10 < Cabs (fst t))%R) (combine_like_terms o) /\ Forall (fun t => (Cabs (fst t) <= 1e-10)%R) dropped /\
  NoDup (map snd (combine_like_terms o ++ dropped)) /\
  (forall w, In w (map snd (combine_like_terms o ++ dropped)) <-> In w (map snd (concat o))).
Proof.
  set (d := dict_of o). set (f := fun wc : word * C => Rltb 1e-10 (Cabs (snd wc))).
  assert (HD : d = fold_left (fun d t => dict_add (snd t) (fst t) d) (concat o) []) by apply dict_fold_concat.
  destruct (dict_fold_spec (concat o) [] (NoDup_nil _)) as (H1 & H2 & H3). cbv zeta in *. rewrite <- HD in H1, H2, H3.
  exists (map swap_t (filter (fun x => negb (f x)) d)).
  change (combine_like_terms o) with (map swap_t (filter f d)).
  assert (HP : Permutation (map snd (map swap_t (filter f d) ++ map swap_t (filter (fun x => negb (f x)) d))) (map fst d)).
  { rewrite <- map_app, map_map. change (fun x => snd (swap_t x)) with (@fst word C). apply Permutation_map, filter_split_perm. }
  split; [|split; [|split; [|split]]].
  - intros psi I. unfold sadd. rewrite !dact_org, <- dact_split, H3. change (dact [] psi I) with C0. ring.
  - apply Forall_map, Forall_forall. intros x Hx. apply filter_In in Hx. destruct Hx as [_ Hx]. unfold f in Hx.
    destruct (Rltb_spec 1e-10 (Cabs (snd x))); [assumption|discriminate].
  - apply Forall_map, Forall_forall. intros x Hx. apply filter_In in Hx. destruct Hx as [_ Hx]. unfold f in Hx.
    destruct (Rltb_spec 1e-10 (Cabs (snd x))); [discriminate|]. cbn [fst swap_t]. lra.
  - eapply Permutation_NoDup; [symmetry; exact HP|exact H1].
  - intros w. split; intros H; [apply (Permutation_in _ HP) in H; apply H2 in H; destruct H as [[]|H]; exact H|].
    apply (Permutation_in _ (Permutation_sym HP)). apply H2. right. exact H.
Qed.

(** *** joins *)
Lemma good_app a b : good a -> good b -> plw (a ++ b)%list /\ at_most 2 (a ++ b).
Proof.
  intros [P1 I1] [P2 I2]. split; [apply Forall_app; split; assumption|]. apply (at_most_app 1 1); apply increasing_at_most; assumption.
Qed.
Lemma oact_ext o a b : a == b -> org_act o a == org_act o b.
Proof. intros H I. unfold org_act. apply Csum_ext. intros t _. rewrite (word_ext (snd t) a b H I). reflexivity. Qed.
Lemma oact_scale o c a : org_act o (sscale c a) == sscale c (org_act o a).
Proof. intros I. unfold sscale at 2. unfold org_act. rewrite <- Csum_mul_l. apply Csum_ext. intros t _. rewrite (word_scale (snd t) c a I). unfold sscale. ring. Qed.
Lemma oact_add o a b : org_act o (sadd a b) == sadd (org_act o a) (org_act o b).
Proof. intros I. unfold sadd at 2. unfold org_act. rewrite <- Csum_add. apply Csum_ext. intros t _. rewrite (word_add (snd t) a b I). unfold sadd. ring. Qed.
Lemma oact_zero o : org_act o szero == szero.
Proof. intros I. unfold org_act. apply Csum_zero. intros t _. rewrite word_zero. unfold szero. ring. Qed.
Lemma word_org w R psi I : Csum (fun r => fst r * word_act w (word_act (snd r) psi) I) R = word_act w (org_act R psi) I.
Proof.
  induction R as [|r R IH].
  - rewrite Csum_nil. symmetry. apply (word_zero w I).
  - rewrite Csum_cons, IH. transitivity (word_act w (sadd (sscale (fst r) (word_act (snd r) psi)) (org_act R psi)) I).
    + rewrite word_add. unfold sadd. rewrite word_scale. reflexivity.
    + apply word_ext. intros J. rewrite org_cons. reflexivity.
Qed.
Lemma join_raw_act L R psi : org_act (join_raw L R) psi == org_act L (org_act R psi).
Proof.
  intros I. induction L as [|l L IH]; [reflexivity|]. unfold join_raw in *. cbn [flat_map]. rewrite org_app, org_cons, IH. f_equal.
  rewrite <- word_org, <- Csum_mul_l. unfold org_act. rewrite Csum_map. apply Csum_ext. intros r _. cbn [fst snd]. rewrite word_app. ring.
Qed.
Lemma join_raw_narrow L R : normal L -> normal R -> narrow (join_raw L R).
Proof.
  intros HL HR. unfold narrow, join_raw. apply Forall_forall. intros t Ht. apply in_flat_map in Ht. destruct Ht as (l & Hl & Ht).
  apply in_map_iff in Ht. destruct Ht as (r & <- & Hr). cbn [snd]. apply good_app; [exact (proj1 (Forall_forall _ _) HL l Hl)|exact (proj1 (Forall_forall _ _) HR r Hr)].
Qed.
Definition small_words (d : organizer) : Prop := Forall (fun t => (Cabs (fst t) <= 1e-10)%R) d /\ NoDup (map snd d).
Lemma combine_one o : normal o -> exists dropped, normal (combine_like_terms [o]) /\ NoDup (map snd (combine_like_terms [o])) /\ small_words dropped /\ normal dropped /\
  forall psi, org_act o psi == sadd (org_act (combine_like_terms [o]) psi) (org_act dropped psi).
Proof.
  intros N. destruct (combine_spec [o]) as (d & A & _ & S & ND & K). cbn [concat] in A, K. rewrite app_nil_r in A, K.
  assert (HN : normal (combine_like_terms [o] ++ d)%list).
  { apply Forall_forall. intros t Ht. assert (H : In (snd t) (map snd o)) by (apply K, in_map, Ht).
    apply in_map_iff in H. destruct H as (u & <- & Hu). exact (proj1 (Forall_forall _ _) N u Hu). }
  unfold normal in HN. apply Forall_app in HN. destruct HN as [N1 N2]. rewrite map_app in ND.
  exists d. split; [exact N1|]. split; [|split; [split; [exact S|]|split; [exact N2|exact A]]].
  - clear - ND. induction (map snd (combine_like_terms [o])) as [|x l IH]; [constructor|]. cbn in ND. apply NoDup_cons_iff in ND. destruct ND as [H1 H2].
    constructor; [intros H; apply H1, in_or_app; left; exact H|apply IH, H2].
  - clear - ND. induction (map snd (combine_like_terms [o])) as [|x l IH]; [exact ND|]. apply IH. cbn in ND. apply NoDup_cons_iff in ND. apply ND.
Qed.
Lemma join_spec L R : normal L -> normal R -> exists o dropped, join_organizers L R = Ok o /\ normal o /\ NoDup (map snd o) /\ small_words dropped /\
  forall psi, org_act L (org_act R psi) == sadd (org_act o psi) (org_act dropped psi).
Proof.
  intros HL HR. destruct (condense_spec _ (join_raw_narrow L R HL HR)) as (o & E & N & _ & A).
  destruct (combine_one o N) as (d & N1 & ND & S & _ & A2). exists (combine_like_terms [o]), d.
  split; [unfold join_organizers; rewrite E; reflexivity|]. split; [exact N1|]. split; [exact ND|]. split; [exact S|].
  intros psi. eapply seq_trans; [apply seq_sym, join_raw_act|]. eapply seq_trans; [apply seq_sym, A|]. apply A2.
Qed.
Lemma commutator_raw_act H A psi I :
  org_act (flat_map (fun l => flat_map (fun r => [((fst l * fst r)%C, (snd l ++ snd r)%list); ((- (fst l * fst r))%C, (snd r ++ snd l)%list)]) A) H) psi I
  = org_act (join_raw H A) psi I - org_act (join_raw A H) psi I.
Proof.
  assert (HS : org_act (join_raw A H) psi I = Csum (fun l => Csum (fun r => (fst l * fst r) * word_act (snd r ++ snd l)%list psi I) A) H).
  { transitivity (Csum (fun r => Csum (fun l => fst r * fst l * word_act (snd r ++ snd l)%list psi I) H) A).
    - unfold join_raw. induction A as [|r A IH]; [reflexivity|]. cbn [flat_map]. rewrite org_app, IH, Csum_cons. f_equal. unfold org_act. rewrite Csum_map. reflexivity.
    - rewrite Csum_swap. apply Csum_ext. intros l _. apply Csum_ext. intros r _. ring. }
  rewrite HS. clear HS. unfold join_raw. induction H as [|l H IH]; [cbn [flat_map map]; unfold org_act; rewrite !Csum_nil; ring|].
  cbn [flat_map]. rewrite !org_app, Csum_cons, IH.
  assert (HA : org_act (flat_map (fun r => [((fst l * fst r)%C, (snd l ++ snd r)%list); ((- (fst l * fst r))%C, (snd r ++ snd l)%list)]) A) psi I =
     org_act (map (fun r => ((fst l * fst r)%C, (snd l ++ snd r)%list)) A) psi I - Csum (fun r => fst l * fst r * word_act (snd r ++ snd l)%list psi I) A).
  { clear IH. induction A as [|r A IHA]; [cbn [flat_map map]; unfold org_act; rewrite !Csum_nil; ring|]. cbn [flat_map map]. rewrite org_app, IHA, !org_cons, Csum_cons. cbn [fst snd]. change (org_act [] psi I) with C0. ring. }
  rewrite HA. ring.
Qed.
Lemma join_commutator_spec H A : normal H -> normal A -> exists o dropped, join_H_Am_organizers H A = Ok o /\ normal o /\ NoDup (map snd o) /\ small_words dropped /\
  forall psi I, org_act H (org_act A psi) I - org_act A (org_act H psi) I = org_act o psi I + org_act dropped psi I.
Proof.
  intros HH HA. unfold join_H_Am_organizers.
  match goal with |- context [pauli_condense ?r] => set (raw := r) end.
  assert (HN : narrow raw).
  { apply Forall_forall. intros t Ht. unfold raw in Ht. apply in_flat_map in Ht. destruct Ht as (l & Hl & Ht). apply in_flat_map in Ht. destruct Ht as (r & Hr & Ht).
    pose proof (proj1 (Forall_forall _ _) HH l Hl). pose proof (proj1 (Forall_forall _ _) HA r Hr).
    destruct Ht as [<-|[<-|[]]]; cbn [snd]; apply good_app; assumption. }
  destruct (condense_spec _ HN) as (o & E & N & _ & A1). destruct (combine_one o N) as (d & N1 & ND & S & _ & A2).
  exists (combine_like_terms [o]), d. split; [rewrite E; reflexivity|]. split; [exact N1|]. split; [exact ND|]. split; [exact S|].
  intros psi I. transitivity (org_act o psi I); [|apply A2]. rewrite A1. unfold raw. rewrite commutator_raw_act, !join_raw_act. reflexivity.
Qed.

(** *** Jordan-Wigner *)
Lemma zs_good p s : pl s -> good (map (fun j => ("Z", j)) (seq 0 p) ++ [(s, p)])%list.
Proof.
  intros H. split.
  - apply Forall_app. split; [|apply F1_intro; exact H]. apply Forall_map, Forall_forall. intros j _. right; right; reflexivity.
  - apply increasing_snoc_w; [|intros y Hy; apply in_map_iff in Hy; destruct Hy as (j & <- & Hj); apply in_seq in Hj; cbn; lia].
    generalize 0%nat. induction p as [|p IH]; intros a; [exact I|]. cbn [seq map]. apply increasing_cons. split; [|apply IH].
    intros y Hy. apply in_map_iff in Hy. destruct Hy as (j & <- & Hj). apply in_seq in Hj. cbn. lia.
Qed.
Lemma zs_act p : forall psi I, word_act (map (fun j => ("Z", j)) (seq 0 p)) psi I = SQSpec.sgn (odd_below I p) * psi I.
Proof.
  induction p as [|p IH]; intros psi I; [cbn; unfold SQSpec.sgn; ring|]. rewrite seq_S, map_app, word_app, IH. cbn [map plus word_act fold_right fst snd letter_act].
  unfold letter_act. cbn [String.eqb Ascii.eqb Bool.eqb odd_below]. unfold SQSpec.sgn. destruct (bit I p), (odd_below I p); cbn [xorb]; ring.
Qed.
Lemma jw_letters_act d p psi : org_act [fst (jw_letters d p); snd (jw_letters d p)] psi == plad false d p psi.
Proof.
  intros I. rewrite !org_cons. unfold org_act at 1. rewrite Csum_nil. unfold jw_letters. cbn [fst snd]. rewrite !word_app, !zs_act.
  cbn [word_act fold_right fst snd]. unfold letter_act. cbn [String.eqb Ascii.eqb Bool.eqb]. unfold plad. rewrite flip_upd.
  destruct (bit I p), d; cbn [negb Bool.eqb]; destruct (SQSpec.sgn (odd_below I p)), (psi (upd I p false)), (psi (upd I p true)); csolve.
Qed.
Lemma jw_letters_good d p : good (snd (fst (jw_letters d p))) /\ good (snd (snd (jw_letters d p))).
Proof. split; apply zs_good; unfold pl; auto. Qed.
Lemma join_lr_spec cur X Y : cur <> [] -> normal cur -> good (snd X) -> good (snd Y) ->
  exists o, join_lr_organizers cur X Y = Ok o /\ o <> [] /\ normal o /\ forall psi, org_act o psi == org_act cur (org_act [X; Y] psi).
Proof.
  intros HC HN HX HY. unfold join_lr_organizers. destruct cur as [|t cur]; [congruence|].
  change (flat_map _ (t :: cur)) with (join_raw (t :: cur) [X; Y]).
  destruct (condense_spec _ (join_raw_narrow (t :: cur) [X; Y] HN (F2_intro _ X Y HX HY))) as (o & E & N & L & A).
  exists o. split; [exact E|]. split; [|split; [exact N|intros psi; eapply seq_trans; [apply A|apply join_raw_act]]].
  intros ->. cbn in L. discriminate.
Qed.
Lemma join_lr_nil X Y : good (snd X) -> good (snd Y) ->
  exists o, join_lr_organizers [] X Y = Ok o /\ o <> [] /\ normal o /\ forall psi, org_act o psi == org_act [X; Y] psi.
Proof.
  intros HX HY. unfold join_lr_organizers.
  assert (HN : narrow [X; Y]).
  { apply F2_intro; (split; [|intros q; apply Nat.le_trans with 1%nat; [apply increasing_at_most|lia]]); [apply HX|apply HX|apply HY|apply HY]. }
  destruct (condense_spec _ HN) as (o & E & N & L & A). exists o. split; [exact E|]. split; [|split; [exact N|exact A]]. intros ->. discriminate.
Qed.
Lemma jw_fold h : forall (l : list (nat * nat)) cur (W : state -> state),
  normal cur -> (cur = [] /\ (forall psi, W psi == psi) \/ cur <> [] /\ forall psi, org_act cur psi == W psi) ->
  exists o, foreach l (fun ip o => let xy := jw_letters (Nat.ltb (fst ip) h) (snd ip) in join_lr_organizers o (fst xy) (snd xy)) cur = Ok o /\
    normal o /\ (l <> [] \/ cur <> [] -> o <> [] /\ forall psi, org_act o psi == W (lword false (map (fun ip => (Nat.ltb (fst ip) h, snd ip)) l) psi)).
Proof.
  induction l as [|[i p] l IH]; intros cur W HN HC.
  - exists cur. split; [reflexivity|]. split; [exact HN|]. intros [H|H]; [congruence|]. split; [exact H|]. destruct HC as [[H' _]|[_ HC]]; [congruence|exact HC].
  - cbn [foreach fst snd]. set (d := Nat.ltb i h). destruct (jw_letters_good d p) as [G1 G2]. cbv zeta.
    assert (HS : exists o, join_lr_organizers cur (fst (jw_letters d p)) (snd (jw_letters d p)) = Ok o /\ o <> [] /\ normal o /\ forall psi, org_act o psi == W (plad false d p psi)).
    { destruct HC as [[-> HC]|[HC1 HC2]].
      - destruct (join_lr_nil _ _ G1 G2) as (o & E & NE & N & A). exists o. split; [exact E|]. split; [exact NE|]. split; [exact N|].
        intros psi. eapply seq_trans; [apply A|]. eapply seq_trans; [apply jw_letters_act|]. apply seq_sym, HC.
      - destruct (join_lr_spec cur _ _ HC1 HN G1 G2) as (o & E & NE & N & A). exists o. split; [exact E|]. split; [exact NE|]. split; [exact N|].
        intros psi. eapply seq_trans; [apply A|]. eapply seq_trans; [apply oact_ext, jw_letters_act|]. apply HC2. }
    destruct HS as (o1 & E1 & NE1 & N1 & A1). rewrite E1. cbn [bind].
    destruct (IH o1 (fun psi => W (plad false d p psi)) N1 (or_intror (conj NE1 A1))) as (o & E & N & A).
    exists o. split; [exact E|]. split; [exact N|]. intros _. destruct (A (or_intror NE1)) as [A2 A3]. split; [exact A2|]. exact A3.
Qed.
Lemma jw_word_split h ops : forall a, map (fun ip => (Nat.ltb (fst ip) h, snd ip)) (combine (seq a (length ops)) ops) = term_word (firstn (h - a) ops) (skipn (h - a) ops).
Proof.
  unfold term_word. induction ops as [|p ops IH]; intros a; [rewrite firstn_nil, skipn_nil; reflexivity|].
  cbn [length seq combine map fst snd]. rewrite IH. destruct (Nat.ltb_spec a h) as [H|H].
  - replace (h - a)%nat with (S (h - S a)) by lia. reflexivity.
  - replace (h - a)%nat with 0%nat by lia. replace (h - S a)%nat with 0%nat by lia. reflexivity.
Qed.
Lemma word_ladder cre ann psi : lword false (term_word cre ann) psi == ladder_act cre ann psi.
Proof.
  intros I. pose proof (psum_fermi [((C1, cre), ann)] psi I) as H. unfold psum, fermi_act in H. rewrite !Csum_cons, !Csum_nil in H.
  unfold ptact in H. cbn [fcoef fcre fann fst snd] in H.
  assert (HR : forall a b : C, C1 * a + C0 = C1 * b + C0 -> a = b) by (intros a b E; transitivity (C1 * a + C0); [ring|rewrite E; ring]).
  apply HR, H.
Qed.
Definition sq_creators (ops : list nat) : list nat := firstn (length ops / 2) ops.
Definition sq_annihilators (ops : list nat) : list nat := skipn (length ops / 2) ops.
Lemma single_term_spec ops c : exists o, get_single_term_jw_organizer (ops, c) = Ok o /\ normal o /\
  forall psi, org_act o psi == sscale c (ladder_act (sq_creators ops) (sq_annihilators ops) psi).
Proof.
  unfold get_single_term_jw_organizer. cbn [fst snd]. destruct ops as [|p ops].
  - exists [(c, [])]. split; [reflexivity|]. split; [apply F1_intro; split; [constructor|exact I]|]. intros psi I. rewrite org_cons. unfold org_act. rewrite Csum_nil. cbn. unfold sscale. ring.
  - set (l := p :: ops). destruct (jw_fold (length l / 2) (combine (seq 0 (length l)) l) [] (fun psi => psi) (Forall_nil _) (or_introl (conj eq_refl (fun psi => seq_refl psi)))) as (o & E & N & A).
    cbv zeta. unfold l at 1. cbv zeta in E. fold l. rewrite E. cbn [bind].
    exists (map (fun t => ((fst t * c)%C, snd t)) o). split; [reflexivity|]. split; [apply Forall_map; cbn [snd]; exact N|].
    intros psi I. destruct A as [_ A]; [left; discriminate|].
    transitivity (c * org_act o psi I).
    + unfold org_act. rewrite Csum_map, <- Csum_mul_l. apply Csum_ext. intros t _. cbv beta. cbn [fst snd]. unfold word in *. ring.
    + unfold sscale. f_equal. rewrite A, jw_word_split, Nat.sub_0_r. apply word_ladder.
Qed.
