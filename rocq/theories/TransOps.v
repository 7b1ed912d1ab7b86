(** More proofs about transforms.py: whole operators, conversion to circuits, input check. *)
From Coq Require Import Reals String List Arith Lia Bool Lra Permutation.
From Verif Require Import CBase Result Bits Spec OpSpec SQSpec GateModel LibProofs SafeProofs GateEval PauliProofs OperatorModel SQProofs JWProofs FermiProofs PyModel TransModel TransSpec TransProofs.
Import ListNotations.
Local Open Scope C_scope.
Local Open Scope string_scope.

(** the fermionic term meant by (indices, amplitude): creators first *)
Definition as_fterm (t : list nat * C) : fterm := ((snd t, sq_creators (fst t)), sq_annihilators (fst t)).
Lemma mapM_single sq : exists T, mapM get_single_term_jw_organizer sq = Ok T /\ normal (concat T) /\
  forall psi, org_act (concat T) psi == fermi_act (map as_fterm sq) psi.
Proof.
  induction sq as [|[ops c] sq IH]; [exists []; split; [reflexivity|]; split; [constructor|intros; apply seq_refl]|].
  destruct IH as (T & E & N & A). destruct (single_term_spec ops c) as (o & E1 & N1 & A1).
  exists (o :: T). cbn [mapM]. rewrite E1. cbn [bind]. rewrite E. split; [reflexivity|]. cbn [concat]. split; [apply Forall_app; split; assumption|].
  intros psi I. rewrite org_app, A1, A. unfold fermi_act. cbn [map]. rewrite Csum_cons. reflexivity.
Qed.
Lemma combine_many T : normal (concat T) -> exists dropped, normal (combine_like_terms T) /\ NoDup (map snd (combine_like_terms T)) /\ small_words dropped /\
  forall psi, org_act (concat T) psi == sadd (org_act (combine_like_terms T) psi) (org_act dropped psi).
Proof.
  intros N. assert (E : combine_like_terms T = combine_like_terms [concat T]).
  { unfold combine_like_terms. rewrite (dict_fold_concat T), (dict_fold_concat [concat T]). cbn [concat]. rewrite app_nil_r. reflexivity. }
  rewrite E. destruct (combine_one _ N) as (d & H1 & H2 & H3 & _ & H4). eauto.
Qed.
Lemma jw_organizer_spec sq : exists o dropped, get_jw_organizer sq = Ok o /\ normal o /\ NoDup (map snd o) /\ small_words dropped /\
  forall psi, fermi_act (map as_fterm sq) psi == sadd (org_act o psi) (org_act dropped psi).
Proof.
  destruct (mapM_single sq) as (T & E & N & A). destruct (combine_many T N) as (d & N1 & ND & S & A2).
  exists (combine_like_terms T), d. split; [unfold get_jw_organizer; rewrite E; reflexivity|]. split; [exact N1|]. split; [exact ND|]. split; [exact S|].
  intros psi. eapply seq_trans; [apply seq_sym, A|apply A2].
Qed.
(** adjoint of a term: the reversed index string with the roles exchanged *)
Definition dagger (t : fterm) : fterm := ((fcoef t, rev (fann t)), rev (fcre t)).
Definition neg_term (t : fterm) : fterm := (((- fcoef t)%C, fcre t), fann t).
Lemma as_fterm_rev ops c : Nat.even (length ops) = true -> as_fterm (rev ops, (RtoC (-1) * c)%C) = neg_term (dagger (as_fterm (ops, c))).
Proof.
  intros H. apply Nat.even_spec in H. destruct H as [k Hk]. unfold as_fterm, neg_term, dagger, sq_creators, sq_annihilators, fcoef, fcre, fann. cbn [fst snd]. rewrite rev_length.
  assert (E : (length ops / 2 = k)%nat) by (rewrite Hk, Nat.mul_comm, Nat.div_mul by lia; reflexivity). rewrite E.
  f_equal; [f_equal|].
  - csolve.
  - rewrite firstn_rev. f_equal. f_equal. lia.
  - rewrite skipn_rev. f_equal. f_equal. lia.
Qed.
Lemma ucc_organizer_spec sq : Forall (fun t => Nat.even (length (fst t)) = true) sq ->
  exists o dropped, get_ucc_jw_organizer sq false = Ok o /\ normal o /\ NoDup (map snd o) /\ small_words dropped /\
  forall psi, sadd (fermi_act (map as_fterm sq) psi) (fermi_act (map (fun t => neg_term (dagger (as_fterm t))) sq) psi) == sadd (org_act o psi) (org_act dropped psi).
Proof.
  intros HE.
  assert (HT : exists T, mapM (fun t => do a <- get_single_term_jw_organizer t; do b <- get_single_term_jw_organizer (rev (fst t), (RtoC (-1) * snd t)%C); Ok [a; b]) sq = Ok T /\
     normal (concat (concat T)) /\ forall psi, org_act (concat (concat T)) psi == sadd (fermi_act (map as_fterm sq) psi) (fermi_act (map (fun t => neg_term (dagger (as_fterm t))) sq) psi)).
  { induction HE as [|[ops c] sq HO HE IH]; [exists []; split; [reflexivity|]; split; [constructor|intros psi I; unfold sadd, fermi_act, org_act; cbn; csolve]|].
    destruct IH as (T & E & N & A). destruct (single_term_spec ops c) as (o1 & E1 & N1 & A1). destruct (single_term_spec (rev ops) (RtoC (-1) * c)) as (o2 & E2 & N2 & A2).
    exists ([o1; o2] :: T). cbn [mapM fst snd]. rewrite E1. cbn [bind]. rewrite E2. cbn [bind]. rewrite E. split; [reflexivity|].
    cbn [concat app]. split; [repeat (apply Forall_app; split); assumption|].
    cbn [fst] in HO.
    intros psi I. rewrite !org_app, A1, A2, A. unfold sadd, fermi_act. cbn [map]. rewrite !Csum_cons. rewrite <- (as_fterm_rev ops c HO).
    match goal with |- (?a + (?b + (?c + ?d)))%C = _ => transitivity ((a + c) + (b + d))%C; [ring|reflexivity] end. }
  destruct HT as (T & E & N & A). destruct (combine_many _ N) as (d & N1 & ND & S & A2).
  exists (combine_like_terms (concat T)), d. split; [unfold get_ucc_jw_organizer; cbv beta iota; rewrite E; reflexivity|]. split; [exact N1|]. split; [exact ND|]. split; [exact S|].
  intros psi. eapply seq_trans; [apply seq_sym, A|apply A2].
Qed.

(** *** organizers and circuits *)
Definition letter4 (l : string * nat) : Prop := In (fst l) ["X"; "Y"; "Z"; "I"].
Lemma letter_gate l : letter4 l -> exists g, py_gate2 (fst l) (snd l) (snd l) = Ok g /\ glabel g = fst l /\ gtarget g = snd l /\
  forall psi, gate_act g psi == letter_act (fst l) (snd l) psi.
Proof.
  destruct l as [s t]. cbn [fst snd]. intros H. unfold letter4 in H. cbn [fst] in H.
  assert (HI : forall psi, act1 m_I t psi == psi).
  { intros psi J. unfold act1, m_I, mk44. destruct (bit J t) eqn:E; cbn [b2n nth]; [rewrite (upd_id' J t true E)|rewrite (upd_id' J t false E)]; ring. }
  destruct H as [<-|[<-|[<-|[<-|[]]]]]; unfold py_gate2, make_gate; rewrite Nat.eqb_refl; cbn [existsb String.eqb Ascii.eqb Bool.eqb andb orb]; eexists; (split; [reflexivity|]); (split; [reflexivity|]); (split; [reflexivity|]);
  intros psi; unfold gate_act; cbn [gtarget gcontrol gmat]; rewrite Nat.eqb_refl; (eapply seq_trans; [|apply seq_sym, letter_pact]); unfold pact; cbn [String.eqb Ascii.eqb Bool.eqb]; first [apply seq_refl|apply HI].
Qed.
Lemma word_circuit w : Forall letter4 w -> exists gs, mapM (fun letter => py_gate2 (fst letter) (snd letter) (snd letter)) w = Ok gs /\
  map (fun g => (glabel g, gtarget g)) gs = w /\ forall psi, circ_act gs psi == word_act (rev w) psi.
Proof.
  induction 1 as [|l w HL HW IH]; [exists []; split; [reflexivity|]; split; [reflexivity|intros; apply seq_refl]|].
  destruct IH as (gs & E & M & A). destruct (letter_gate l HL) as (g & E1 & L1 & T1 & A1).
  exists (g :: gs). cbn [mapM]. rewrite E1. cbn [bind]. rewrite E. split; [reflexivity|]. split; [cbn [map]; rewrite M, L1, T1; destruct l; reflexivity|].
  intros psi. cbn [circ_act fold_left]. eapply seq_trans; [apply A|]. cbn [rev]. rewrite word_app. apply word_ext. apply A1.
Qed.
Lemma org_circuit org : Forall (fun t => Forall letter4 (snd t)) org -> exists o, organizer_to_circuit org = Ok o /\ circuit_to_organizer o = org /\
  forall psi, op_act o psi == org_act (map (fun t => (fst t, rev (snd t))) org) psi.
Proof.
  induction 1 as [|[c w] org HW HO IH]; [exists []; split; [reflexivity|]; split; [reflexivity|intros; apply seq_refl]|].
  destruct IH as (o & E & M & A). destruct (word_circuit w HW) as (gs & E1 & M1 & A1).
  exists ((c, gs) :: o). unfold organizer_to_circuit in *. cbn [mapM fst snd]. rewrite E1. cbn [bind]. rewrite E. split; [reflexivity|].
  split; [unfold circuit_to_organizer in *; cbn [map fst snd]; rewrite M, M1; reflexivity|].
  intros psi I. cbn [map fst snd]. rewrite org_cons. unfold op_act in *. rewrite Csum_cons. cbn [fst snd]. rewrite A1, A. reflexivity.
Qed.
Lemma word_rev_comm x w psi : (forall y, In y w -> snd y <> snd x) -> word_act (w ++ [x]) psi == word_act (x :: w) psi.
Proof.
  induction w as [|y w IH]; intros H; [apply seq_refl|]. cbn [app word_act fold_right]. eapply seq_trans; [apply letter_ext, IH; intros z Hz; apply H; right; exact Hz|].
  cbn [word_act fold_right]. apply letter_comm. apply H. left; reflexivity.
Qed.
Lemma word_rev w psi : NoDup (map snd w) -> word_act (rev w) psi == word_act w psi.
Proof.
  induction w as [|x w IH]; intros H; [apply seq_refl|]. cbn [map] in H. apply NoDup_cons_iff in H. destruct H as [H1 H2]. cbn [rev].
  eapply seq_trans; [apply word_rev_comm|].
  - intros y Hy E. apply H1. rewrite <- E. apply in_map. apply in_rev. exact Hy.
  - cbn [word_act fold_right]. apply letter_ext. apply IH, H2.
Qed.
Lemma org_circuit_distinct org : Forall (fun t => Forall letter4 (snd t) /\ NoDup (map snd (snd t))) org -> exists o, organizer_to_circuit org = Ok o /\
  forall psi, op_act o psi == org_act org psi.
Proof.
  intros H. destruct (org_circuit org) as (o & E & _ & A); [eapply Forall_impl; [|exact H]; intros t [Ht _]; exact Ht|].
  exists o. split; [exact E|]. intros psi. eapply seq_trans; [apply A|]. intros I. unfold org_act. rewrite Csum_map. apply Csum_ext. intros t Ht. cbn [fst snd]. f_equal.
  apply word_rev. apply (proj1 (Forall_forall _ _) H t Ht).
Qed.

(** *** fermop_to_sq_excitation *)
Definition creators (l : list (nat * bool)) : nat := length (filter (fun x => snd x) l).
Definition annihilators (l : list (nat * bool)) : nat := length (filter (fun x => negb (snd x)) l).
(** the terms that are accepted: even length, as many creators as annihilators, and all but
    the last operator of the first half are creators *)
Definition accepted (l : list (nat * bool)) : Prop :=
  Nat.even (length l) = true /\ creators l = annihilators l /\ Forall (fun x => snd x = true) (firstn (length l / 2 - 1) l).
Lemma count_split l : (creators l + annihilators l = length l)%nat.
Proof. unfold creators, annihilators. induction l as [|[i b] l IH]; [reflexivity|]. cbn. destruct b; cbn; lia. Qed.
Ltac pairs_lia := repeat match goal with |- (_, _) = (_, _) => apply f_equal2 | |- Ok _ = Ok _ => apply f_equal end; try reflexivity; try lia.
Lemma fermop_ok half : forall ys i an cr l, (an + annihilators ys <= half)%nat -> (an = 0 \/ half <= i)%nat ->
  Forall (fun x => snd x = true) (firstn (half - 1 - i) ys) ->
  foreach ys (fermop_step half) (i, an, cr, l) = Ok (i + length ys, an + annihilators ys, cr + creators ys, l ++ map fst ys)%nat%list.
Proof.
  induction ys as [|[p b] ys IH]; intros i an cr l H1 H2 H3.
  - cbn. rewrite !Nat.add_0_r, app_nil_r. reflexivity.
  - cbn [foreach]. unfold fermop_step at 1.
    assert (E1 : (Nat.ltb i half && Nat.ltb 0 an)%bool = false) by (destruct (Nat.ltb_spec i half), (Nat.ltb_spec 0 an); cbn; try reflexivity; lia).
    assert (E2 : (Nat.leb half i && Nat.ltb half an)%bool = false) by (destruct (Nat.ltb_spec half an); [lia|apply andb_false_r]).
    rewrite E1, E2. cbn [bind fst snd]. unfold annihilators, creators in *. cbn [filter snd] in *.
    destruct b; cbn [negb length] in *.
    + rewrite IH; [|lia|destruct H2; [left; assumption|right; lia]|].
      * cbn [map fst]. rewrite <- app_assoc. cbn [app]. pairs_lia.
      * destruct (half - 1 - i)%nat as [|m] eqn:Em; [replace (half - 1 - S i)%nat with 0%nat by lia; constructor|].
        replace (half - 1 - S i)%nat with m by lia. inversion H3; assumption.
    + rewrite IH; [|lia| |].
      * cbn [map fst]. rewrite <- app_assoc. cbn [app]. pairs_lia.
      * right. destruct (half - 1 - i)%nat as [|m] eqn:Em; [lia|]. inversion H3; subst. discriminate.
      * destruct (half - 1 - i)%nat as [|m] eqn:Em; [replace (half - 1 - S i)%nat with 0%nat by lia; constructor|]. inversion H3; subst. discriminate.
Qed.
Lemma fermop_inv half : forall ys i an cr l s, (half <= i + length ys)%nat -> foreach ys (fermop_step half) (i, an, cr, l) = Ok s ->
  Forall (fun x => snd x = true) (firstn (half - 1 - i) ys) /\ s = (i + length ys, an + annihilators ys, cr + creators ys, l ++ map fst ys)%nat%list.
Proof.
  induction ys as [|[p b] ys IH]; intros i an cr l s HL H.
  - rewrite firstn_nil. split; [constructor|]. cbn in *. injection H as <-. rewrite !Nat.add_0_r, app_nil_r. reflexivity.
  - cbn [foreach] in H. unfold fermop_step at 1 in H. destruct (_ && _)%bool eqn:E1 in H; [discriminate|]. destruct (Nat.leb half i && _)%bool eqn:E2 in H; [discriminate|].
    cbn [bind fst snd] in H. cbn [length] in HL. pose proof H as H0. apply IH in H; [|lia]. destruct H as [HF ->]. unfold annihilators, creators. cbn [filter snd].
    split; [|destruct b; cbn [negb length map fst]; rewrite <- app_assoc; cbn [app]; pairs_lia].
    destruct (half - 1 - i)%nat as [|m] eqn:Em; [constructor|]. cbn [firstn]. replace (half - 1 - S i)%nat with m in HF by lia. constructor; [|exact HF].
    destruct b; [reflexivity|]. exfalso. destruct ys as [|[p' b'] ys]; [cbn in HL; lia|]. cbn [foreach] in H0. unfold fermop_step at 1 in H0.
    rewrite (proj2 (Nat.ltb_lt (S i) half)) in H0 by lia. cbn [andb Nat.ltb Nat.leb] in H0. discriminate.
Qed.
Definition fermop_body (term : fermop_term) : res (list nat * C) :=
  let num_ops := length (fst term) in
    if negb (Nat.eqb (num_ops mod 2) 0) then Throw (PyError "ValueError")
    else do s <- foreach (fst term) (fermop_step (num_ops / 2)) (0, 0, 0, [])%nat;
         let '(_, an, cr, l) := s in
         if negb (Nat.eqb an cr) then Throw (PyError "ValueError") else Ok (l, snd term).
Lemma even_mod n : Nat.eqb (n mod 2) 0 = Nat.even n.
Proof.
  destruct (Nat.even n) eqn:E.
  - apply Nat.even_spec in E. destruct E as [k ->]. rewrite Nat.mul_comm, Nat.mod_mul by lia. reflexivity.
  - assert (O : Nat.odd n = true) by (unfold Nat.odd; rewrite E; reflexivity). apply Nat.odd_spec in O. destruct O as [k ->].
    rewrite Nat.add_comm, Nat.mul_comm, Nat.mod_add by lia. reflexivity.
Qed.
Lemma fermop_body_spec t r : fermop_body t = Ok r <-> accepted (fst t) /\ r = (map fst (fst t), snd t).
Proof.
  destruct t as [l c]. unfold fermop_body, accepted. cbn [fst snd]. cbv zeta. rewrite even_mod. pose proof (count_split l) as HC.
  destruct (Nat.even (length l)) eqn:E; cbn [negb]; [|split; [discriminate|intros ((H & _) & _); discriminate]].
  assert (HH : length l = (2 * (length l / 2))%nat).
  { apply Nat.even_spec in E. destruct E as [k Hk]. rewrite Hk, (Nat.mul_comm 2 k), Nat.div_mul by lia. lia. }
  split.
  - intros H. destruct (foreach l _ _) as [s|] eqn:EF; [|discriminate]. cbn [bind] in H. apply fermop_inv in EF; [|lia]. destruct EF as [HF ->].
    cbn in H. destruct (Nat.eqb_spec (annihilators l) (creators l)) as [EA|EA]; [|discriminate]. cbn in H. injection H as <-.
    split; [|reflexivity]. split; [reflexivity|]. split; [congruence|]. rewrite Nat.sub_0_r in HF. exact HF.
  - intros ((_ & EA & HF) & ->). rewrite fermop_ok; [|lia|left; reflexivity|rewrite Nat.sub_0_r; exact HF].
    cbn [bind]. cbn [plus app]. rewrite EA, Nat.eqb_refl. reflexivity.
Qed.
Lemma fermop_body_err t : ~ accepted (fst t) -> fermop_body t = Throw (PyError "ValueError").
Proof.
  intros H. destruct (fermop_body t) as [r|e] eqn:E; [apply fermop_body_spec in E; tauto|]. f_equal.
  unfold fermop_body in E. cbv zeta in E. destruct (negb _) in E; [congruence|].
  assert (HE : forall half ys s e', foreach ys (fermop_step half) s = Throw e' -> e' = PyError "ValueError").
  { intros half. induction ys as [|y ys IH]; intros s e' HH; [discriminate|]. cbn [foreach] in HH. destruct (fermop_step half y s) as [s'|e2] eqn:ES.
    - cbn [bind] in HH. eapply IH, HH.
    - cbn [bind] in HH. destruct s as [[[i an] cr] l]. unfold fermop_step in ES. destruct (_ && _)%bool in ES; [congruence|]. destruct (_ && _)%bool in ES; congruence. }
  destruct (foreach _ _ _) as [s|e2] eqn:EF in E; cbn [bind] in E.
  - destruct s as [[[i an] cr] l]. destruct (negb _) in E; congruence.
  - apply HE in EF. congruence.
Qed.
Lemma fermop_spec f r : fermop_to_sq_excitation f = Ok r <-> Forall (fun t => accepted (fst t)) f /\ r = map (fun t => (map fst (fst t), snd t)) f.
Proof.
  change (fermop_to_sq_excitation f) with (mapM fermop_body f). revert r. induction f as [|t f IH]; intros r; cbn [mapM map].
  - split; [intros H; injection H as <-; auto|intros [_ ->]; reflexivity].
  - split.
    + intros H. destruct (fermop_body t) as [x|] eqn:E; [|discriminate]. cbn [bind] in H. destruct (mapM fermop_body f) as [r'|] eqn:E2; [|discriminate]. cbn [bind] in H. injection H as <-.
      apply fermop_body_spec in E. destruct E as [HA ->]. destruct (proj1 (IH r') eq_refl) as [HF ->]. split; [constructor; assumption|reflexivity].
    + intros [HF ->]. inversion HF; subst. rewrite (proj2 (fermop_body_spec t _) (conj H1 eq_refl)). cbn [bind].
      rewrite (proj2 (IH _) (conj H2 eq_refl)). reflexivity.
Qed.
