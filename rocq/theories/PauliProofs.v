(** Proofs about Pauli circuits: canonicalize_pauli_circuit (circuit.cc:107-169). *)
From Coq Require Import Reals String List Arith Lia Bool Lra Permutation.
From Verif Require Import CBase Result Bits Spec GateModel ComputerModel SafeProofs GateProofs LibProofs SimProofs InteractProofs CircuitModel SimplifyProofs SimplifyLoop CircuitProofs CompareProofs.
Import ListNotations.
Local Open Scope C_scope.
Local Open Scope string_scope.

(** -------- linearity -------- *)
Lemma act1_scale m t c psi : act1 m t (sscale c psi) == sscale c (act1 m t psi).
Proof. intros I; unfold act1, sscale; cbv zeta; ring. Qed.
Lemma act2_scale m t d c psi : act2 m t d (sscale c psi) == sscale c (act2 m t d psi).
Proof. intros I; unfold act2, sscale; cbv zeta; ring. Qed.
Lemma act1_add m t a b : act1 m t (sadd a b) == sadd (act1 m t a) (act1 m t b).
Proof. intros I; unfold act1, sadd; cbv zeta; ring. Qed.
Lemma act2_add m t d a b : act2 m t d (sadd a b) == sadd (act2 m t d a) (act2 m t d b).
Proof. intros I; unfold act2, sadd; cbv zeta; ring. Qed.
Lemma gate_act_scale g c psi : gate_act g (sscale c psi) == sscale c (gate_act g psi).
Proof. unfold gate_act; destruct (_ =? _)%nat; [apply act1_scale|apply act2_scale]. Qed.
Lemma gate_act_add g a b : gate_act g (sadd a b) == sadd (gate_act g a) (gate_act g b).
Proof. unfold gate_act; destruct (_ =? _)%nat; [apply act1_add|apply act2_add]. Qed.
Lemma gate_act_zero g : gate_act g szero == szero.
Proof. intros I. unfold gate_act, act1, act2, szero; cbv zeta; destruct (_ =? _)%nat; ring. Qed.
Lemma sscale_ext c a b : a == b -> sscale c a == sscale c b.
Proof. intros H I; unfold sscale; rewrite H; reflexivity. Qed.
Lemma sadd_ext a a' b b' : a == a' -> b == b' -> sadd a b == sadd a' b'.
Proof. intros H H' I; unfold sadd; rewrite H, H'; reflexivity. Qed.
Lemma sscale_sscale a b psi : sscale a (sscale b psi) == sscale (a * b) psi.
Proof. intros I; unfold sscale; ring. Qed.
Lemma sscale_1 psi : sscale C1 psi == psi.
Proof. intros I; unfold sscale; ring. Qed.
Lemma circ_act_scale gs : forall c psi, circ_act gs (sscale c psi) == sscale c (circ_act gs psi).
Proof.
  induction gs as [|g gs IH]; intros c psi; [apply seq_refl|]. rewrite !circ_act_cons.
  eapply seq_trans; [apply circ_act_ext, gate_act_scale|apply IH].
Qed.
Lemma circ_act_add gs : forall a b, circ_act gs (sadd a b) == sadd (circ_act gs a) (circ_act gs b).
Proof.
  induction gs as [|g gs IH]; intros a b; [apply seq_refl|]. rewrite !circ_act_cons.
  eapply seq_trans; [apply circ_act_ext, gate_act_add|apply IH].
Qed.
Lemma circ_act_zero gs : circ_act gs szero == szero.
Proof.
  induction gs as [|g gs IH]; [apply seq_refl|]. rewrite circ_act_cons.
  eapply seq_trans; [apply circ_act_ext, gate_act_zero|apply IH].
Qed.

(** -------- words: the same gates read as an operator product, last gate first -------- *)
Definition wact (gs : list gate) (psi : state) : state := fold_right gate_act psi gs.
Lemma wact_rev gs psi : wact gs psi = circ_act (rev gs) psi.
Proof. unfold wact, circ_act. rewrite <- fold_left_rev_right, rev_involutive. reflexivity. Qed.
Lemma wact_app a b psi : wact (a ++ b) psi = wact a (wact b psi).
Proof. unfold wact; apply fold_right_app. Qed.
Lemma wact_ext gs a b : a == b -> wact gs a == wact gs b.
Proof. rewrite !wact_rev; apply circ_act_ext. Qed.
Lemma wact_scale gs c psi : wact gs (sscale c psi) == sscale c (wact gs psi).
Proof. rewrite !wact_rev; apply circ_act_scale. Qed.
Lemma wact_add gs a b : wact gs (sadd a b) == sadd (wact gs a) (wact gs b).
Proof. rewrite !wact_rev; apply circ_act_add. Qed.

(** -------- Pauli gates -------- *)
Definition pact (s : string) (t : nat) (psi : state) : state :=
  if s =? "X" then act1 m_X t psi else if s =? "Y" then act1 m_Y t psi
  else if s =? "Z" then act1 m_Z t psi else psi.
(** what gate("X"/"Y"/"Z", t) builds *)
Definition pauli_gate (g : gate) : Prop :=
  is_pauli_label (glabel g) = true /\ make_gate (glabel g) (gtarget g) (gtarget g) 0 = Ok g.

Lemma pauli_label_cases l : is_pauli_label l = true -> l = "X" \/ l = "Y" \/ l = "Z".
Proof.
  unfold is_pauli_label. intros H. apply orb_prop in H. destruct H as [H|H].
  - apply orb_prop in H. destruct H as [H|H]; apply String.eqb_eq in H; auto.
  - apply String.eqb_eq in H; auto.
Qed.
Lemma pauli_act g psi : pauli_gate g -> gate_act g psi = pact (glabel g) (gtarget g) psi.
Proof.
  intros [HL HM]. destruct (pauli_label_cases _ HL) as [E|[E|E]]; rewrite E in HM; unfold make_gate in HM;
    rewrite Nat.eqb_refl in HM; cbn [String.eqb Ascii.eqb Bool.eqb] in HM; apply (f_equal (fun r => match r with Ok x => x | _ => g end)) in HM;
    rewrite <- HM; unfold gate_act, pact; cbn [gtarget gcontrol glabel gmat]; rewrite Nat.eqb_refl; reflexivity.
Qed.
Lemma pauli_make s t : is_pauli_label s = true -> exists g, make_gate s t t 0 = Ok g /\ pauli_gate g /\ glabel g = s /\ gtarget g = t /\ gcontrol g = t.
Proof.
  intros H. destruct (pauli_label_cases _ H) as [E|[E|E]]; subst s; unfold make_gate; rewrite Nat.eqb_refl;
    cbn [String.eqb Ascii.eqb Bool.eqb]; eexists; (split; [reflexivity|]); unfold pauli_gate; cbn [glabel gtarget gcontrol];
    (split; [split; [reflexivity|]|auto]); unfold make_gate; rewrite Nat.eqb_refl; reflexivity.
Qed.
Lemma pauli_gate_det g h : pauli_gate g -> pauli_gate h -> glabel g = glabel h -> gtarget g = gtarget h -> g = h.
Proof. intros [_ H1] [_ H2] E1 E2. rewrite <- E1, <- E2, H1 in H2. congruence. Qed.
Lemma pauli_gate_1q g : pauli_gate g -> gtarget g = gcontrol g.
Proof.
  intros [HL HM]. destruct (pauli_make _ (gtarget g) HL) as (g' & E & _ & _ & _ & E'). congruence.
Qed.
Lemma pauli_plain g : pauli_gate g -> library_gate g.
Proof. intros [HL HM]. exact (lib_make _ _ _ _ _ HM). Qed.

Lemma pact_ext s t a b : a == b -> pact s t a == pact s t b.
Proof. intros H. unfold pact. repeat (destruct (_ =? _)); try apply act1_ext; exact H. Qed.
Lemma pact_scale s t c psi : pact s t (sscale c psi) == sscale c (pact s t psi).
Proof. unfold pact. repeat (destruct (_ =? _)); try apply act1_scale; apply seq_refl. Qed.
Lemma pact_add s t a b : pact s t (sadd a b) == sadd (pact s t a) (pact s t b).
Proof. unfold pact. repeat (destruct (_ =? _)); try apply act1_add; apply seq_refl. Qed.
Lemma pact_comm s t r u psi : t <> u -> pact s t (pact r u psi) == pact r u (pact s t psi).
Proof. intros H. unfold pact. repeat (destruct (_ =? _)); try (apply act1_comm_diff; exact H); apply seq_refl. Qed.

(** one-qubit Pauli products as 2x2 matrices *)
Definition pm (s : string) : mat :=
  if s =? "X" then m_X else if s =? "Y" then m_Y else if s =? "Z" then m_Z else mid.
Lemma pact_pm s t psi : pact s t psi == act1 (pm s) t psi.
Proof. unfold pact, pm. repeat (destruct (_ =? _)); try apply seq_refl. apply seq_sym, act1_mid. Qed.
Definition mscale (c : C) (m : mat) : mat := fun i j => c * m i j.
Lemma act1_mscale c m t psi : act1 (mscale c m) t psi == sscale c (act1 m t psi).
Proof. intros I; unfold act1, mscale, sscale; cbv zeta; ring. Qed.
Lemma table_mat s h : is_pauli_label h = true -> is_pauli_label s = true \/ s = "I" ->
  meq 2 (mmul 2 (pm s) (pm h)) (mscale (fst (pauli_table s h)) (pm (snd (pauli_table s h)))) /\
  (is_pauli_label (snd (pauli_table s h)) = true \/ snd (pauli_table s h) = "I") /\
  Cnorm2 (fst (pauli_table s h)) = 1%R.
Proof.
  intros Hh Hs. assert (Hs' : s = "X" \/ s = "Y" \/ s = "Z" \/ s = "I")
    by (destruct Hs as [Hs|Hs]; [destruct (pauli_label_cases _ Hs) as [?|[?|?]]; auto|auto]).
  destruct (pauli_label_cases _ Hh) as [E|[E|E]]; destruct Hs' as [E'|[E'|[E'|E']]]; subst;
    (split; [intros i j Hi Hj; assert (Ei : (i = 0 \/ i = 1)%nat) by lia; assert (Ej : (j = 0 \/ j = 1)%nat) by lia; destruct Ei, Ej; subst;
      unfold pauli_table, pm, mmul, mscale, mid, m_X, m_Y, m_Z, mk44, Csum; cbn; csolve
     |split; [cbn; auto|unfold Cnorm2; cbn; ring]]).
Qed.
Lemma table_sound s h t psi : is_pauli_label h = true -> is_pauli_label s = true \/ s = "I" ->
  pact s t (pact h t psi) == sscale (fst (pauli_table s h)) (pact (snd (pauli_table s h)) t psi).
Proof.
  intros Hh Hs. destruct (table_mat s h Hh Hs) as [HM _].
  eapply seq_trans; [apply pact_pm|]. eapply seq_trans; [apply act1_ext, pact_pm|].
  eapply seq_trans; [apply act1_mmul|]. eapply seq_trans; [apply act1_meq, HM|].
  eapply seq_trans; [apply act1_mscale|]. apply sscale_ext, seq_sym, pact_pm.
Qed.

(** -------- stable sort by target -------- *)
Lemma insert_perm g l : Permutation (insert_by_target g l) (g :: l).
Proof.
  induction l as [|h r IH]; cbn [insert_by_target]; [constructor; constructor|].
  destruct (_ <? _)%nat; [|reflexivity]. rewrite IH. apply perm_swap.
Qed.
Lemma sort_perm l : Permutation (stable_sort_target l) l.
Proof. induction l as [|g r IH]; cbn; [constructor|]. rewrite insert_perm. constructor; exact IH. Qed.
Lemma insert_wact g l psi : pauli_gate g -> Forall pauli_gate l ->
  wact (insert_by_target g l) psi == gate_act g (wact l psi).
Proof.
  intros Hg. induction l as [|h r IH]; intros Hl; cbn [insert_by_target wact fold_right]; [apply seq_refl|].
  inversion Hl; subst. destruct (Nat.ltb_spec (gtarget h) (gtarget g)); [|apply seq_refl].
  cbn [fold_right]. eapply seq_trans; [apply gate_act_ext, IH; assumption|].
  rewrite !(pauli_act h), !(pauli_act g) by assumption. apply pact_comm; lia.
Qed.
Lemma Forall_perm {A} (P : A -> Prop) l l' : Permutation l l' -> Forall P l -> Forall P l'.
Proof. intros H. rewrite !Forall_forall. intros HF x Hx. apply HF. eapply Permutation_in; [symmetry; exact H|exact Hx]. Qed.
Lemma sort_wact l psi : Forall pauli_gate l -> wact (stable_sort_target l) psi == wact l psi.
Proof.
  induction l as [|g r IH]; intros Hl; cbn [stable_sort_target fold_right wact]; [apply seq_refl|]. inversion Hl; subst.
  eapply seq_trans; [apply insert_wact; [assumption|]|apply gate_act_ext, IH; assumption].
  eapply Forall_perm; [symmetry; apply sort_perm|assumption].
Qed.
Fixpoint nondec (l : list gate) : Prop :=
  match l with
  | [] => True
  | g :: r => (forall h, In h r -> (gtarget g <= gtarget h)%nat) /\ nondec r
  end.
Lemma insert_nondec g l : nondec l -> nondec (insert_by_target g l).
Proof.
  induction l as [|h r IH]; intros H; cbn [insert_by_target nondec].
  - split; [intros ? []|exact I].
  - destruct H as [H1 H2]. destruct (Nat.ltb_spec (gtarget h) (gtarget g)); cbn [nondec].
    + split; [|exact (IH H2)]. intros k Hk. apply (Permutation_in _ (insert_perm g r)) in Hk. destruct Hk; [subst; lia|auto].
    + split; [|split; assumption]. intros k [Hk|Hk]; [subst; lia|]. specialize (H1 k Hk). lia.
Qed.
Lemma sort_nondec l : nondec (stable_sort_target l).
Proof. induction l; cbn; [exact I|apply insert_nondec; assumption]. Qed.

(** strictly increasing targets *)
Fixpoint increasing (l : list nat) : Prop :=
  match l with [] => True | x :: r => (forall y, In y r -> (x < y)%nat) /\ increasing r end.
Lemma increasing_snoc l x : increasing l -> (forall y, In y l -> (y < x)%nat) -> increasing (l ++ [x]).
Proof.
  induction l as [|y r IH]; cbn [increasing app]; intros H Hx; [split; [intros ? []|exact I]|].
  destruct H as [H1 H2]. split; [|apply IH; [assumption|intros; apply Hx; right; assumption]].
  intros z Hz. apply in_app_or in Hz. destruct Hz as [Hz|[Hz|[]]]; [auto|]. subst. apply Hx; left; reflexivity.
Qed.

Definition canonical_pauli (gs : list gate) : Prop := Forall pauli_gate gs /\ increasing (map gtarget gs).

Lemma canon_loop_spec l : forall first s c out,
  Forall pauli_gate l -> nondec l -> canonical_pauli out ->
  (first = false -> is_pauli_label s = true \/ s = "I") -> (first = false -> l <> []) ->
  (forall g, In g l -> forall o, In o out -> (gtarget o < gtarget g)%nat) ->
  exists c' out', canon_loop first s c out l = Ok (c', out') /\ canonical_pauli out' /\
    (Cnorm2 c' = Cnorm2 c)%R /\
    (forall t, In t (map gtarget out') -> In t (map gtarget out) \/ In t (map gtarget l)) /\
    forall psi, match l with
      | [] => wact out (sscale c psi) == sscale c' (wact out' psi)
      | g :: r => wact out (sscale c (pact (if first then glabel g else s) (gtarget g) (wact r psi))) == sscale c' (wact out' psi)
      end.
Proof.
  induction l as [|g r IH]; intros first s c out Hl Hn Ho Hs Hne Hlt.
  - exists c, out. cbn. split; [reflexivity|]. split; [exact Ho|]. split; [reflexivity|]. split; [auto|]. intros psi; apply wact_scale.
  - inversion Hl as [|? ? Hg Hr]; subst. destruct Hn as [Hn1 Hn2].
    set (s1 := if first then glabel g else s).
    assert (Hs1 : is_pauli_label s1 = true \/ s1 = "I") by (unfold s1; destruct first; [left; apply Hg|auto]).
    assert (Hfin : (forall h, In h r -> (gtarget g < gtarget h)%nat) ->
      exists c' out', (do out' <- (if s1 =? "I" then Ok out
                    else do p <- make_gate s1 (gtarget g) (gtarget g) 0; Ok (out ++ [p])%list);
        canon_loop true s1 c out' r) = Ok (c', out') /\ canonical_pauli out' /\ (Cnorm2 c' = Cnorm2 c)%R /\
        (forall t, In t (map gtarget out') -> In t (map gtarget out) \/ In t (map gtarget (g :: r))) /\
        forall psi, wact out (sscale c (pact s1 (gtarget g) (wact r psi))) == sscale c' (wact out' psi)).
    { intros Hgt. destruct (String.eqb_spec s1 "I") as [EI|NI].
      - cbn [bind]. destruct (IH true s1 c out Hr Hn2 Ho) as (c' & out' & E & HC & HN & HT & HA); [discriminate|discriminate| |].
        { intros h Hh o Hoo. apply (Hlt h (or_intror Hh) o Hoo). }
        exists c', out'. split; [exact E|]. split; [exact HC|]. split; [exact HN|]. split.
        { intros t Ht. destruct (HT t Ht); [auto|right; right; assumption]. }
        intros psi. specialize (HA psi). eapply seq_trans; [|].
        { apply wact_ext, sscale_ext. rewrite EI. unfold pact. cbn. apply seq_refl. }
        destruct r as [|h r']; [exact HA|]. inversion Hr; subst. cbn [wact fold_right].
        rewrite (pauli_act h) by assumption. exact HA.
      - assert (HP : is_pauli_label s1 = true) by (destruct Hs1; [assumption|contradiction]).
        destruct (pauli_make s1 (gtarget g) HP) as (p & EP & HPG & EL & ET & _). rewrite EP. cbn [bind].
        destruct (IH true s1 c (out ++ [p])%list Hr Hn2) as (c' & out' & E & HC & HN & HT & HA); [|discriminate|discriminate| |].
        { destruct Ho as [Ho1 Ho2]. split.
          - apply Forall_app; split; [assumption|constructor; [assumption|constructor]].
          - rewrite map_app. cbn [map]. apply increasing_snoc; [assumption|]. intros y Hy. apply in_map_iff in Hy.
            destruct Hy as (o & <- & Hoo). rewrite ET. apply (Hlt g (or_introl eq_refl) o Hoo). }
        { intros h Hh o Hoo. apply in_app_or in Hoo. destruct Hoo as [Hoo|[<-|[]]]; [apply (Hlt h (or_intror Hh) o Hoo)|].
          rewrite ET. auto. }
        exists c', out'. split; [exact E|]. split; [exact HC|]. split; [exact HN|]. split.
        { intros t Ht. destruct (HT t Ht) as [Ht'|Ht']; [|right; right; assumption]. rewrite map_app in Ht'.
          apply in_app_or in Ht'. destruct Ht' as [Ht'|[<-|[]]]; [auto|]. right; left; symmetry; exact ET. }
        intros psi. specialize (HA psi).
        assert (HX : wact out (sscale c (pact s1 (gtarget g) (wact r psi))) == wact (out ++ [p]) (sscale c (wact r psi))).
        { rewrite wact_app. apply wact_ext. cbn [wact fold_right]. rewrite pauli_act by assumption. rewrite EL, ET.
          apply seq_sym, pact_scale. }
        eapply seq_trans; [exact HX|]. destruct r as [|h r']; [exact HA|]. inversion Hr; subst. cbn [wact fold_right].
        rewrite (pauli_act h) by assumption. exact HA. }
    cbn [canon_loop]. fold s1. destruct r as [|h r'].
    { apply Hfin. intros ? []. }
    destruct (Nat.eqb_spec (gtarget g) (gtarget h)) as [Et|Nt].
    + inversion Hr as [|? ? Hh Hr']; subst.
      destruct (table_mat s1 (glabel h) (proj1 Hh) Hs1) as (_ & HS & HN1).
      pose proof (table_sound s1 (glabel h) (gtarget g)) as HTS.
      destruct (pauli_table s1 (glabel h)) as [d s'] eqn:ETB. cbn [fst snd] in *.
      destruct (IH false s' (c * d) out Hr Hn2 Ho) as (c' & out' & E & HC & HN & HT & HA); [auto|discriminate| |].
      { intros k Hk o Hoo. apply (Hlt k (or_intror Hk) o Hoo). }
      exists c', out'. split; [exact E|]. split; [exact HC|]. split; [rewrite HN, Cnorm2_mul, HN1; ring|]. split.
      { intros t Ht. destruct (HT t Ht); [auto|right; right; assumption]. }
      intros psi. eapply seq_trans; [|apply HA]. cbn [wact fold_right]. rewrite (pauli_act h) by assumption.
      apply wact_ext. eapply seq_trans; [apply sscale_ext|apply sscale_sscale].
      rewrite <- Et. apply HTS; [apply Hh|exact Hs1].
    + apply Hfin. intros k [<-|Hk].
      * specialize (Hn1 h (or_introl eq_refl)). lia.
      * destruct Hn2 as [Hn2 _]. specialize (Hn2 k Hk). specialize (Hn1 h (or_introl eq_refl)). lia.
Qed.

Lemma is_pauli_forall gs : is_pauli gs = true <-> Forall (fun g => is_pauli_label (glabel g) = true) gs.
Proof. unfold is_pauli. rewrite forallb_forall, Forall_forall. reflexivity. Qed.
Lemma pauli_is_pauli gs : Forall pauli_gate gs -> is_pauli gs = true.
Proof. intros H. apply is_pauli_forall. eapply Forall_impl; [|exact H]. intros g [Hg _]; exact Hg. Qed.

(** main fact: prefactor * new word = old word (operator product, left to right) *)
Lemma canon_word gs : Forall pauli_gate gs ->
  exists c gs', canonicalize_pauli_circuit gs = Ok (c, gs') /\ canonical_pauli gs' /\ (Cnorm2 c = 1)%R /\
    (forall t, In t (map gtarget gs') -> In t (map gtarget gs)) /\
    forall psi, wact gs psi == sscale c (wact gs' psi).
Proof.
  intros H. destruct gs as [|g r].
  { exists C1, []. split; [reflexivity|]. split; [split; constructor|]. split; [unfold Cnorm2; cbn; ring|]. split; [auto|].
    intros psi; apply seq_sym, sscale_1. }
  unfold canonicalize_pauli_circuit. rewrite (pauli_is_pauli _ H). cbn [negb].
  set (gs := g :: r) in *.
  assert (HF : Forall pauli_gate (stable_sort_target gs)) by (eapply Forall_perm; [symmetry; apply sort_perm|exact H]).
  destruct (canon_loop_spec (stable_sort_target gs) true "" C1 [] HF (sort_nondec gs)) as (c & gs' & E & HC & HN & HT & HA);
    [split; constructor|discriminate|discriminate|intros ? ? ? []|].
  exists c, gs'. split; [exact E|]. split; [exact HC|]. split; [rewrite HN; unfold Cnorm2; cbn; ring|]. split.
  { intros t Ht. destruct (HT t Ht) as [[]|Ht']. apply (Permutation_in _ (Permutation_map gtarget (sort_perm gs))). exact Ht'. }
  intros psi. eapply seq_trans; [apply seq_sym, sort_wact, H|]. specialize (HA psi).
  destruct (stable_sort_target gs) as [|h l] eqn:ES.
  - cbn [wact fold_right] in *. eapply seq_trans; [apply seq_sym, sscale_1|exact HA].
  - inversion HF; subst. cbn [wact fold_right] in *. rewrite (pauli_act h) by assumption.
    eapply seq_trans; [apply seq_sym, sscale_1|exact HA].
Qed.

(** reversing a word: circ_act and wact agree on distinct targets *)
Lemma wact_cons g gs psi : wact (g :: gs) psi = gate_act g (wact gs psi).
Proof. reflexivity. Qed.
Lemma gate_act_wact_comm g gs psi : pauli_gate g -> Forall pauli_gate gs ->
  ~ In (gtarget g) (map gtarget gs) -> gate_act g (wact gs psi) == wact gs (gate_act g psi).
Proof.
  intros Hg. induction gs as [|h r IH]; intros Hl Hn; [apply seq_refl|]. inversion Hl; subst.
  rewrite !wact_cons. cbn [map In] in Hn.
  eapply seq_trans; [|apply gate_act_ext, IH; [assumption|intros HI; apply Hn; right; exact HI]].
  rewrite !(pauli_act h), !(pauli_act g) by assumption. apply pact_comm. intros E; apply Hn; left; congruence.
Qed.
Lemma wact_circ gs : Forall pauli_gate gs -> NoDup (map gtarget gs) -> forall psi, wact gs psi == circ_act gs psi.
Proof.
  induction gs as [|g r IH]; intros Hl Hn psi; [apply seq_refl|]. inversion Hl; subst. cbn [map] in Hn. inversion Hn; subst.
  rewrite wact_cons, circ_act_cons. eapply seq_trans; [apply gate_act_wact_comm; assumption|]. apply IH; assumption.
Qed.
Lemma increasing_nodup l : increasing l -> NoDup l.
Proof.
  induction l as [|x r IH]; intros H; constructor; destruct H as [H1 H2]; [|auto].
  intros HI. specialize (H1 x HI). lia.
Qed.
Lemma canonical_circ gs psi : canonical_pauli gs -> wact gs psi == circ_act gs psi.
Proof. intros [H1 H2]. apply wact_circ; [assumption|apply increasing_nodup; assumption]. Qed.

(** reversal of a Pauli word is its adjoint: undoes it *)
Lemma pact_invol s t psi : pact s t (pact s t psi) == psi.
Proof.
  eapply seq_trans; [apply pact_pm|]. eapply seq_trans; [apply act1_ext, pact_pm|].
  eapply seq_trans; [apply act1_mmul|]. eapply seq_trans; [apply act1_meq|apply act1_mid].
  intros i j Hi Hj. unfold pm. repeat (destruct (_ =? _));
    assert (Ei : (i = 0 \/ i = 1)%nat) by lia; assert (Ej : (j = 0 \/ j = 1)%nat) by lia; destruct Ei, Ej; subst;
      unfold mmul, mid, m_X, m_Y, m_Z, mk44, Csum; cbn; csolve.
Qed.
Lemma circ_wact_inv gs : Forall pauli_gate gs -> forall psi, circ_act gs (wact gs psi) == psi.
Proof.
  induction gs as [|g r IH]; intros Hl psi; [apply seq_refl|]. inversion Hl; subst.
  rewrite wact_cons, circ_act_cons. eapply seq_trans; [apply circ_act_ext|apply IH; assumption].
  rewrite !(pauli_act g) by assumption. apply pact_invol.
Qed.
Lemma wact_circ_inv gs : Forall pauli_gate gs -> forall psi, wact gs (circ_act gs psi) == psi.
Proof.
  induction gs as [|g r IH]; intros Hl psi; [apply seq_refl|]. inversion Hl; subst.
  rewrite wact_cons, circ_act_cons. eapply seq_trans; [apply gate_act_ext, IH; assumption|].
  rewrite !(pauli_act g) by assumption. apply pact_invol.
Qed.

(** the returned prefactor is the complex conjugate of the one the circuit needs *)
Lemma canon_circuit gs : Forall pauli_gate gs ->
  exists c gs', canonicalize_pauli_circuit gs = Ok (c, gs') /\ canonical_pauli gs' /\ (Cnorm2 c = 1)%R /\
    (forall t, In t (map gtarget gs') -> In t (map gtarget gs)) /\
    forall psi, circ_act gs psi == sscale (Cconj c) (circ_act gs' psi).
Proof.
  intros H. destruct (canon_word gs H) as (c & gs' & E & HC & HN & HT & HW). exists c, gs'.
  do 4 (split; [assumption|]). intros psi.
  (* psi = wact gs (circ_act gs psi) = c wact gs' (circ gs psi); apply circ_act gs' *)
  assert (HP : circ_act gs' psi == sscale c (circ_act gs psi)).
  { eapply seq_trans; [apply circ_act_ext, seq_sym, (wact_circ_inv gs H)|].
    eapply seq_trans; [apply circ_act_ext, HW|]. eapply seq_trans; [apply circ_act_scale|]. apply sscale_ext.
    apply circ_wact_inv, HC. }
  eapply seq_trans; [|apply sscale_ext, seq_sym, HP]. eapply seq_trans; [|apply seq_sym, sscale_sscale].
  rewrite Cmul_conj, HN. apply seq_sym, sscale_1.
Qed.
Lemma canon_throws gs : gs <> [] -> is_pauli gs = false -> canonicalize_pauli_circuit gs = Throw RuntimeErr.
Proof. intros H E. unfold canonicalize_pauli_circuit. destruct gs; [contradiction|]. rewrite E. reflexivity. Qed.

(** distinct targets: prefactor 1 *)
Lemma canon_loop_distinct l : forall s c out, NoDup (map gtarget l) -> Forall pauli_gate l ->
  canon_loop true s c out l = Ok (c, (out ++ l)%list).
Proof.
  induction l as [|g r IH]; intros s c out Hn Hl; cbn [canon_loop]; [rewrite app_nil_r; reflexivity|].
  inversion Hl as [|? ? Hg Hr]; subst. cbn [map] in Hn. inversion Hn as [|? ? Hn1 Hn2]; subst.
  assert (HF : (do out' <- (if glabel g =? "I" then Ok out
                    else do p <- make_gate (glabel g) (gtarget g) (gtarget g) 0; Ok (out ++ [p])%list);
        canon_loop true (glabel g) c out' r) = Ok (c, (out ++ g :: r)%list)).
  { destruct (String.eqb_spec (glabel g) "I") as [E|N].
    - destruct Hg as [Hg _]. rewrite E in Hg. discriminate Hg.
    - rewrite (proj2 Hg). cbn [bind]. rewrite IH by assumption. rewrite <- app_assoc. reflexivity. }
  destruct r as [|h r']; [exact HF|]. destruct (Nat.eqb_spec (gtarget g) (gtarget h)) as [E|N]; [|exact HF].
  exfalso. apply Hn1. rewrite E. left; reflexivity.
Qed.
Lemma insert_ge g l : (forall h, In h l -> (gtarget g <= gtarget h)%nat) -> insert_by_target g l = g :: l.
Proof.
  destruct l as [|h r]; intros H; cbn [insert_by_target]; [reflexivity|]. destruct (Nat.ltb_spec (gtarget h) (gtarget g)); [|reflexivity].
  specialize (H h (or_introl eq_refl)). lia.
Qed.
Lemma sort_increasing l : increasing (map gtarget l) -> stable_sort_target l = l.
Proof.
  induction l as [|g r IH]; intros H; [reflexivity|]. destruct H as [H1 H2].
  change (insert_by_target g (stable_sort_target r) = g :: r). rewrite (IH H2). apply insert_ge.
  intros h Hh. apply Nat.lt_le_incl, H1, in_map, Hh.
Qed.
Lemma canon_distinct gs : Forall pauli_gate gs -> NoDup (map gtarget gs) ->
  canonicalize_pauli_circuit gs = Ok (C1, stable_sort_target gs).
Proof.
  intros H Hn. destruct gs as [|g r]; [reflexivity|]. unfold canonicalize_pauli_circuit. rewrite (pauli_is_pauli _ H). cbn [negb].
  rewrite canon_loop_distinct; [reflexivity| |eapply Forall_perm; [symmetry; apply sort_perm|exact H]].
  eapply Permutation_NoDup; [apply Permutation_map; symmetry; apply sort_perm|exact Hn].
Qed.
(** canonical circuits are fixed points *)
Lemma canon_fixed gs : canonical_pauli gs -> canonicalize_pauli_circuit gs = Ok (C1, gs).
Proof.
  intros [H1 H2]. rewrite canon_distinct; [|exact H1|apply increasing_nodup, H2]. rewrite sort_increasing by exact H2. reflexivity.
Qed.
