(** Distinct Pauli strings are linearly independent. *)
From Coq Require Import Reals String List Arith Lia Bool Lra Permutation Sorted.
From Verif Require Import CBase Result Bits Spec OpSpec GateModel ComputerModel SafeProofs CircuitModel PauliProofs OperatorModel OperatorProofs OrderProofs PauliIdx CompareProofs.
Import ListNotations.
Local Open Scope C_scope.

Definition letters (gs : list gate) : list (nat * string) := map (fun g => (gtarget g, glabel g)) gs.
Lemma letters_inj a : forall b, Forall pauli_gate a -> Forall pauli_gate b -> letters a = letters b -> a = b.
Proof.
  induction a as [|g a IH]; intros [|h b] Ha Hb E; try discriminate; [reflexivity|]. unfold letters in E; cbn [map] in E. injection E as E1 E2 E3.
  f_equal; [apply pauli_gate_det; [exact (Forall_inv Ha)|exact (Forall_inv Hb)|exact E2|exact E1]|]. apply IH; [exact (Forall_inv_tail Ha)|exact (Forall_inv_tail Hb)|exact E3].
Qed.
Definition ldec (a b : list (nat * string)) : {a = b} + {a <> b}.
Proof. apply list_eq_dec. intros [x s] [y r]. destruct (Nat.eq_dec x y), (string_dec s r); subst; [left; reflexivity|right..]; congruence. Defined.
(** coefficient of a string in an operator *)
Definition coef (o : qop) (w : list (nat * string)) : C := Csum (fun t => if ldec (letters (snd t)) w then fst t else C0) o.

(** does the one-qubit Pauli [a] on qubit [t] anticommute with the string? *)
Definition anti (a : string) (t : nat) (gs : list gate) : bool := existsb (fun g => Nat.eqb (gtarget g) t && negb (String.eqb (glabel g) a)) gs.
Lemma pact_anti a s t psi : is_pauli_label a = true -> is_pauli_label s = true -> s <> a ->
  pact s t (pact a t psi) == sscale (- C1) (pact a t (pact s t psi)).
Proof.
  intros Ha Hs Hn I. unfold sscale. rewrite !pact_idx by assumption. unfold pidx, pph.
  destruct (pauli_label_cases a Ha) as [-> | [-> | ->]], (pauli_label_cases s Hs) as [-> | [-> | ->]]; try congruence;
    cbn [String.eqb Ascii.eqb Bool.eqb orb]; rewrite ?bit_flip, ?Nat.eqb_refl, ?flip_flip; destruct (bit I t); cbn [negb]; 
    try ring; try (set (x := psi _); destruct x; csolve).
Qed.
Lemma gate_anti A g psi : pauli_gate A -> pauli_gate g ->
  gate_act g (gate_act A psi) == sscale (if Nat.eqb (gtarget g) (gtarget A) && negb (String.eqb (glabel g) (glabel A)) then - C1 else C1) (gate_act A (gate_act g psi)).
Proof.
  intros HA Hg. rewrite !(pauli_act A) by exact HA. rewrite !(pauli_act g) by exact Hg. destruct (Nat.eqb_spec (gtarget g) (gtarget A)) as [E|N]; cbn [andb].
  - rewrite E. destruct (String.eqb_spec (glabel g) (glabel A)) as [EL|NL]; cbn [negb].
    + rewrite EL. apply seq_sym, sscale_1.
    + apply pact_anti; [apply HA|apply Hg|exact NL].
  - eapply seq_trans; [apply pact_comm, N|]. apply seq_sym, sscale_1.
Qed.
Lemma anti_notin a t gs : ~ In t (map gtarget gs) -> anti a t gs = false.
Proof.
  intros H. unfold anti. induction gs as [|g gs IH]; [reflexivity|]. cbn [existsb map In] in *. destruct (Nat.eqb_spec (gtarget g) t); [tauto|]. cbn [andb orb]. apply IH. tauto.
Qed.
Lemma string_anti A gs : pauli_gate A -> Forall pauli_gate gs -> NoDup (map gtarget gs) -> forall psi,
  circ_act gs (gate_act A psi) == sscale (if anti (glabel A) (gtarget A) gs then - C1 else C1) (gate_act A (circ_act gs psi)).
Proof.
  intros HA. induction gs as [|g gs IH]; intros HP HN psi.
  - cbn. apply seq_sym, sscale_1.
  - cbn [map] in HN. inversion HN; subst. rewrite !circ_act_cons. eapply seq_trans; [apply circ_act_ext, (gate_anti A g psi HA (Forall_inv HP))|].
    eapply seq_trans; [apply circ_act_scale|]. eapply seq_trans; [apply sscale_ext, IH; [exact (Forall_inv_tail HP)|assumption]|].
    eapply seq_trans; [apply sscale_sscale|]. cbn [anti existsb]. fold (anti (glabel A) (gtarget A) gs).
    destruct (Nat.eqb_spec (gtarget g) (gtarget A)) as [E|N]; cbn [andb orb].
    + rewrite (anti_notin (glabel A) (gtarget A) gs) by (rewrite <- E; assumption). rewrite orb_false_r, Cmul_1_r. apply seq_refl.
    + rewrite Cmul_1_l. apply seq_refl.
Qed.
(** two different canonical strings are told apart by some one-qubit Pauli *)
Lemma anti_head a t g gs : increasing (map gtarget (g :: gs)) -> (t <= gtarget g)%nat ->
  anti a t (g :: gs) = Nat.eqb (gtarget g) t && negb (String.eqb (glabel g) a).
Proof.
  intros [H1 _] Ht. cbn [anti existsb]. fold (anti a t gs). rewrite (anti_notin a t gs), orb_false_r; [reflexivity|].
  intros HI. specialize (H1 t HI). lia.
Qed.
Definition letter_at (s : string) (u : nat) (gs : list gate) : bool := existsb (fun g => Nat.eqb (gtarget g) u && String.eqb (glabel g) s) gs.
Lemma separate : forall p q, canonical_pauli p -> canonical_pauli q -> p <> q ->
  exists A, pauli_gate A /\ anti (glabel A) (gtarget A) p <> anti (glabel A) (gtarget A) q.
Proof.
  assert (Hbase : forall g q, pauli_gate g -> ~ In (gtarget g) (map gtarget q) -> forall r, increasing (map gtarget (g :: r)) -> exists A, pauli_gate A /\
     anti (glabel A) (gtarget A) (g :: r) <> anti (glabel A) (gtarget A) q).
  { intros g q Hg Hq r Hr. destruct (string_dec (glabel g) "X") as [E|N].
    - exists (gZ (gtarget g)). split; [apply gZ_pauli|]. cbn [glabel gtarget gZ]. rewrite (anti_notin _ _ q Hq), (anti_head _ _ _ _ Hr (le_n _)), Nat.eqb_refl, E. cbn; discriminate.
    - exists (gX (gtarget g)). split; [apply gX_pauli|]. cbn [glabel gtarget gX]. rewrite (anti_notin _ _ q Hq), (anti_head _ _ _ _ Hr (le_n _)), Nat.eqb_refl.
      destruct (String.eqb_spec (glabel g) "X"); [contradiction|]. cbn; discriminate. }
  assert (Hsym : forall p q, (exists A, pauli_gate A /\ anti (glabel A) (gtarget A) q <> anti (glabel A) (gtarget A) p) ->
     exists A, pauli_gate A /\ anti (glabel A) (gtarget A) p <> anti (glabel A) (gtarget A) q).
  { intros p q (A & HA & HN). exists A. auto. }
  induction p as [|g p IH]; intros q [HP1 HP2] [HQ1 HQ2] HN.
  - destruct q as [|h q]; [congruence|]. apply Hsym. apply Hbase; [exact (Forall_inv HQ1)|intros []|exact HQ2].
  - destruct q as [|h q]; [apply Hbase; [exact (Forall_inv HP1)|intros []|exact HP2]|].
    destruct (lt_eq_lt_dec (gtarget g) (gtarget h)) as [[HL|HE]|HG].
    + apply Hbase; [exact (Forall_inv HP1)| |exact HP2]. intros [E|HI]; [lia|]. destruct HQ2 as [HQ2 _]. specialize (HQ2 _ HI). lia.
    + destruct (string_dec (glabel g) (glabel h)) as [EL|NL].
      * assert (g = h) by (apply pauli_gate_det; [exact (Forall_inv HP1)|exact (Forall_inv HQ1)|exact EL|exact HE]). subst h.
        destruct (IH q) as (A & HA & HX).
        -- split; [exact (Forall_inv_tail HP1)|apply HP2].
        -- split; [exact (Forall_inv_tail HQ1)|apply HQ2].
        -- intros E. apply HN. rewrite E. reflexivity.
        -- exists A. split; [exact HA|]. cbn [anti existsb]. fold (anti (glabel A) (gtarget A) p). fold (anti (glabel A) (gtarget A) q).
           destruct (Nat.eqb_spec (gtarget g) (gtarget A)) as [Et|Nt]; [|cbn [andb orb]; exact HX]. exfalso. apply HX.
           rewrite !anti_notin; [reflexivity|..].
           ++ destruct HQ2 as [H _]. intros HI. specialize (H _ HI). lia.
           ++ destruct HP2 as [H _]. intros HI. specialize (H _ HI). lia.
      * assert (HA : forall a, anti a (gtarget g) (g :: p) = negb (String.eqb (glabel g) a) /\ anti a (gtarget g) (h :: q) = negb (String.eqb (glabel h) a)).
        { intros a. rewrite (anti_head a (gtarget g) g p HP2 (le_n _)), (anti_head a (gtarget g) h q HQ2) by lia. rewrite <- HE, Nat.eqb_refl. auto. }
        destruct (pauli_make (glabel g) (gtarget g) (proj1 (Forall_inv HP1))) as (A & _ & HAp & EL & Et & _).
        exists A. split; [exact HAp|]. rewrite EL, Et. rewrite (proj1 (HA _)), (proj2 (HA _)), String.eqb_refl.
        destruct (String.eqb_spec (glabel h) (glabel g)); [congruence|discriminate].
    + apply Hsym. apply Hbase; [exact (Forall_inv HQ1)| |exact HQ2]. intros [E|HI]; [lia|]. destruct HP2 as [HP2 _]. specialize (HP2 _ HI). lia.
Qed.

Definition vanishes (o : qop) : Prop := forall psi, op_act o psi == szero.
Lemma op_act_perm a b psi : Permutation a b -> op_act a psi == op_act b psi.
Proof. intros H I. unfold op_act. apply Csum_perm, H. Qed.
Lemma gate_op_act A o psi : gate_act A (op_act o psi) == fun I => Csum (fun t => fst t * gate_act A (circ_act (snd t) psi) I) o.
Proof.
  induction o as [|t o IH].
  - eapply seq_trans; [|apply (gate_act_zero A)]. apply gate_act_ext. intros I; reflexivity.
  - eapply seq_trans with (gate_act A (sadd (sscale (fst t) (circ_act (snd t) psi)) (op_act o psi))).
    + apply gate_act_ext. intros I. reflexivity.
    + intros I. rewrite (gate_act_add A _ _ I). unfold sadd. rewrite (gate_act_scale A _ _ I), (IH I), Csum_cons. reflexivity.
Qed.
(** sub-operators that (anti)commute with A vanish separately *)
Lemma split_vanishes A o : pauli_gate A -> canonical_op o -> vanishes o ->
  vanishes (filter (fun t => anti (glabel A) (gtarget A) (snd t)) o) /\ vanishes (filter (fun t => negb (anti (glabel A) (gtarget A) (snd t))) o).
Proof.
  intros HA HC HV. set (f := fun t : C * list gate => anti (glabel A) (gtarget A) (snd t)).
  change (vanishes (filter f o) /\ vanishes (filter (fun t => negb (f t)) o)).
  assert (HPM : forall psi I, op_act (filter f o) psi I + op_act (filter (fun t => negb (f t)) o) psi I = C0).
  { intros psi I. transitivity (op_act o psi I); [|exact (HV psi I)]. clear. unfold op_act. induction o as [|t o IH]; cbn [filter]; [cbn; ring|]. destruct (f t); cbn [negb]; rewrite !Csum_cons, <- IH; ring. }
  assert (HMM : forall psi I, - op_act (filter f o) psi I + op_act (filter (fun t => negb (f t)) o) psi I = C0).
  { intros psi I.
    (* O A psi' with psi' = A psi gives A O' psi = 0 with O' the sign-changed operator *)
    assert (HO : gate_act A (op_act o (gate_act A psi)) I = C0).
    { rewrite (gate_act_ext A _ szero (HV _) I). exact (gate_act_zero A I). }
    rewrite (gate_op_act A o (gate_act A psi) I) in HO. etransitivity; [|exact HO]. clear HO HV HPM. unfold op_act.
    induction o as [|t o IH]; cbn [filter]; [cbn; ring|]. inversion HC as [|? ? H1 H2]; subst. specialize (IH H2). rewrite Csum_cons, <- IH.
    assert (HG : gate_act A (circ_act (snd t) (gate_act A psi)) I = (if f t then - C1 else C1) * circ_act (snd t) psi I).
    { rewrite (gate_act_ext A _ _ (string_anti A (snd t) HA (proj1 H1) (increasing_nodup _ (proj2 H1)) psi) I). rewrite (gate_act_scale A _ _ I). unfold sscale.
      fold (f t). f_equal. rewrite !(pauli_act A) by exact HA. apply pact_invol. }
    rewrite HG. destruct (f t); cbn [negb]; rewrite ?Csum_cons; ring. }
  split; intros psi I; specialize (HPM psi I); specialize (HMM psi I); unfold szero.
  - destruct (op_act (filter f o) psi I) as [x y], (op_act (filter (fun t => negb (f t)) o) psi I) as [z w].
    apply (f_equal Re) in HPM as P1; apply (f_equal Im) in HPM as P2; apply (f_equal Re) in HMM as P3; apply (f_equal Im) in HMM as P4. cbn in *. apply C_ext; cbn; lra.
  - destruct (op_act (filter f o) psi I) as [x y], (op_act (filter (fun t => negb (f t)) o) psi I) as [z w].
    apply (f_equal Re) in HPM as P1; apply (f_equal Im) in HPM as P2; apply (f_equal Re) in HMM as P3; apply (f_equal Im) in HMM as P4. cbn in *. apply C_ext; cbn; lra.
Qed.
Lemma filter_shorter {A} (f : A -> bool) l x : In x l -> f x = false -> (length (filter f l) < length l)%nat.
Proof.
  induction l as [|y l IH]; intros HI Hf; [destruct HI|]. assert (HL : forall l, (length (filter f l) <= length l)%nat).
  { clear. induction l as [|z l IH]; cbn; [lia|]. destruct (f z); cbn; lia. }
  cbn [filter]. destruct HI as [->|HI]; [rewrite Hf; cbn; specialize (HL l); lia|]. specialize (IH HI Hf). destruct (f y); cbn; lia.
Qed.
Lemma coef_filter f o w : coef o w = coef (filter f o) w + coef (filter (fun t => negb (f t)) o) w.
Proof. unfold coef. induction o as [|t o IH]; cbn [filter]; [cbn; ring|]. rewrite Csum_cons, IH. destruct (f t); cbn [negb]; rewrite Csum_cons; ring. Qed.
Lemma pauli_indep_n : forall n o, (length o <= n)%nat -> canonical_op o -> vanishes o -> forall w, coef o w = C0.
Proof.
  induction n as [|n IH]; intros o Hn HC HV w.
  - destruct o; [reflexivity|cbn in Hn; lia].
  - destruct o as [|t o]; [reflexivity|].
    destruct (Forall_Exists_dec (fun t' => letters (snd t') = letters (snd t)) (fun t' => ldec _ _) o) as [HA|HE].
    + (* all strings equal *)
      assert (HS : forall psi I, op_act (t :: o) psi I = Csum fst (t :: o) * circ_act (snd t) psi I).
      { intros psi I. unfold op_act. rewrite <- Csum_mul_r. apply Csum_ext. intros t' Ht'. f_equal. f_equal. destruct Ht' as [->|Ht']; [reflexivity|].
        rewrite Forall_forall in HA. unfold canonical_op in HC. rewrite Forall_forall in HC. apply (letters_inj (snd t')); [apply (HC t' (or_intror Ht'))|apply (HC t (or_introl eq_refl))|exact (HA t' Ht')]. }
      assert (HZ : Csum fst (t :: o) = C0).
      { set (psi := circ_act (rev (snd t)) (ket 0)). pose proof (HV psi 0%nat) as H0. rewrite HS in H0. unfold szero in H0.
        assert (HP : Forall pauli_gate (snd t)) by (apply (Forall_inv HC)).
        assert (HK : circ_act (snd t) psi 0%nat = C1).
        { unfold psi. rewrite <- wact_rev. rewrite (circ_wact_inv (snd t) HP (ket 0) 0%nat). reflexivity. }
        rewrite HK in H0. rewrite <- H0. ring. }
      unfold coef. destruct (ldec (letters (snd t)) w) as [E|N].
      * transitivity (Csum fst (t :: o)); [|exact HZ]. apply Csum_ext. intros t' Ht'. destruct (ldec (letters (snd t')) w) as [|N']; [reflexivity|]. exfalso. apply N'.
        destruct Ht' as [->|Ht']; [exact E|]. rewrite Forall_forall in HA. rewrite (HA t' Ht'). exact E.
      * apply Csum_zero. intros t' Ht'. destruct (ldec (letters (snd t')) w) as [E'|]; [|reflexivity]. exfalso. apply N.
        destruct Ht' as [->|Ht']; [exact E'|]. rewrite Forall_forall in HA. rewrite <- (HA t' Ht'). exact E'.
    + apply Exists_exists in HE. destruct HE as (t' & Ht' & HNE).
      assert (HCt : canonical_pauli (snd t)) by exact (Forall_inv HC). assert (HCt' : canonical_pauli (snd t')).
      { unfold canonical_op in HC. rewrite Forall_forall in HC. exact (HC t' (or_intror Ht')). }
      destruct (separate (snd t) (snd t') HCt HCt') as (A & HA & HX); [intros E; apply HNE; rewrite E; reflexivity|].
      destruct (split_vanishes A (t :: o) HA HC HV) as [HV1 HV2].
      set (f := fun t : C * list gate => anti (glabel A) (gtarget A) (snd t)) in *.
      assert (HCf : forall g, canonical_op (filter g (t :: o))).
      { intros g. unfold canonical_op in *. rewrite Forall_forall in *. intros x Hx. apply filter_In in Hx. apply HC, Hx. }
      rewrite (coef_filter f). rewrite (IH (filter f (t :: o))), (IH (filter (fun t => negb (f t)) (t :: o))); [ring|..]; auto.
      * assert (HL : exists x, In x (t :: o) /\ negb (f x) = false).
        { change (anti (glabel A) (gtarget A) (snd t)) with (f t) in HX. change (anti (glabel A) (gtarget A) (snd t')) with (f t') in HX.
          destruct (f t) eqn:E1; [exists t; split; [left; reflexivity|rewrite E1; reflexivity]|]. exists t'. split; [right; exact Ht'|]. destruct (f t'); [reflexivity|congruence]. }
        destruct HL as (x & Hx & Hfx). pose proof (filter_shorter (fun t => negb (f t)) (t :: o) x Hx Hfx). cbn [length] in *. lia.
      * assert (HL : exists x, In x (t :: o) /\ f x = false).
        { change (anti (glabel A) (gtarget A) (snd t)) with (f t) in HX. change (anti (glabel A) (gtarget A) (snd t')) with (f t') in HX.
          destruct (f t) eqn:E1; [exists t'; split; [right; exact Ht'|destruct (f t'); congruence]|]. exists t. split; [left; reflexivity|exact E1]. }
        destruct HL as (x & Hx & Hfx). pose proof (filter_shorter f (t :: o) x Hx Hfx). cbn [length] in *. lia.
Qed.
Theorem pauli_indep o : canonical_op o -> vanishes o -> forall w, coef o w = C0.
Proof. apply (pauli_indep_n (length o)). lia. Qed.
(** with pairwise different strings every coefficient is zero *)
Lemma coef_in o t : canonical_op o -> NoDup (map snd o) -> In t o -> coef o (letters (snd t)) = fst t.
Proof.
  intros HC HN HI. unfold coef. induction o as [|x o IH]; [destruct HI|]. cbn [map] in HN. inversion HN; subst. rewrite Csum_cons. destruct HI as [->|HI].
  - destruct (ldec (letters (snd t)) (letters (snd t))) as [_|N]; [|congruence]. rewrite Csum_zero; [ring|]. intros y Hy.
    destruct (ldec (letters (snd y)) (letters (snd t))) as [E|]; [|reflexivity]. exfalso. apply H1. unfold canonical_op in HC. rewrite Forall_forall in HC.
    rewrite <- (letters_inj (snd y) (snd t) (proj1 (HC y (or_intror Hy))) (proj1 (HC t (or_introl eq_refl))) E). apply in_map, Hy.
  - destruct (ldec (letters (snd x)) (letters (snd t))) as [E|_].
    + exfalso. apply H1. unfold canonical_op in HC. rewrite Forall_forall in HC.
      rewrite (letters_inj (snd x) (snd t) (proj1 (HC x (or_introl eq_refl))) (proj1 (HC t (or_intror HI))) E). apply in_map, HI.
    + rewrite IH; [ring|exact (Forall_inv_tail HC)|assumption|assumption].
Qed.
Lemma vanish_coeffs o : canonical_op o -> NoDup (map snd o) -> vanishes o -> Forall (fun t => fst t = C0) o.
Proof. intros HC HN HV. apply Forall_forall. intros t Ht. rewrite <- (coef_in o t HC HN Ht). apply pauli_indep; assumption. Qed.
(** an operator determines its list of (non-zero coefficient, string) pairs *)
Lemma coef_notin o w : ~ In w (map (fun t => letters (snd t)) o) -> coef o w = C0.
Proof.
  intros H. unfold coef. apply Csum_zero. intros t Ht. destruct (ldec (letters (snd t)) w) as [E|]; [|reflexivity]. exfalso. apply H. rewrite <- E. apply (in_map (fun t => letters (snd t))), Ht.
Qed.
Lemma coef_app a b w : coef (a ++ b) w = coef a w + coef b w.
Proof. unfold coef. apply Csum_app. Qed.
Lemma coef_neg o w : coef (op_mult_coeffs o (- C1)) w = - coef o w.
Proof.
  unfold coef, op_mult_coeffs. induction o as [|t o IH]; cbn [map]; [cbn; ring|]. rewrite !Csum_cons, IH. cbn [fst snd]. destruct (ldec _ _); ring.
Qed.
Lemma op_eq_coef a b : canonical_op a -> canonical_op b -> (forall psi, op_act a psi == op_act b psi) -> forall w, coef a w = coef b w.
Proof.
  intros Ha Hb H w. assert (HZ : coef (a ++ op_mult_coeffs b (- C1)) w = C0).
  { apply pauli_indep.
    - apply Forall_app; split; [exact Ha|]. unfold op_mult_coeffs. apply Forall_map. exact Hb.
    - intros psi I. rewrite (op_act_app _ _ psi I). unfold sadd. rewrite (H psi I). unfold szero, op_act, op_mult_coeffs. rewrite Csum_map. cbn [fst snd].
      rewrite <- Csum_add. apply Csum_zero. intros; ring. }
  rewrite coef_app, coef_neg in HZ. transitivity (coef a w + - coef b w + coef b w); [ring|rewrite HZ; ring].
Qed.
Lemma op_unique_in a b t : canonical_op a -> canonical_op b -> NoDup (map snd a) -> NoDup (map snd b) ->
  (forall psi, op_act a psi == op_act b psi) -> In t a -> fst t <> C0 -> In t b.
Proof.
  intros Ha Hb Na Nb H HI Hn. pose proof (op_eq_coef a b Ha Hb H (letters (snd t))) as E. rewrite (coef_in a t Ha Na HI) in E.
  destruct (in_dec ldec (letters (snd t)) (map (fun t => letters (snd t)) b)) as [HB|HB]; [|rewrite (coef_notin b _ HB) in E; contradiction].
  apply in_map_iff in HB. destruct HB as (t' & EL & Ht'). rewrite <- EL, (coef_in b t' Hb Nb Ht') in E.
  unfold canonical_op in Ha, Hb. rewrite Forall_forall in Ha, Hb.
  assert (snd t' = snd t) by (apply letters_inj; [apply (Hb t' Ht')|apply (Ha t HI)|exact EL]). destruct t, t'. cbn in *. subst. exact Ht'.
Qed.
(** sorted simplified operators that act alike are the same list *)
Lemma sorted_op_eq : forall a b, sorted_op a -> sorted_op b -> canonical_op a -> canonical_op b -> (forall t, In t a <-> In t b) -> a = b.
Proof.
  assert (HX : forall x y l, sorted_op (x :: l) -> canonical_op (x :: l) -> In y l -> circuit_ltb (snd y) (snd x) = false).
  { intros x y l H HC HI. inversion H; subst. rewrite Forall_forall in H3. apply ltb_asym; [..|exact (H3 y HI)].
    - apply canonical_stdg. exact (Forall_inv HC).
    - apply canonical_stdg. unfold canonical_op in HC. rewrite Forall_forall in HC. exact (HC y (or_intror HI)). }
  induction a as [|x a IH]; intros [|y b] Ha Hb Ca Cb H.
  - reflexivity.
  - exfalso. apply (proj2 (H y)). left; reflexivity.
  - exfalso. apply (proj1 (H x)). left; reflexivity.
  - assert (E : x = y).
    { destruct (proj1 (H x) (or_introl eq_refl)) as [->|HI]; [reflexivity|]. destruct (proj2 (H y) (or_introl eq_refl)) as [->|HI']; [reflexivity|].
      pose proof (HX y x b Hb Cb HI) as E1. inversion Ha; subst. rewrite Forall_forall in H3. rewrite (H3 y HI') in E1. discriminate. }
    subst y. f_equal. apply IH; [inversion Ha; assumption|inversion Hb; assumption|exact (Forall_inv_tail Ca)|exact (Forall_inv_tail Cb)|].
    assert (Hirr : forall l, sorted_op (x :: l) -> ~ In x l).
    { intros l Hl HI. inversion Hl; subst. rewrite Forall_forall in H3. specialize (H3 x HI). rewrite circuit_ltb_irrefl in H3. discriminate. }
    intros t. split; intros HI.
    + destruct (proj1 (H t) (or_intror HI)) as [<-|]; [exfalso; exact (Hirr a Ha HI)|assumption].
    + destruct (proj2 (H t) (or_intror HI)) as [<-|]; [exfalso; exact (Hirr b Hb HI)|assumption].
Qed.
