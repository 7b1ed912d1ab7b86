(** C16, C17, C29, C30, C51: the simplified form of an operator depends only on the operator,
    not on how it was written. *)
From Coq Require Import Reals String List Arith Bool Lia Lra Permutation Sorted.
From Verif Require Import CBase Result Bits Spec OpSpec SQSpec GateModel LibProofs SafeProofs CircuitModel PauliProofs OperatorModel OperatorProofs OrderProofs PauliIndep SQModel SQProofs FermiProofs FermiIndep FermiHerm PropOperator PropSQ PropMol.
Import ListNotations.
Local Open Scope C_scope.

Lemma simplify_unique a b : pauli_op a -> pauli_op b -> (forall psi, wop a psi == wop b psi) -> op_simplify true a = op_simplify true b.
Proof.
  intros Ha Hb E. destruct (simplify_spec true a Ha) as (ka & da & Ea & CA & NA & BA & _ & SA & _ & WA). destruct (simplify_spec true b Hb) as (kb & db & Eb & CB & NB & BB & _ & SB & _ & WB).
  pose proof (simplify_sorted true a ka Ha Ea) as OA. pose proof (simplify_sorted true b kb Hb Eb) as OB.
  assert (X : forall psi, op_act (ka ++ da) psi == op_act (kb ++ db) psi).
  { intros psi I. rewrite <- (wop_op _ psi (canonical_distinct _ CA) I), <- (wop_op _ psi (canonical_distinct _ CB) I). rewrite (wop_app ka da psi I), (wop_app kb db psi I), <- (WA psi I), <- (WB psi I). apply E. }
  specialize (BA eq_refl). specialize (BB eq_refl).
  assert (In_ : forall k d k' d' t, Forall (fun t => 1e-12 < Cabs (fst t))%R k -> Forall (fun t => Cabs (fst t) <= 1e-12)%R d' -> canonical_op (k ++ d) -> canonical_op (k' ++ d') -> NoDup (map snd (k ++ d)) -> NoDup (map snd (k' ++ d')) ->
    (forall psi, op_act (k ++ d) psi == op_act (k' ++ d') psi) -> In t k -> In t k').
  { intros k d k' d' t Bk Sd' C1' C2' N1 N2 Ex Ht. rewrite Forall_forall in Bk, Sd'. specialize (Bk t Ht). cbn beta in Bk.
    assert (Y : In t (k' ++ d')). { apply (op_unique_in (k ++ d) (k' ++ d') t C1' C2' N1 N2 Ex); [apply in_or_app; now left|]. intros Z. rewrite Z, (Cabs_C0) in Bk. lra. }
    apply in_app_or in Y. destruct Y as [Y|Y]; [exact Y|]. specialize (Sd' t Y). cbn beta in Sd'. lra. }
  rewrite Ea, Eb. f_equal. apply sorted_op_eq; [exact OA|exact OB|exact (proj1 (proj1 (Forall_app _ _ _) CA))|exact (proj1 (proj1 (Forall_app _ _ _) CB))|].
  intros t. split; intros Ht.
  - exact (In_ ka da kb db t BA SB CA CB NA NB X Ht).
  - apply (In_ kb db ka da t BB SA CB CA NB NA); [|exact Ht]. intros psi. apply seq_sym, X.
Qed.
(** two ways of writing an operator are simplified to the same list of terms *)
Theorem C16_simplify_canonical : forall a b, Terms PauliString a -> Terms PauliString b ->
  (forall psi, op_act a psi == op_act b psi) -> op_simplify true a = op_simplify true b.
Proof.
  intros a b Ha Hb E. apply terms_string in Ha, Hb. apply simplify_unique; [now apply distinct_pauli|now apply distinct_pauli|].
  intros psi I. rewrite (wop_op a psi Ha I), (wop_op b psi Hb I). apply E.
Qed.
Print Assumptions C16_simplify_canonical.
(** the product that operator_product computes is the simplified form of the product operator *)
Theorem C17_product_canonical : forall a b c, Terms PauliString a -> Terms PauliString b -> Terms PauliString c ->
  (forall psi, op_act c psi == op_act a (op_act b psi)) -> operator_product a b false true = op_simplify true c.
Proof.
  intros a b c Ha Hb Hc E. apply terms_string in Ha, Hb, Hc. unfold operator_product. cbn [bind]. apply simplify_unique; [apply raw_product_pauli; now apply distinct_pauli|now apply distinct_pauli|].
  intros psi I. rewrite (wop_product a b psi I), (wop_op a _ Ha I), (wop_op c psi Hc I), (E psi I). apply op_act_ext. now apply wop_op.
Qed.
Print Assumptions C17_product_canonical.
(** order_terms and check_op_equivalence, whatever std::sort does with the comparator *)
Theorem C51_order_canonical : forall sort a b, Terms PauliString a -> Terms PauliString b ->
  (forall psi, op_act a psi == op_act b psi) -> order_terms sort a = order_terms sort b.
Proof. intros sort a b Ha Hb E. unfold order_terms. now rewrite (C16_simplify_canonical a b Ha Hb E). Qed.
Print Assumptions C51_order_canonical.
Theorem C51_equal_operators_are_equivalent : forall sort a b, Terms PauliString a -> Terms PauliString b ->
  (forall psi, op_act a psi == op_act b psi) -> check_op_equivalence sort a b true = Ok true.
Proof.
  intros sort a b Ha Hb E. unfold check_op_equivalence. rewrite (C51_order_canonical sort a b Ha Hb E). unfold order_terms. pose proof Hb as Hb'. apply terms_string in Hb'. destruct (simplify_spec true b (distinct_pauli b Hb')) as (k & d & Ek & _).
  rewrite Ek. cbn [bind]. rewrite Nat.eqb_refl. cbn [negb]. now rewrite ops_close_refl.
Qed.
Print Assumptions C51_equal_operators_are_equivalent.

(** fermionic operators *)
Lemma sq_simplify_sorted srt o k : sq_simplify srt o = Ok k -> StronglySorted (fun a b => pair_ltb (fkey a) (fkey b) = true) k.
Proof.
  unfold sq_simplify. destruct (sq_canonical_order srt o) as [o'|e]; cbn [bind]; [|discriminate]. intros E. injection E as <-.
  change (fold_left (fun m t => sq_accumulate (fcre t, fann t) (fcoef t) m) o' []) with (sq_map o' []). destruct (sq_map_spec o' [] (SSorted_nil _)) as (HS & _ & _). revert HS. generalize (sq_map o' []). intros m HS.
  induction HS as [|x m HS IH HF]; cbn [filter map]; [constructor|]. destruct (Rltb 1e-12 (Cabs (snd x))); [|exact IH]. cbn [map]. constructor; [exact IH|].
  apply Forall_forall. intros t Ht. apply in_map_iff in Ht. destruct Ht as (y & <- & Hy). apply filter_In in Hy. rewrite Forall_forall in HF. specialize (HF y (proj1 Hy)). fold (tof x). fold (tof y). now rewrite !fkey_tof.
Qed.
Lemma fsorted_eq : forall a b : list fterm, StronglySorted (fun a b => pair_ltb (fkey a) (fkey b) = true) a -> StronglySorted (fun a b => pair_ltb (fkey a) (fkey b) = true) b -> (forall t, In t a <-> In t b) -> a = b.
Proof.
  assert (Irr : forall (x : fterm) l, StronglySorted (fun a b => pair_ltb (fkey a) (fkey b) = true) (x :: l) -> ~ In x l).
  { intros x l H HI. inversion H as [|? ? _ F]; subst. rewrite Forall_forall in F. specialize (F x HI). cbn beta in F. rewrite pair_ltb_irrefl in F. discriminate. }
  induction a as [|x a IH]; intros [|y b] HA HB E; [reflexivity|exfalso; apply (proj2 (E y)); now left|exfalso; apply (proj1 (E x)); now left|].
  assert (EX : x = y).
  { destruct (proj1 (E x) (or_introl eq_refl)) as [->|H1]; [reflexivity|]. destruct (proj2 (E y) (or_introl eq_refl)) as [->|H2]; [reflexivity|].
    inversion HA as [|? ? _ FA]; subst. inversion HB as [|? ? _ FB]; subst. rewrite Forall_forall in FA, FB. specialize (FA y H2). specialize (FB x H1). cbn beta in FA, FB. pose proof (pair_ltb_trans _ _ _ FA FB) as Z. rewrite pair_ltb_irrefl in Z. discriminate. }
  subst y. f_equal. apply IH; [now inversion HA|now inversion HB|]. intros t. split; intros Ht.
  - destruct (proj1 (E t) (or_intror Ht)) as [<-|]; [|assumption]. exfalso. exact (Irr x a HA Ht).
  - destruct (proj2 (E t) (or_intror Ht)) as [<-|]; [|assumption]. exfalso. exact (Irr x b HB Ht).
Qed.
Theorem C29_simplify_canonical : forall srt srt', legal_sort srt -> legal_sort srt' -> forall a b,
  (forall t, In t (a ++ b) -> NoDup (fcre t) /\ NoDup (fann t)) ->
  (forall psi, fermi_act a psi == fermi_act b psi) -> sq_simplify srt a = sq_simplify srt' b.
Proof.
  intros srt srt' HS HS' a b HP E. destruct (sq_simplify_spec srt a HS) as (ka & da & Ea & CA & NA & BA & SA & IA & WA). destruct (sq_simplify_spec srt' b HS') as (kb & db & Eb & CB & NB & BB & SB & IB & WB).
  assert (X : forall psi, fermi_act (ka ++ da) psi == fermi_act (kb ++ db) psi).
  { intros psi I. rewrite (fermi_app ka da psi I), (fermi_app kb db psi I), <- (WA psi I), <- (WB psi I). apply E. }
  assert (PA : forall t, In t (ka ++ da) -> (descending (fcre t) /\ descending (fann t)) /\ NoDup (fcre t) /\ NoDup (fann t)).
  { intros t Ht. split; [rewrite Forall_forall in CA; exact (CA t Ht)|]. destruct (IA t Ht) as (t0 & H0 & P1 & P2). destruct (HP t0 (in_or_app _ _ _ (or_introl H0))) as [N1 N2]. split; eapply Permutation_NoDup; [apply Permutation_sym, P1|exact N1|apply Permutation_sym, P2|exact N2]. }
  assert (PB : forall t, In t (kb ++ db) -> (descending (fcre t) /\ descending (fann t)) /\ NoDup (fcre t) /\ NoDup (fann t)).
  { intros t Ht. split; [rewrite Forall_forall in CB; exact (CB t Ht)|]. destruct (IB t Ht) as (t0 & H0 & P1 & P2). destruct (HP t0 (in_or_app _ _ _ (or_intror H0))) as [N1 N2]. split; eapply Permutation_NoDup; [apply Permutation_sym, P1|exact N1|apply Permutation_sym, P2|exact N2]. }
  assert (In_ : forall k d k' d' t, Forall (fun t => 1e-12 < Cabs (fcoef t))%R k -> Forall (fun t => Cabs (fcoef t) <= 1e-12)%R d' ->
     (forall t, In t (k ++ d) -> (descending (fcre t) /\ descending (fann t)) /\ NoDup (fcre t) /\ NoDup (fann t)) -> (forall t, In t (k' ++ d') -> (descending (fcre t) /\ descending (fann t)) /\ NoDup (fcre t) /\ NoDup (fann t)) ->
     NoDup (map fkey (k ++ d)) -> NoDup (map fkey (k' ++ d')) -> (forall psi, fermi_act (k ++ d) psi == fermi_act (k' ++ d') psi) -> In t k -> In t k').
  { intros k d k' d' t Bk Sd' P1 P2 N1 N2 Ex Ht. rewrite Forall_forall in Bk, Sd'. specialize (Bk t Ht). cbn beta in Bk.
    assert (Y : In t (k' ++ d')). { apply (C84_normal_form_unique (k ++ d) (k' ++ d')); [|exact N1|exact N2|exact Ex|apply in_or_app; now left|intros Z; rewrite Z, Cabs_C0 in Bk; lra]. intros u Hu. apply in_app_or in Hu. destruct Hu as [Hu|Hu]; [now apply P1|now apply P2]. }
    apply in_app_or in Y. destruct Y as [Y|Y]; [exact Y|]. specialize (Sd' t Y). cbn beta in Sd'. lra. }
  rewrite Ea, Eb. f_equal. apply fsorted_eq; [exact (sq_simplify_sorted _ _ _ Ea)|exact (sq_simplify_sorted _ _ _ Eb)|]. intros t. split; intros Ht.
  - exact (In_ ka da kb db t BA SB PA PB NA NB X Ht).
  - apply (In_ kb db ka da t BB SA PB PA NB NA); [|exact Ht]. intros psi. apply seq_sym, X.
Qed.
Print Assumptions C29_simplify_canonical.
(** the Jordan-Wigner transform depends only on the operator *)
Theorem C30_transform_canonical : forall srt srt', legal_sort srt -> legal_sort srt' -> forall qe a b,
  (forall t, In t (a ++ b) -> NoDup (fcre t) /\ NoDup (fann t)) ->
  (forall psi, fermi_act a psi == fermi_act b psi) -> jw_transform srt qe a = jw_transform srt' qe b.
Proof. intros srt srt' HS HS' qe a b HP E. unfold jw_transform. now rewrite (C29_simplify_canonical srt srt' HS HS' a b HP E). Qed.
Print Assumptions C30_transform_canonical.

(** two different ways of writing one operator: X0 Z1 + Z1 X0 and 2 X0 Z1; a1^ a0^ and - a0^ a1^ *)
Example C16_canonical_nonvacuous : let a := [(C1, [gX 0; gZ 1]); (C1, [gZ 1; gX 0])] in let b := [(RtoC 2, [gX 0; gZ 1])] in
  Terms PauliString a /\ Terms PauliString b /\ (forall psi, op_act a psi == op_act b psi) /\ a <> b.
Proof.
  cbv zeta. split; [|split; [|split]].
  - apply terms_string. repeat constructor; cbn [snd map gtarget gX gZ In]; try apply gX_pauli; try apply gZ_pauli; try lia; try tauto.
  - apply terms_string. repeat constructor; cbn [snd map gtarget gX gZ In]; try apply gX_pauli; try apply gZ_pauli; try lia; try tauto.
  - assert (PA : pauli_op [(C1, [gX 0; gZ 1]); (C1, [gZ 1; gX 0])]) by (repeat constructor; try apply gX_pauli; try apply gZ_pauli).
    destruct (C16_simplify_preserves_operator_partial [(C1, [gX 0; gZ 1]); (C1, [gZ 1; gX 0])] false) as (k & d & E & _ & _ & _ & D & _ & W).
    { apply terms_string. repeat constructor; cbn [snd map gtarget gX gZ In]; try apply gX_pauli; try apply gZ_pauli; try lia; try tauto. }
    rewrite (D eq_refl) in W. change (op_simplify false [(C1, [gX 0; gZ 1]); (C1, [gZ 1; gX 0])]) with (Ok [(C1 * C1 + C1 * C1, [gX 0; gZ 1])] : res qop) in E. injection E as <-.
    intros psi I. rewrite (W psi I). unfold sadd. change (op_act [] psi I) with C0. unfold op_act. rewrite !Csum_cons. cbn [fst snd]. replace (RtoC 2) with (C1 * C1 + C1 * C1) by (apply C_ext; cbn; ring). ring.
  - discriminate.
Qed.
Example C29_canonical_nonvacuous : let a := [((C1, [1; 0]%nat), [])] in let b := [((- C1, [0; 1]%nat), [])] in
  (forall t, In t (a ++ b) -> NoDup (fcre t) /\ NoDup (fann t)) /\ (forall psi, fermi_act a psi == fermi_act b psi) /\ a <> b.
Proof.
  cbv zeta. split; [|split].
  - intros t [<-|[<-|[]]]; split; repeat constructor; cbn; intuition lia.
  - intros psi I. destruct (sq_simplify_spec isort [((- C1, [0; 1]%nat), [])] isort_legal) as (k & d & _). clear k d.
    destruct (C28_canonical_order_preserves_operator isort isort_legal [((- C1, [0; 1]%nat), [])]) as (o' & E & _ & _ & W). rewrite (W psi I). vm_compute in E. injection E as <-. unfold fermi_act. rewrite !Csum_cons. cbn [fcoef fcre fann fst snd]. f_equal. f_equal. apply C_ext; cbn; ring.
  - intros E. injection E as E _. lra.
Qed.
