(** Proofs: order_terms / check_op_equivalence (C51). *)
From Coq Require Import Reals String List Arith Lia Bool Lra Permutation Sorted.
From Verif Require Import CBase Result Bits Spec GateModel OpSpec ComputerModel SafeProofs GateProofs LibProofs SimProofs InteractProofs CircuitModel SimplifyProofs SimplifyLoop CircuitProofs CompareProofs PauliProofs OperatorModel OperatorProofs.
Import ListNotations.
Local Open Scope C_scope.

Definition ct (t : C * list gate) : C * list gate :=
  match canonicalize_pauli_circuit (snd t) with Ok p => (fst t * fst p, snd p) | Throw _ => t end.
Lemma canonical_order_map o : pauli_op o -> canonical_order o = Ok (map ct o).
Proof.
  induction o as [|[c gs] r IH]; intros H; [reflexivity|]. inversion H; subst. cbn [canonical_order map snd] in *.
  destruct (canon_word gs H2) as (d & gs' & E & _). unfold ct at 1; cbn [fst snd]. rewrite E. cbn [bind]. rewrite IH by assumption. reflexivity.
Qed.
Lemma fold_accumulate_perm o o' : Permutation o o' -> canonical_op o -> forall m, Forall key_ok m -> sorted_map m ->
  fold_left (fun m t => map_accumulate (snd t) (fst t) m) o m = fold_left (fun m t => map_accumulate (snd t) (fst t) m) o' m.
Proof.
  induction 1 as [|[c gs] l l' HP IH|[c1 k1] [c2 k2] l|l1 l2 l3 HP1 IH1 HP2 IH2]; intros HC m HK HS.
  - reflexivity.
  - inversion HC; subst. cbn [fold_left fst snd] in *. destruct (accumulate_sorted gs c m H1 HK HS). apply IH; assumption.
  - inversion HC as [|? ? Ha HC']; subst. inversion HC' as [|? ? Hb HC'']; subst. cbn [fold_left fst snd] in *.
    rewrite accumulate_comm by assumption. reflexivity.
  - rewrite IH1 by assumption. apply IH2; [|assumption|assumption]. eapply Forall_perm; [exact HP1|exact HC].
Qed.
Lemma simplify_perm combine o o' : pauli_op o -> Permutation o o' -> op_simplify combine o = op_simplify combine o'.
Proof.
  intros H HP. assert (H' : pauli_op o') by (eapply Forall_perm; [exact HP|exact H]).
  destruct (canonical_order_spec o H) as (o1 & E & HC & _). unfold op_simplify. rewrite E.
  rewrite (canonical_order_map o' H'). rewrite (canonical_order_map o H) in E. assert (E1 : map ct o = o1) by congruence. subst o1. cbn [bind].
  unfold unique_terms. rewrite (fold_accumulate_perm (map ct o) (map ct o') (Permutation_map ct HP) HC []); [reflexivity|constructor|constructor].
Qed.
Lemma order_terms_perm sort o o' : pauli_op o -> Permutation o o' -> order_terms sort o = order_terms sort o'.
Proof. intros H HP. unfold order_terms. rewrite (simplify_perm true o o' H HP). reflexivity. Qed.
Lemma ops_close_refl o : ops_close o o = true.
Proof.
  induction o as [|[c g] r IH]; cbn [ops_close]; [reflexivity|]. replace (c - c) with C0 by ring. rewrite Cabs_C0.
  rewrite Rltb_false by lra. rewrite circuit_eqb_refl. cbn [negb]. exact IH.
Qed.
Lemma check_perm sort o o' : pauli_op o -> Permutation o o' -> check_op_equivalence sort o o' true = Ok true.
Proof.
  intros H HP. unfold check_op_equivalence. rewrite <- (order_terms_perm sort o o' H HP).
  destruct (simplify_small true o H) as (k & d & E & _). unfold order_terms. rewrite E. cbn [bind].
  rewrite Nat.eqb_refl. cbn [negb]. rewrite ops_close_refl. reflexivity.
Qed.
Lemma circuit_eqb_pauli : forall a b, Forall pauli_gate a -> Forall pauli_gate b -> circuit_eqb a b = true -> a = b.
Proof.
  induction a as [|g a IH]; intros [|h b] Ha Hb H; try discriminate H; [reflexivity|].
  inversion Ha; subst. inversion Hb; subst. cbn in H. apply andb_prop in H. destruct H as [H H'].
  f_equal; [|apply IH; assumption].
  apply gate_eqb_exact; [apply pauli_stdg; assumption|apply pauli_stdg; assumption| |assumption].
  destruct H2 as [HL HM]. destruct (pauli_label_cases _ HL) as [E|[E|E]]; rewrite E in HM; unfold make_gate in HM; rewrite Nat.eqb_refl in HM;
    cbn [String.eqb Ascii.eqb Bool.eqb] in HM; apply (f_equal (fun r => match r with Ok x => x | _ => g end)) in HM; rewrite <- HM; reflexivity.
Qed.
Lemma ops_close_spec : forall a b, pauli_op a -> pauli_op b -> length a = length b ->
  (ops_close a b = true <-> Forall2 (fun s t => Cabs (fst s - fst t) <= 1e-10 /\ snd s = snd t)%R a b).
Proof.
  induction a as [|[c g] a IH]; intros [|[d h] b] Ha Hb HL; try discriminate HL.
  - split; [constructor|reflexivity].
  - inversion Ha; subst. inversion Hb; subst. cbn [snd ops_close] in *. specialize (IH b H2 H4 ltac:(cbn in HL; lia)).
    destruct (Rltb_spec 1e-10 (Cabs (c - d))) as [Hlt|Hge].
    + split; [discriminate|]. intros HF. inversion HF; subst. cbn [fst snd] in *. lra.
    + destruct (circuit_eqb g h) eqn:E; cbn [negb].
      * rewrite IH. pose proof (circuit_eqb_pauli g h H1 H3 E). subst h. split; intros HF.
        -- constructor; [split; cbn [fst snd]; [lra|reflexivity]|assumption].
        -- inversion HF; assumption.
      * split; [discriminate|]. intros HF. inversion HF; subst. cbn [fst snd] in *. destruct H6 as [_ ->]. rewrite circuit_eqb_refl in E. discriminate.
Qed.
Lemma F2_length {A B} (P : A -> B -> Prop) a b : Forall2 P a b -> length a = length b.
Proof. induction 1; cbn; congruence. Qed.
Lemma check_no_reorder sort a b : pauli_op a -> pauli_op b ->
  exists r, check_op_equivalence sort a b false = Ok r /\
   (r = true <-> Forall2 (fun s t => Cabs (fst s - fst t) <= 1e-10 /\ snd s = snd t)%R a b).
Proof.
  intros Ha Hb. unfold check_op_equivalence. cbn [bind]. eexists. split; [reflexivity|].
  destruct (Nat.eqb_spec (length a) (length b)) as [E|N]; cbn [negb].
  - apply ops_close_spec; assumption.
  - split; [discriminate|]. intros HF. apply F2_length in HF. contradiction.
Qed.

(** the comparator is not a strict weak ordering *)
Definition gX (t : nat) : gate := mkGate "X" t t m_X None.
Definition gY (t : nat) : gate := mkGate "Y" t t m_Y None.
Definition gZ (t : nat) : gate := mkGate "Z" t t m_Z None.
Lemma gX_pauli t : pauli_gate (gX t). Proof. split; [reflexivity|]. cbn [glabel gtarget gX]. unfold make_gate. rewrite Nat.eqb_refl. reflexivity. Qed.
Lemma gY_pauli t : pauli_gate (gY t). Proof. split; [reflexivity|]. cbn [glabel gtarget gY]. unfold make_gate. rewrite Nat.eqb_refl. reflexivity. Qed.
Lemma gZ_pauli t : pauli_gate (gZ t). Proof. split; [reflexivity|]. cbn [glabel gtarget gZ]. unfold make_gate. rewrite Nat.eqb_refl. reflexivity. Qed.

Lemma comparator_bad : exists a b c : C * list gate, canonical_op [a; b; c] /\ NoDup (map snd [a; b; c]) /\
  term_less a b = false /\ term_less b a = false /\ term_less b c = false /\ term_less c b = false /\ term_less c a = true.
Proof.
  exists (C1, [gX 0; gZ 1]), (C1, [gX 0]), (C1, [gX 0; gX 1]). split; [|split].
  - pose proof gX_pauli. pose proof gZ_pauli. repeat constructor; cbn [snd map gtarget gX gZ increasing]; auto; cbn [In gtarget gX gZ]; try (intros ? [<-|[]]; lia); try (intros ? []).
  - cbn [map snd]. constructor; [|constructor; [|constructor; [intros []|constructor]]]; cbn [In]; intros [H|[H|[]]] || intros [H|[]]; discriminate H.
  - repeat split; reflexivity.
Qed.
