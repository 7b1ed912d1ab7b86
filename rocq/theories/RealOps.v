(** A Hermitian and real operator is a sum of Pauli strings with an even number of Y. *)
From Coq Require Import Reals String List Arith Lia Bool Lra Permutation Sorted ZArith NArith.
From Verif Require Import CBase Result Bits Spec OpSpec GateModel ComputerModel SafeProofs LibProofs CircuitModel PauliProofs OperatorModel OperatorProofs PauliIndep MeasureModel PropMeasure.
From Verif Require FermiProofs QftProofs.
Import ListNotations.
Local Open Scope C_scope.

Definition sconj (psi : state) : state := fun I => Cconj (psi I).
(** commutes with complex conjugation of the amplitudes *)
Definition real_map (f : state -> state) : Prop := forall psi, f (sconj psi) == sconj (f psi).
(** Hermitian on every register of at least n qubits *)
Definition hermitian_map (n : nat) (f : state -> state) : Prop := forall N a b, (n <= N)%nat -> inner N a (f b) = inner N (f a) b.
Definition respects (f : state -> state) : Prop := forall a b, a == b -> f a == f b.
Lemma Csgn_conj b : Cconj (if b : bool then - C1 else C1) = if b then - C1 else C1.
Proof. destruct b; apply C_ext; cbn; ring. Qed.
Lemma sconj_gate g psi : pauli_gate g -> gate_act g (sconj psi) == sscale (if (glabel g =? "Y")%string then - C1 else C1) (sconj (gate_act g psi)).
Proof.
  intros H I. rewrite !(pauli_act g) by exact H. destruct H as (HL & _). unfold sscale, sconj.
  destruct (pauli_label_cases _ HL) as [E|[E|E]]; rewrite E; unfold pact; cbn [String.eqb Ascii.eqb Bool.eqb]; unfold act1; destruct (bit I (gtarget g)); cbn [b2n]; apply C_ext; cbn; ring.
Qed.
Lemma sconj_circ gs : Forall pauli_gate gs -> forall psi, circ_act gs (sconj psi) == sscale (if Nat.odd (count_Y gs) then - C1 else C1) (sconj (circ_act gs psi)).
Proof.
  induction 1 as [|g gs Hg _ IH]; intros psi I; [unfold count_Y, sscale; cbn; apply C_ext; cbn; ring|]. rewrite !circ_act_cons.
  rewrite (circ_act_ext gs _ _ (sconj_gate g psi Hg) I). rewrite (circ_act_scale gs _ _ I). unfold sscale at 1. rewrite (IH (gate_act g psi) I). unfold sscale.
  unfold count_Y. cbn [filter]. destruct (glabel g =? "Y")%string; cbn [length]; [|ring]. rewrite Nat.odd_succ, <- Nat.negb_odd. destruct (Nat.odd _); cbn [negb]; ring.
Qed.
Lemma pauli_inner n g a b : pauli_gate g -> (gtarget g < n)%nat -> inner n a (gate_act g b) = inner n (gate_act g a) b.
Proof.
  intros H Ht. rewrite !(pauli_act g) by exact H. destruct H as (HL & _).
  destruct (pauli_label_cases _ HL) as [E|[E|E]]; rewrite E; unfold pact; cbn [String.eqb Ascii.eqb Bool.eqb]; rewrite inner_act1 by exact Ht; apply inner_ext; try (intros I; reflexivity); apply act1_meq; intros i j Hi Hj;
    destruct i as [|[|]], j as [|[|]]; try lia; unfold madj; cbn; apply C_ext; cbn; ring.
Qed.
Lemma string_inner n gs : Forall pauli_gate gs -> NoDup (map gtarget gs) -> Forall (fun g => gtarget g < n)%nat gs -> forall a b, inner n a (circ_act gs b) = inner n (circ_act gs a) b.
Proof.
  intros HP HN HR a b. rewrite (inner_ext n (circ_act gs a) (wact gs a) b b); [|apply seq_sym, wact_circ; assumption|apply seq_refl].
  clear HN. revert a b. induction HP as [|g gs Hg HP IH]; intros a b; [reflexivity|]. rewrite circ_act_cons, wact_cons. rewrite (IH (Forall_inv_tail HR)).
  rewrite pauli_inner by (try exact Hg; exact (Forall_inv HR)). reflexivity.
Qed.
Lemma inner_op n o a b : inner n a (op_act o b) = Csum (fun t => fst t * inner n a (circ_act (snd t) b)) o.
Proof.
  unfold inner, op_act. transitivity (Csum (fun I => Csum (fun t => fst t * (Cconj (a I) * circ_act (snd t) b I)) o) (seq 0 (2 ^ n))).
  - apply Csum_ext. intros I _. rewrite <- Csum_mul_l. apply Csum_ext. intros t _. ring.
  - rewrite Csum_swap. apply Csum_ext. intros t _. apply Csum_mul_l.
Qed.
Definition retag (h : C -> list gate -> C) (o : qop) : qop := map (fun t => (h (fst t) (snd t), snd t)) o.
Lemma retag_canonical h o : canonical_op o -> canonical_op (retag h o).
Proof. intros H. apply Forall_map. exact H. Qed.
Lemma retag_nodup h o : NoDup (map snd o) -> NoDup (map snd (retag h o)).
Proof. unfold retag. rewrite map_map. cbn [snd]. auto. Qed.
(** if replacing the coefficients does not change the operator, it does not change them *)
Lemma retag_same h o : canonical_op o -> NoDup (map snd o) -> (forall psi, op_act (retag h o) psi == op_act o psi) -> Forall (fun t => h (fst t) (snd t) = fst t) o.
Proof.
  intros HC HN HE. pose proof (vanish_coeffs (retag (fun c gs => h c gs - c) o) (retag_canonical _ o HC) (retag_nodup _ o HN)) as HV.
  assert (HZ : vanishes (retag (fun c gs => h c gs - c) o)).
  { intros psi I. specialize (HE psi I). unfold op_act, retag in *. rewrite Csum_map in *. cbn [fst snd] in *. unfold szero.
    transitivity (Csum (fun t => h (fst t) (snd t) * circ_act (snd t) psi I) o + - C1 * Csum (fun t => fst t * circ_act (snd t) psi I) o); [|rewrite HE; ring].
    rewrite <- Csum_mul_l, <- Csum_add. apply Csum_ext. intros t _. ring. }
  specialize (HV HZ). unfold retag in HV. rewrite Forall_map in HV. eapply Forall_impl; [|exact HV]. cbn [fst]. intros t E.
  replace (h (fst t) (snd t)) with (h (fst t) (snd t) - fst t + fst t) by ring. rewrite E. ring.
Qed.
Lemma real_coeffs o f : canonical_op o -> NoDup (map snd o) -> (forall psi, op_act o psi == f psi) -> real_map f ->
  Forall (fun t => (if Nat.odd (count_Y (snd t)) then - Cconj (fst t) else Cconj (fst t)) = fst t) o.
Proof.
  intros HC HN HA HR. apply (retag_same (fun c gs => if Nat.odd (count_Y gs) then - Cconj c else Cconj c) o HC HN).
  intros psi I. transitivity (Cconj (op_act o (sconj psi) I)).
  - unfold op_act, retag. rewrite Csum_map, Csum_conj. apply Csum_ext. intros t Ht. cbn [fst snd].
    destruct (proj1 (Forall_forall _ _) HC t Ht) as [HP _]. rewrite (sconj_circ (snd t) HP psi I). unfold sscale, sconj.
    generalize (circ_act (snd t) psi I) (fst t). intros x c. destruct (Nat.odd _); apply C_ext; cbn; ring.
  - rewrite (HA (sconj psi) I), (HR psi I), (HA psi I). unfold sconj. apply C_ext; cbn; ring.
Qed.
Lemma hermitian_coeffs n o f : canonical_op o -> NoDup (map snd o) -> in_reg n o -> (forall psi, op_act o psi == f psi) -> hermitian_map n f ->
  Forall (fun t => Cconj (fst t) = fst t) o.
Proof.
  intros HC HN HR HA HH. apply (retag_same (fun c _ => Cconj c) o HC HN). intros psi I.
  (** a register that contains I *)
  set (N := (n + S I)%nat). assert (HI : (I < 2 ^ N)%nat) by (unfold N; pose proof (Nat.pow_gt_lin_r 2 (n + S I)); lia).
  assert (HK : forall a, inner N a (op_act (retag (fun c _ => Cconj c) o) psi) = inner N a (op_act o psi)).
  { intros a. transitivity (inner N (op_act o a) psi).
    - rewrite inner_op. rewrite FermiProofs.inner_conj, inner_op, Csum_conj. unfold retag. rewrite Csum_map. apply Csum_ext. intros t Ht. cbn [fst snd].
      destruct (proj1 (Forall_forall _ _) HC t Ht) as [HP HInc]. rewrite string_inner.
      + rewrite (FermiProofs.inner_conj N psi). generalize (inner N (circ_act (snd t) a) psi) (fst t). intros x c. apply C_ext; cbn; ring.
      + exact HP.
      + apply increasing_nodup, HInc.
      + pose proof (proj1 (Forall_forall _ _) HR t Ht) as HG. eapply Forall_impl; [|exact HG]. cbn beta. intros g Hg. unfold N. lia.
    - rewrite (inner_ext N _ _ psi psi (HA a) (seq_refl psi)). rewrite <- (HH N a psi) by (unfold N; lia). apply inner_ext; [apply seq_refl|apply seq_sym, HA]. }
  specialize (HK (ket I)). rewrite !QftProofs.inner_ket in HK by exact HI. exact HK.
Qed.
Lemma even_Y n o f : canonical_op o -> NoDup (map snd o) -> in_reg n o -> Forall (fun t => fst t <> C0) o -> (forall psi, op_act o psi == f psi) -> real_map f -> hermitian_map n f ->
  Forall (fun t => Nat.even (count_Y (snd t)) = true) o.
Proof.
  intros HC HN HR HZ HA HF HH. pose proof (real_coeffs o f HC HN HA HF) as H1. pose proof (hermitian_coeffs n o f HC HN HR HA HH) as H2.
  rewrite Forall_forall in *. intros t Ht. specialize (H1 t Ht). specialize (H2 t Ht). specialize (HZ t Ht). cbn beta in *. rewrite <- Nat.negb_odd. destruct (Nat.odd _); [|reflexivity].
  exfalso. apply HZ. rewrite H2 in H1. assert (Hd : fst t + fst t = C0) by (rewrite <- H1 at 1; ring). clear - Hd. destruct (fst t) as [x y]. unfold Cadd, C0 in Hd. injection Hd as A B. cbn in A, B. apply C_ext; cbn; lra.
Qed.
