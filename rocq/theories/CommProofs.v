(** Proofs about CommModel: the commutator of a Hermitian sum of Pauli strings with an
    antihermitian one, formed with the simplifications of join_as_commutator, is Hermitian. *)
From Coq Require Import Reals String List Arith Bool Lia Lra Permutation FunctionalExtensionality.
From Verif Require Import CBase Result Bits Spec OpSpec GateModel ComputerModel LibProofs SafeProofs CircuitModel PauliProofs OperatorModel OperatorProofs PoolProofs PauliIndep SQSpec FermiProofs SparseNorm RealOps PropOperator PropMeasure PropGrad QpeProofs QiteNorm PenModel PenSpec PenProofs.
From Verif Require QkProofs QftProofs.
Import ListNotations.
Local Open Scope C_scope.

Definition conj_op (o : qop) : qop := retag (fun c _ => Cconj c) o.
Definition neg_conj (o : qop) : qop := retag (fun c _ => - Cconj c) o.
Lemma conj_inner n o N a b : canonical_op o -> in_reg n o -> (n <= N)%nat -> inner N a (op_act (conj_op o) b) = inner N (op_act o a) b.
Proof.
  intros HC HR L. rewrite inner_op. rewrite FermiProofs.inner_conj, inner_op, Csum_conj. unfold conj_op, retag. rewrite Csum_map. apply Csum_ext. intros t Ht. cbn [fst snd].
  destruct (proj1 (Forall_forall _ _) HC t Ht) as [HP HInc]. rewrite string_inner.
  - rewrite (FermiProofs.inner_conj N b). generalize (inner N (circ_act (snd t) a) b) (fst t). intros x c. apply C_ext; cbn; ring.
  - exact HP.
  - apply increasing_nodup, HInc.
  - pose proof (proj1 (Forall_forall _ _) HR t Ht) as HG. eapply Forall_impl; [|exact HG]. cbn beta. intros g Hg. lia.
Qed.
Lemma neg_conj_act o psi : op_act (neg_conj o) psi == sscale (- C1) (op_act (conj_op o) psi).
Proof. intros I. unfold sscale, op_act, neg_conj, conj_op, retag. rewrite !Csum_map, <- Csum_mul_l. apply Csum_ext. intros t _. cbn [fst snd]. ring. Qed.
Definition skew_map (n : nat) (f : state -> state) : Prop := forall N a b, (n <= N)%nat -> inner N a (f b) = - inner N (f a) b.
Lemma inner_all n (f g : state -> state) : (forall N a b, (n <= N)%nat -> inner N a (f b) = inner N a (g b)) -> forall psi, f psi == g psi.
Proof.
  intros H psi I. set (N := (n + S I)%nat). assert (HI : (I < 2 ^ N)%nat) by (unfold N; pose proof (Nat.pow_gt_lin_r 2 (n + S I)); lia).
  specialize (H N (ket I) psi ltac:(unfold N; lia)). rewrite !QftProofs.inner_ket in H by exact HI. exact H.
Qed.
Lemma inner_minus n a b : inner n a (sscale (- C1) b) = - inner n a b.
Proof. rewrite FermiProofs.inner_scale_r. ring. Qed.
Lemma canonical_big_eq a b : canonical_op a -> canonical_op b -> NoDup (map snd a) -> NoDup (map snd b) -> (forall psi, op_act a psi == op_act b psi) ->
  forall psi, op_act (filter big a) psi == op_act (filter big b) psi.
Proof.
  intros Ca Cb Na Nb H psi. apply op_act_perm. apply NoDup_Permutation.
  - eapply NoDup_map_inv, filter_keys, Na.
  - eapply NoDup_map_inv, filter_keys, Nb.
  - assert (Z : forall t, big t = true -> fst t <> C0).
    { intros t Ht E. unfold big in Ht. rewrite E, Cabs_C0 in Ht. destruct (Rltb_spec 1e-12 0); [lra|discriminate]. }
    intros t. rewrite !filter_In. split; intros [HI HB]; (split; [|exact HB]).
    + apply (op_unique_in a b t Ca Cb Na Nb H HI), Z, HB.
    + apply (op_unique_in b a t Cb Ca Nb Na); [intros q; apply seq_sym, H|exact HI|apply Z, HB].
Qed.
Lemma Cabs_opp_conj c : Cabs (- Cconj c) = Cabs c.
Proof. unfold Cabs. f_equal. unfold Cnorm2. cbn. ring. Qed.
Lemma big_neg_conj o : filter big (neg_conj o) = neg_conj (filter big o).
Proof.
  induction o as [|t o IH]; [reflexivity|]. change (neg_conj (t :: o)) with ((- Cconj (fst t), snd t) :: neg_conj o). cbn [filter].
  assert (E : big (- Cconj (fst t), snd t) = big t) by (unfold big; cbn [fst]; now rewrite Cabs_opp_conj). rewrite E. destruct (big t); [change (neg_conj (t :: filter big o)) with ((- Cconj (fst t), snd t) :: neg_conj (filter big o))|]; now rewrite IH.
Qed.
Lemma real_of_coeffs o : canonical_op o -> Forall (fun t => (if Nat.odd (count_Y (snd t)) then - Cconj (fst t) else Cconj (fst t)) = fst t) o -> real_map (op_act o).
Proof.
  intros HC HR psi I. unfold op_act, sconj at 2. rewrite Csum_conj. apply Csum_ext. intros t Ht. unfold canonical_op in HC. rewrite Forall_forall in *. destruct (HC t Ht) as (P & _). specialize (HR t Ht). cbn beta in HR.
  rewrite (sconj_circ _ P psi I). unfold sscale, sconj. rewrite Cconj_mul. destruct (Nat.odd (count_Y (snd t))).
  - rewrite <- HR at 1. ring.
  - rewrite <- HR at 1. ring.
Qed.
Lemma conj_real_map o : canonical_op o -> Forall (fun t => (if Nat.odd (count_Y (snd t)) then - Cconj (fst t) else Cconj (fst t)) = fst t) o -> real_map (op_act (conj_op o)).
Proof.
  intros HC HR. apply real_of_coeffs; [now apply retag_canonical|]. apply Forall_map. eapply Forall_impl; [|exact HR]. cbn beta. cbn [fst snd]. intros t H. rewrite <- H at 3. destruct (Nat.odd _); [|reflexivity]. apply C_ext; cbn; ring.
Qed.

(** [H, K] as join_as_commutator computes it *)
Theorem commutator_one n H K : Hamiltonian n H -> canonical_op K -> in_reg n K -> skew_map n (op_act K) -> exists o o' k,
  operator_product H K false true = Ok o /\ operator_product K H false true = Ok o' /\ op_simplify true (o ++ op_mult_coeffs o' (- C1)) = Ok k /\
  Hamiltonian n k /\ (EvenY H -> real_map (op_act K) -> EvenY k) /\
  forall psi, (norm n (ssub (ssub (op_act H (op_act K psi)) (op_act K (op_act H psi))) (op_act k psi)) <= 3e-12 * INR (4 ^ n) * norm n psi)%R.
Proof.
  intros HH KC KR KS. pose proof (ham_distinct n H HH) as DH. pose proof (canonical_distinct K KC) as DK. pose proof (ham_reg n H HH) as RH.
  pose proof (raw_product_pauli H K (distinct_pauli H DH) (distinct_pauli K DK)) as P1. pose proof (raw_product_pauli K H (distinct_pauli K DK) (distinct_pauli H DH)) as P2.
  destruct (simplify_all n _ P1 (raw_product_reg n H K RH KR)) as (a1 & C1' & N1 & R1 & W1 & E1). destruct (simplify_all n _ P2 (raw_product_reg n K H KR RH)) as (a2 & C2' & N2 & R2 & W2 & E2).
  assert (A1 : forall psi, op_act a1 psi == op_act H (op_act K psi)).
  { intros psi I. rewrite <- (W1 psi I), (wop_product H K psi I). rewrite (wop_ext H _ _ (wop_op K psi DK) I). apply wop_op, DH. }
  assert (A2 : forall psi, op_act a2 psi == op_act K (op_act H psi)).
  { intros psi I. rewrite <- (W2 psi I), (wop_product K H psi I). rewrite (wop_ext K _ _ (wop_op H psi DH) I). apply wop_op, DK. }
  pose proof (ham_hermitian n H HH) as SH.
  assert (A3 : forall psi, op_act a2 psi == op_act (neg_conj a1) psi).
  { apply (inner_all n). intros N a b L. rewrite (inner_ext N a a _ _ (seq_refl a) (neg_conj_act a1 b)), inner_minus, (conj_inner n a1 N a b C1' R1 L).
    rewrite (inner_ext N _ _ _ _ (A1 a) (seq_refl b)), <- (SH N _ b L). rewrite (inner_ext N a a _ _ (seq_refl a) (A2 b)), (KS N a _ L). reflexivity. }
  set (b1 := filter big a1) in *. set (b2 := filter big a2) in *.
  assert (B : forall psi, op_act b2 psi == sscale (- C1) (op_act (conj_op b1) psi)).
  { intros psi I. unfold b2. rewrite (canonical_big_eq a2 (neg_conj a1) C2' (retag_canonical _ _ C1') N2 (retag_nodup _ _ N1) A3 psi I). rewrite big_neg_conj. apply neg_conj_act. }
  assert (CB1 : canonical_op b1) by now apply filter_canonical. assert (CB2 : canonical_op b2) by now apply filter_canonical. assert (RB1 : in_reg n b1) by now apply filter_reg. assert (RB2 : in_reg n b2) by now apply filter_reg.
  set (f := fun psi => sadd (op_act b1 psi) (op_act (conj_op b1) psi)).
  assert (CM : canonical_op (op_mult_coeffs b2 (- C1))) by (apply Forall_map; exact CB2).
  assert (CA : canonical_op (b1 ++ op_mult_coeffs b2 (- C1))) by (apply Forall_app; auto).
  assert (RM : in_reg n (op_mult_coeffs b2 (- C1))) by (apply Forall_map; exact RB2).
  assert (RA : in_reg n (b1 ++ op_mult_coeffs b2 (- C1))) by (apply Forall_app; auto).
  assert (WF : forall psi, wop (b1 ++ op_mult_coeffs b2 (- C1)) psi == f psi).
  { intros psi I. rewrite (wop_op _ psi (canonical_distinct _ CA) I), (op_act_app _ _ psi I). unfold f, sadd. f_equal. rewrite (mult_act b2 (- C1) psi I). unfold sscale. rewrite (B psi I). unfold sscale. ring. }
  assert (HF : hermitian_map n f).
  { intros N a b L. unfold f. rewrite FermiProofs.inner_add_r, QkProofs.inner_add_l. rewrite (conj_inner n b1 N a b CB1 RB1 L).
    assert (X : inner N a (op_act b1 b) = inner N (op_act (conj_op b1) a) b). { rewrite (FermiProofs.inner_conj N a), (FermiProofs.inner_conj N (op_act (conj_op b1) a)). now rewrite (conj_inner n b1 N b a CB1 RB1 L). }
    rewrite X. ring. }
  destruct (simplify_herm n _ f (canonical_pauli_op _ CA) RA WF HF) as (k & d & Ek & Hk & Kc & Kn & _ & KY & Kf & Kd).
  exists b1, b2, k. split; [exact E1|]. split; [exact E2|]. split; [exact Ek|]. split; [exact Hk|]. split.
  - intros EY RK. apply KY. assert (RC : Forall (fun t => (if Nat.odd (count_Y (snd t)) then - Cconj (fst t) else Cconj (fst t)) = fst t) b1).
    { pose proof (real_coeffs a1 (fun psi => op_act H (op_act K psi)) C1' N1 A1) as X. pose proof (even_real n H HH EY) as RHm.
      assert (RHK : real_map (fun psi => op_act H (op_act K psi))). { intros psi I. rewrite (op_act_ext H _ _ (RK psi) I). apply RHm. }
      specialize (X RHK). rewrite Forall_forall in X. apply Forall_forall. intros t Ht. apply filter_In in Ht. apply X, Ht. }
    intros psi I. unfold f, sadd. rewrite (real_of_coeffs b1 CB1 RC psi I), (conj_real_map b1 CB1 RC psi I). unfold sconj. apply C_ext; cbn; ring.
  - intros psi. set (e1 := op_act (small_part a1) psi). set (e2 := op_act (small_part a2) psi). set (e3 := op_act d psi).
    assert (E : ssub (ssub (op_act H (op_act K psi)) (op_act K (op_act H psi))) (op_act k psi) == sadd (ssub e1 e2) e3).
    { intros I. unfold ssub, sadd, e1, e2, e3. rewrite <- (A1 psi I), <- (A2 psi I), (split_act a1 psi I), (split_act a2 psi I). fold b1 b2. unfold sadd. rewrite (B psi I). unfold sscale. pose proof (Kf psi I) as X. unfold f, sadd in X.
      replace (op_act b1 psi I + op_act (small_part a1) psi I - (- C1 * op_act (conj_op b1) psi I + op_act (small_part a2) psi I) - op_act k psi I) with ((op_act b1 psi I + op_act (conj_op b1) psi I) - op_act k psi I + op_act (small_part a1) psi I - op_act (small_part a2) psi I) by ring. rewrite X. ring. }
    rewrite (norm_ext n _ _ (fun I _ => E I)). pose proof (small_norm n a1 psi C1' R1 N1) as S1. pose proof (small_norm n a2 psi C2' R2 N2) as S2. pose proof (Kd psi) as S3.
    eapply Rle_trans; [apply norm_triangle|]. assert (NS : (norm n (ssub e1 e2) <= norm n e1 + norm n e2)%R). { eapply Rle_trans; [apply (norm_sub_split n e1 szero e2)|]. rewrite (norm_ext n (ssub e1 szero) e1) by (intros I _; unfold ssub, szero; ring). rewrite (norm_opp_sub n szero e2), (norm_ext n (ssub e2 szero) e2) by (intros I _; unfold ssub, szero; ring). lra. } fold e1 in S1. fold e2 in S2. fold e3 in S3. lra.
Qed.
