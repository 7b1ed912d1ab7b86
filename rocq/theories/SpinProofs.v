(** Spin operators: Jordan-Wigner is exact for dyadic coefficients. *)
From Coq Require Import Reals String List Arith Lia Bool Lra Permutation Sorted ZArith NArith FunctionalExtensionality.
From Verif Require Import CBase Result Bits Spec OpSpec SQSpec GateModel ComputerModel SafeProofs CircuitModel PauliProofs OperatorModel OperatorProofs OrderProofs PauliIndep SQModel SQPhase SQProofs JWProofs PropOperator PropSQ SpinModel.
From Verif Require SaSpec SaFermi FermiProofs.
Import ListNotations.
Local Open Scope C_scope.

Lemma dy_mono j k c : (j <= k)%nat -> dy j c -> dy k c.
Proof.
  intros H (a & b & ->). destruct (Nat.le_exists_sub j k H) as (d & -> & _). exists (a * 2 ^ Z.of_nat d)%Z, (b * 2 ^ Z.of_nat d)%Z. rewrite !mult_IZR, <- pow_IZR, pow_add.
  pose proof (pow2_nz j). pose proof (pow2_nz d). apply C_ext; cbn [Re Im]; field; auto.
Qed.
Lemma dyop_mono j k o : (j <= k)%nat -> dyop j o -> dyop k o.
Proof. intros H. apply Forall_impl. intros t. apply dy_mono, H. Qed.
Lemma dy_sgn b : dy 0 (sgn b).
Proof. destruct b; [apply (dy_neg 0 C1), dy_C1|apply dy_C1]. Qed.
Definition fdy (k : nat) (o : list fterm) : Prop := Forall (fun t => dy k (fcoef t)) o.
Lemma sq_canonical_dy srt k o : legal_sort srt -> forall o', sq_canonical_order srt o = Ok o' -> fdy k o -> fdy k o'.
Proof.
  intros HS. unfold sq_canonical_order. induction o as [|t o IH]; intros o' E H; cbn [mapM] in E.
  - assert (o' = []) by congruence. subst. constructor.
  - unfold canonical_order_single_term in E. destruct (canonicalize_spec srt (fcre t) HS) as (l1 & b1 & E1 & _). destruct (canonicalize_spec srt (fann t) HS) as (l2 & b2 & E2 & _).
    rewrite E1 in E. cbn [bind fst snd] in E. rewrite E2 in E. cbn [bind fst snd] in E.
    fold (canonical_order_single_term srt) in E. destruct (mapM _ o) as [r|] eqn:E3; cbn [bind] in E; [|discriminate].
    injection E as <-. constructor.
    + cbn [fcoef fst]. pose proof (dy_mul _ _ _ _ (dy_mul _ _ _ _ (Forall_inv H) (dy_sgn b1)) (dy_sgn b2)) as HM. rewrite !Nat.add_0_r in HM. exact HM.
    + apply IH; [reflexivity|exact (Forall_inv_tail H)].
Qed.
Lemma sq_accumulate_dy k key v m : dy k v -> Forall (fun kv => dy k (snd kv)) m -> Forall (fun kv => dy k (snd kv)) (sq_accumulate key v m).
Proof.
  intros Hv. induction m as [|[k' v'] r IH]; intros H; cbn [sq_accumulate]; [repeat constructor; exact Hv|].
  destruct (pair_ltb key k'); [constructor; [exact Hv|exact H]|]. destruct (pair_ltb k' key).
  - constructor; [exact (Forall_inv H)|]. apply IH, (Forall_inv_tail H).
  - constructor; [|exact (Forall_inv_tail H)]. cbn [snd]. apply dy_add; [exact (Forall_inv H)|exact Hv].
Qed.
Lemma sq_map_dy k o : forall m, fdy k o -> Forall (fun kv => dy k (snd kv)) m -> Forall (fun kv => dy k (snd kv)) (sq_map o m).
Proof.
  induction o as [|t o IH]; intros m H Hm; [exact Hm|]. cbn [sq_map fold_left]. apply IH; [exact (Forall_inv_tail H)|]. apply sq_accumulate_dy; [exact (Forall_inv H)|exact Hm].
Qed.
Lemma sq_simplify_exact srt k o : legal_sort srt -> (k <= 39)%nat -> fdy k o -> exists kept, sq_simplify srt o = Ok kept /\ fdy k kept /\
  (forall t, In t kept -> exists t0, In t0 o /\ Permutation (fcre t) (fcre t0) /\ Permutation (fann t) (fann t0)) /\
  forall psi, fermi_act o psi == fermi_act kept psi.
Proof.
  intros HS Hk HD. destruct (sq_simplify_spec srt o HS) as (kept & dr & E & _ & _ & _ & _ & HI & _). exists kept. split; [exact E|].
  unfold sq_simplify in E. destruct (sq_canonical_spec srt o HS) as (o' & E1 & _ & _ & HA). rewrite E1 in E. cbn [bind] in E. cbv zeta in E.
  change (fold_left (fun m t => sq_accumulate (fcre t, fann t) (fcoef t) m) o' []) with (sq_map o' []) in E.
  pose proof (sq_map_dy k o' [] (sq_canonical_dy srt k o HS o' E1 HD) (Forall_nil _)) as HU.
  destruct (sq_map_spec o' [] (SSorted_nil _)) as (_ & HM & _). set (m := sq_map o' []) in *.
  set (f := fun kv : skey * C => Rltb 1e-12 (Cabs (snd kv))) in E. fold tof in E.
  assert (EK : kept = map tof (filter f m)) by (injection E as <-; reflexivity). split; [|split].
  - rewrite EK. apply Forall_map, Forall_forall. intros kv H. apply filter_In in H. rewrite Forall_forall in HU. exact (HU kv (proj1 H)).
  - intros t Ht. apply HI, in_or_app. left; exact Ht.
  - intros psi J. rewrite (HA psi J). specialize (HM psi J). cbn [map] in HM. change (fermi_act [] psi J) with C0 in HM.
    replace (fermi_act o' psi J) with (fermi_act (map tof m) psi J) by (rewrite HM; ring). rewrite EK. clear - HU Hk. induction m as [|kv m IH]; [reflexivity|].
    cbn [map filter]. rewrite fermi_cons, IH by exact (Forall_inv_tail HU). unfold f at 2. destruct (Rltb_spec 1e-12 (Cabs (snd kv))) as [HL|HL].
    + cbn [map]. rewrite fermi_cons. reflexivity.
    + replace (fcoef (tof kv)) with C0; [ring|]. symmetry. apply (dy_small k _ Hk (Forall_inv HU)). apply Rnot_lt_le; exact HL.
Qed.
Lemma jw_term_dy t qo qo' j L : term_ok false (fcre t) (fann t) -> (length (fcre t) + length (fann t) <= L)%nat -> dy j (fcoef t) ->
  dyop (j + L) qo -> jw_term false t qo = Ok qo' -> dyop (j + L) qo'.
Proof.
  intros HT HL Hc HD. unfold jw_term. destruct (andb _ _) eqn:E.
  - intros E1. assert (qo' = op_add_op qo (op_add_term [] (fcoef t) [])) by congruence. subst. unfold op_add_op, op_add_term. cbn [app].
    apply Forall_app; split; [exact HD|]. constructor; [|constructor]. cbn [fst]. apply (dy_mono j); [lia|exact Hc].
  - destruct (jw_word_spec false (fcre t) (fann t) HT) as (h & EH & HI).
    destruct (jw_helper [] (fcre t) true false) as [h1|e] eqn:E1; cbn [bind] in *; [|discriminate]. rewrite EH. cbn [bind]. intros E2.
    assert (qo' = op_add_op qo (op_mult_coeffs h (fcoef t))) by congruence. subst. unfold op_add_op. apply Forall_app; split; [exact HD|].
    unfold op_mult_coeffs. apply Forall_map. cbn [fst]. pose proof (ji_dy _ _ _ HI) as HD1. eapply Forall_impl; [|exact HD1]. intros x Hx. cbn beta in Hx.
    assert (HLn : length (term_word (fcre t) (fann t)) = (length (fcre t) + length (fann t))%nat) by (unfold term_word; rewrite app_length, !map_length; reflexivity).
    rewrite HLn in Hx. apply (dy_mono (length (fcre t) + length (fann t) + j)); [lia|]. apply dy_mul; assumption.
Qed.
Definition small_term (L j : nat) (t : fterm) : Prop := NoDup (fcre t) /\ NoDup (fann t) /\ (length (fcre t) + length (fann t) <= L)%nat /\ dy j (fcoef t).
(** the Jordan-Wigner transform of an operator with dyadic coefficients is exact *)
Lemma jw_exact srt L j o : legal_sort srt -> (j + L <= 39)%nat -> Forall (small_term L j) o ->
  exists kept q, jw_transform srt false o = Ok (kept, q) /\ canonical_op q /\ NoDup (map snd q) /\ Forall (fun t => 1e-12 < Cabs (fst t))%R q /\ dyop (j + L) q /\
    (forall n, Forall (fun t => Forall (fun p => p < n)%nat (fcre t) /\ Forall (fun p => p < n)%nat (fann t)) o -> in_reg n q) /\
    forall psi, fermi_act o psi == op_act q psi.
Proof.
  intros HS HL HO. assert (HP : Forall PlainTerm o).
  { eapply Forall_impl; [|exact HO]. intros t (A & B & D & _). split; [exact A|]. split; [exact B|lia]. }
  assert (HD : fdy j o) by (eapply Forall_impl; [|exact HO]; intros t (_ & _ & _ & D); exact D).
  destruct (jw_transform_spec srt false o HS (plain_ok false srt o HS HP)) as (k & fd & q & d & E & EK & _ & _ & HC & HN & HB & _ & HR & _).
  exists k, q. split; [exact E|]. split; [exact HC|]. split; [exact HN|]. split; [exact HB|].
  destruct (sq_simplify_exact srt j o HS ltac:(lia) HD) as (k' & EK' & HDk & HI & HA). assert (k' = k) by congruence. subst k'.
  unfold jw_transform in E. rewrite EK in E. cbn [bind] in E.
  pose proof (plain_ok false srt o HS HP k EK) as HT.
  destruct (jw_terms_spec false k [] (Forall_nil _) HT) as (qo & E1 & HPq & _ & HWq). rewrite E1 in E. cbn [bind] in E.
  assert (HDq : dyop (j + L) qo).
  { assert (HLk : Forall (fun t => length (fcre t) + length (fann t) <= L)%nat k).
    { apply Forall_forall. intros t Ht. destruct (HI t Ht) as (t0 & H0 & P1 & P2). rewrite (Permutation_length P1), (Permutation_length P2).
      destruct (proj1 (Forall_forall _ _) HO t0 H0) as (_ & _ & D & _). exact D. }
    assert (HG : forall l a b, Forall (fun t => term_ok false (fcre t) (fann t)) l -> Forall (fun t => length (fcre t) + length (fann t) <= L)%nat l -> fdy j l ->
        dyop (j + L) a -> foreach l (jw_term false) a = Ok b -> dyop (j + L) b).
    { induction l as [|t l IH]; intros a b H1 H2 H3 Ha EF; cbn [foreach] in EF.
      - assert (b = a) by congruence. subst. exact Ha.
      - destruct (jw_term false t a) as [a'|] eqn:EA; cbn [bind] in EF; [|discriminate].
        apply (IH a' b (Forall_inv_tail H1) (Forall_inv_tail H2) (Forall_inv_tail H3)); [|exact EF].
        exact (jw_term_dy t a a' j L (Forall_inv H1) (Forall_inv H2) (Forall_inv H3) Ha EA). }
    apply (HG k [] qo HT HLk HDk (Forall_nil _) E1). }
  destruct (simplify_exact (j + L) qo HL HPq HDq) as (q' & E2 & HC' & HD' & HR' & HW'). rewrite E2 in E. cbn [bind] in E. assert (q' = q) by congruence. subst q'.
  split; [exact HD'|]. split; [exact HR|]. intros psi J. rewrite (HA psi J). rewrite <- (wop_op q psi (canonical_distinct q HC') J), <- (HW' psi J), HWq, psum_fermi.
  change (wop [] psi J) with C0. ring.
Qed.
