(** simplify, jw_transform and the children of get_qubit_operator on multiples of T - T^dagger. *)
From Coq Require Import Reals String List Arith Bool Lia Lra Sorted Permutation FunctionalExtensionality.
From Verif Require Import CBase Result Bits Spec OpSpec GateModel ComputerModel SafeProofs CircuitModel PauliProofs OperatorModel OperatorProofs OrderProofs PauliIndep SQSpec SQModel SQProofs SQPhase JWProofs SQPoolOps GsdProofs CompactModel CompactAct CompactFermi CompactProofs TwoLevel PauliPhase ExpSpec AnsatzSpec AnsatzOrder AnsatzModel AnsatzGen.
Import ListNotations.
Local Open Scope nat_scope.

Lemma mult_app a b z : op_mult_coeffs (a ++ b)%list z = (op_mult_coeffs a z ++ op_mult_coeffs b z)%list.
Proof. unfold op_mult_coeffs. apply map_app. Qed.
Lemma mult_mult o y z : op_mult_coeffs (op_mult_coeffs o y) z = op_mult_coeffs o (y * z)%C.
Proof. unfold op_mult_coeffs. rewrite map_map. apply map_ext. intros t. cbn [fst snd]. f_equal. ring. Qed.
Lemma mult_snd o z : map snd (op_mult_coeffs o z) = map snd o.
Proof. unfold op_mult_coeffs. rewrite map_map. apply map_ext. reflexivity. Qed.
Lemma mult_canonical o z : canonical_op o -> canonical_op (op_mult_coeffs o z).
Proof. intros H. unfold canonical_op, op_mult_coeffs in *. apply Forall_map. exact H. Qed.
Lemma mult_pauli o z : pauli_op o -> pauli_op (op_mult_coeffs o z).
Proof. intros H. unfold pauli_op, op_mult_coeffs in *. apply Forall_map. exact H. Qed.
Lemma mult_act o z psi I : op_act (op_mult_coeffs o z) psi I = (z * op_act o psi I)%C.
Proof. unfold op_act, op_mult_coeffs. rewrite Csum_map, <- Csum_mul_l. apply Csum_ext. intros t _. cbn [fst snd]. ring. Qed.
Lemma canonical_order_mult o z : forall o', canonical_order o = Ok o' -> canonical_order (op_mult_coeffs o z) = Ok (op_mult_coeffs o' z).
Proof.
  induction o as [|[c gs] r IH]; intros o' E; cbn [canonical_order op_mult_coeffs map fst snd] in *.
  - assert (o' = []) by congruence. now subst.
  - destruct (canonicalize_pauli_circuit gs) as [[d g']|e]; cbn [bind fst snd] in *; [|discriminate]. destruct (canonical_order r) as [r'|e]; cbn [bind] in *; [|discriminate].
    fold (op_mult_coeffs r z). rewrite (IH r' eq_refl). cbn [bind]. assert (o' = ((c * d)%C, g') :: r') by congruence. subst o'. cbn [op_mult_coeffs map fst snd]. do 3 f_equal. ring.
Qed.
Definition mulv (z : C) (kv : list gate * C) : list gate * C := (fst kv, (snd kv * z)%C).
Lemma accumulate_mult k v z m : map_accumulate k (v * z)%C (map (mulv z) m) = map (mulv z) (map_accumulate k v m).
Proof.
  induction m as [|[k' v'] r IH]; [reflexivity|]. cbn [map mulv fst snd map_accumulate]. destruct (circuit_ltb k k'); [reflexivity|]. destruct (circuit_ltb k' k); cbn [map mulv fst snd]; [now rewrite IH|]. unfold mulv; cbn [fst snd]. replace ((v' + v) * z)%C with (v' * z + v * z)%C by ring. reflexivity.
Qed.
Lemma unique_mult o z : unique_terms (op_mult_coeffs o z) = map (mulv z) (unique_terms o).
Proof.
  unfold unique_terms. change ([] : list (list gate * C)) with (map (mulv z) ([] : list (list gate * C))) at 1. generalize ([] : list (list gate * C)) as m. induction o as [|t r IH]; intros m; [reflexivity|]. cbn [op_mult_coeffs map fold_left fst snd]. rewrite accumulate_mult. apply IH.
Qed.
Lemma dy_lower k c : dy k c -> c <> C0 -> (/ 2 ^ k <= Cabs c)%R.
Proof.
  intros (a & b & ->) N. assert (HP : (0 < 2 ^ k)%R) by (apply pow_lt; lra). apply Rnot_lt_le. intros HL. apply N.
  set (c := mkC (IZR a / 2 ^ k) (IZR b / 2 ^ k)) in *. pose proof (Cabs_nonneg c) as H0.
  assert (HS : (Cnorm2 c < / 2 ^ k * / 2 ^ k)%R) by (rewrite <- Cabs_sq; nra). unfold Cnorm2, c in HS; cbn [Re Im] in HS.
  assert (HZ : (IZR a * IZR a + IZR b * IZR b < 1)%R).
  { replace (IZR a / 2 ^ k * (IZR a / 2 ^ k) + IZR b / 2 ^ k * (IZR b / 2 ^ k))%R with ((IZR a * IZR a + IZR b * IZR b) * (/ 2 ^ k * / 2 ^ k))%R in HS by (field; lra).
    assert (0 < / 2 ^ k * / 2 ^ k)%R by (apply Rmult_lt_0_compat; apply Rinv_0_lt_compat; exact HP). nra. }
  rewrite <- !mult_IZR, <- plus_IZR in HZ. apply lt_IZR in HZ. assert (a = 0)%Z by nia. assert (b = 0)%Z by nia. subst. unfold c. apply C_ext; cbn; unfold Rdiv; ring.
Qed.
Lemma dy_scaled k c z : dy k c -> c <> C0 -> (1e-12 * 2 ^ k < Cabs z)%R -> (1e-12 < Cabs (c * z))%R.
Proof.
  intros Hd N Hz. rewrite Cabs_mul. pose proof (dy_lower k c Hd N) as L. assert (HP : (0 < 2 ^ k)%R) by (apply pow_lt; lra). assert (HI : (0 < / 2 ^ k)%R) by now apply Rinv_0_lt_compat.
  apply Rlt_le_trans with (/ 2 ^ k * Cabs z)%R; [|apply Rmult_le_compat_r; [apply Cabs_nonneg|exact L]]. replace 1e-12%R with (/ 2 ^ k * (1e-12 * 2 ^ k))%R at 1 by (field; lra). now apply Rmult_lt_compat_l.
Qed.
Lemma simplify_scale k o o' z : (k <= 39)%nat -> pauli_op o -> dyop k o -> (1e-12 * 2 ^ k < Cabs z)%R -> op_simplify true o = Ok o' -> op_simplify true (op_mult_coeffs o z) = Ok (op_mult_coeffs o' z).
Proof.
  intros Hk HP HD Hz E. unfold op_simplify in *. destruct (canonical_order o) as [o1|e] eqn:E1; cbn [bind] in E; [|discriminate]. rewrite (canonical_order_mult o z o1 E1). cbn [bind]. cbv zeta in *.
  pose proof (canonical_order_dy k o o1 E1 HD) as HD1. pose proof (unique_dy k o1 [] HD1 (Forall_nil _)) as HU. fold (unique_terms o1) in HU. rewrite unique_mult.
  set (m := unique_terms o1) in *. clearbody m. assert (E2 : o' = map (fun kv : list gate * C => (snd kv, fst kv)) (filter (fun kv : list gate * C => Rltb 1e-12 (Cabs (snd kv))) m)) by congruence. rewrite E2. f_equal. clear E E2.
  unfold op_mult_coeffs. rewrite map_map. cbn [fst snd]. induction HU as [|[g c] r Hc _ IH]; [reflexivity|]. cbn [map filter mulv fst snd] in *.
  destruct (Ceq_dec c C0) as [->|N].
  - replace (C0 * z)%C with C0 by ring. rewrite Cabs_C0, Rltb_false by lra. exact IH.
  - rewrite (Rltb_true 1e-12 (Cabs (c * z))) by (eapply dy_scaled; eassumption). rewrite Rltb_true by (apply Rnot_le_lt; intros B; apply N; now apply (dy_small k)). cbn [map fst snd]. f_equal. exact IH.
Qed.
Lemma simplify_zero o o' : op_simplify true o = Ok o' -> op_simplify true (op_mult_coeffs o C0) = Ok [].
Proof.
  unfold op_simplify. destruct (canonical_order o) as [o1|e] eqn:E1; cbn [bind]; [|discriminate]. intros _. rewrite (canonical_order_mult o C0 o1 E1). cbn [bind]. cbv zeta. rewrite unique_mult. f_equal.
  induction (unique_terms o1) as [|[g c] r IH]; [reflexivity|]. cbn [map filter mulv fst snd]. replace (c * C0)%C with C0 by ring. rewrite Cabs_C0, Rltb_false by lra. exact IH.
Qed.

(** ---- SQOperator::simplify on a (T - T^dagger) ---- *)
Lemma desc_inversions l : dsorted l -> inversions l = 0.
Proof.
  unfold dsorted. induction 1 as [|x l Hl IH HF]; [reflexivity|]. cbn [inversions]. rewrite IH. replace (filter _ l) with (@nil nat); [reflexivity|]. symmetry. clear - HF. induction HF as [|y l Hy _ IH]; [reflexivity|]. cbn [filter]. destruct (Nat.ltb_spec x y); [lia|exact IH].
Qed.
Lemma simplify_pair srt a P H : legal_sort srt -> dsorted P -> dsorted H -> P <> H -> (1e-12 < Rabs a)%R ->
  sq_simplify srt (Antihermitian a P H) = Ok (if pair_ltb (P, H) (H, P) then Antihermitian a P H else Antihermitian (- a) H P).
Proof.
  intros HS HP HH N Ha. unfold sq_simplify, sq_canonical_order, Antihermitian. cbn [mapM].
  rewrite (canon_single srt _ P H P H HS HP HH) by reflexivity. cbn [bind]. rewrite (canon_single srt _ H P H P HS HH HP) by reflexivity. cbn [bind].
  rewrite !desc_inversions by assumption. change (sgn (Nat.odd 0)) with C1. unfold fcre, fann, fcoef. cbn [fold_left fst snd sq_accumulate].
  replace (RtoC a * C1 * C1)%C with (RtoC a) by ring. replace (RtoC (- a) * C1 * C1)%C with (RtoC (- a)) by ring.
  assert (K1 : Rltb 1e-12 (Cabs (RtoC a)) = true) by (apply Rltb_true; rewrite Cabs_RtoC; exact Ha). assert (K2 : Rltb 1e-12 (Cabs (RtoC (- a))) = true) by (apply Rltb_true; rewrite Cabs_RtoC, Rabs_Ropp; exact Ha).
  destruct (pair_ltb (H, P) (P, H)) eqn:E1.
  - rewrite (pair_ltb_asym _ _ E1). cbn [filter snd fst]. rewrite K1, K2. cbn [map fst snd]. now rewrite Ropp_involutive.
  - destruct (pair_ltb (P, H) (H, P)) eqn:E2.
    + cbn [filter snd fst]. rewrite K1, K2. reflexivity.
    + exfalso. pose proof (pair_ltb_total _ _ E1 E2) as E'. injection E' as E' _. congruence.
Qed.
(** ---- jw_transform ---- *)
Record jw_pair (qe : bool) (P H : list nat) (q : qop) : Prop := {
  jp_canonical : canonical_op q; jp_nodup : NoDup (map snd q); jp_dy : dyop (length P + length H) q;
  jp_fixed : op_simplify true q = Ok q; jp_nonzero : Forall (fun t => fst t <> C0) q;
  jp_act : forall psi I, op_act q psi I = act qe (kappa P H) psi I;
  jp_reg : forall n, Forall (fun p => p < n) P -> Forall (fun p => p < n) H -> in_reg n q;
  jp_jw : forall srt a, legal_sort srt -> (1e-12 * 2 ^ (length P + length H) < Rabs a)%R -> jw_transform srt qe (Antihermitian a P H) = Ok (if pair_ltb (P, H) (H, P) then Antihermitian a P H else Antihermitian (- a) H P, op_mult_coeffs q (RtoC a)) }.
Lemma pow_ge1 n : (1 <= 2 ^ n)%R.
Proof. apply pow_R1_Rle. lra. Qed.
Lemma jw_pair_exists qe P H : P <> [] -> P <> H -> dsorted P -> dsorted H -> length P + length H <= 39 -> exists q, jw_pair qe P H q.
Proof.
  intros Ne N DP DH L. set (n := length P + length H) in *.
  destruct (jw_word_spec qe P H) as (h1 & E1 & J1); [apply distinct_term_ok; [exact L|now apply dsorted_nodup|now apply dsorted_nodup]|].
  destruct (jw_word_spec qe H P) as (h2 & E2 & J2); [apply distinct_term_ok; [lia|now apply dsorted_nodup|now apply dsorted_nodup]|].
  set (o1 := (h1 ++ op_mult_coeffs h2 (- C1)%C)%list).
  assert (W1 : length (term_word P H) = n) by (unfold term_word; rewrite app_length, !map_length; reflexivity). assert (W2 : length (term_word H P) = n) by (unfold term_word; rewrite app_length, !map_length; unfold n; lia).
  assert (HP1 : pauli_op o1) by (apply Forall_app; split; [exact (ji_pauli _ _ _ J1)|apply mult_pauli, (ji_pauli _ _ _ J2)]).
  assert (HD1 : dyop n o1).
  { apply Forall_app; split; [rewrite <- W1; exact (ji_dy _ _ _ J1)|]. unfold op_mult_coeffs. apply Forall_map. cbn [fst]. pose proof (ji_dy _ _ _ J2) as D. rewrite W2 in D. eapply Forall_impl; [|exact D]. intros t Ht. cbn beta. pose proof (dy_mul n 0 _ _ Ht (dy_neg 0 _ dy_C1)) as K. now rewrite Nat.add_0_r in K. }
  destruct (simplify_exact n o1 L HP1 HD1) as (q & Eq & Cq & Dq & Rq & Wq).
  destruct (simplify_small true o1 HP1) as (q' & dr & Eq' & _ & Nq & _ & _ & Bq & _). assert (q' = q) by congruence. subst q'. specialize (Bq eq_refl).
  assert (TW1 : term_word P H <> []) by (intros K; rewrite K in W1; cbn in W1; destruct P; [contradiction|cbn in *; unfold n in W1; cbn in W1; lia]).
  assert (TW2 : term_word H P <> []) by (intros K; rewrite K in W2; cbn in W2; destruct P; [contradiction|unfold n in W2; cbn in W2; lia]).
  exists q. constructor.
  - exact Cq.
  - exact Nq.
  - exact Dq.
  - apply (simplify_idem o1 q HP1 Eq).
  - eapply Forall_impl; [|exact Bq]. intros t Ht E. cbn beta in Ht. rewrite E, Cabs_C0 in Ht. lra.
  - intros psi I. rewrite <- (wop_op q psi (canonical_distinct q Cq) I), <- (Wq psi I). unfold o1. rewrite (wop_app _ _ psi I). unfold sadd. rewrite (wop_mult h2 _ psi I). unfold sscale. rewrite (ji_act _ _ _ J1 TW1 psi I), (ji_act _ _ _ J2 TW2 psi I).
    transitivity (psum qe (kappa P H) psi I); [|unfold act; destruct qe; [apply psum_qexc|apply psum_fermi]]. unfold psum, kappa, ptact. rewrite !Csum_cons, Csum_nil. unfold fcoef, fcre, fann. cbn [fst snd]. ring.
  - intros r FP FH. apply Rq. unfold o1. apply Forall_app. split; [apply (ji_reg _ _ _ J1); apply Forall_app; split; apply Forall_map; assumption|]. unfold op_mult_coeffs. apply Forall_map. cbn [snd]. apply (ji_reg _ _ _ J2). apply Forall_app; split; apply Forall_map; assumption.
  - intros srt a HS Ha. pose proof (pow_ge1 n) as G1. fold n in Ha. assert (Ha' : (1e-12 < Rabs a)%R) by lra. unfold jw_transform. rewrite (simplify_pair srt a P H HS DP DH N Ha'). cbn [bind].
    assert (T : forall c A B h, (do t <- jw_helper [] A true qe; jw_helper t B false qe) = Ok h -> (length A =? 0) && (length B =? 0) = false -> forall qo, jw_term qe ((c, A), B) qo = Ok (qo ++ op_mult_coeffs h c)%list).
    { intros c A B h Eh Ee qo. unfold jw_term, fcre, fann, fcoef. cbn [fst snd]. rewrite Ee. destruct (jw_helper [] A true qe) as [t|e]; cbn [bind] in *; [|discriminate]. rewrite Eh. reflexivity. }
    assert (Z1 : (length P =? 0) && (length H =? 0) = false) by (destruct P; [contradiction|reflexivity]). assert (Z2 : (length H =? 0) && (length P =? 0) = false) by (rewrite andb_comm; exact Z1).
    assert (S : op_simplify true (op_mult_coeffs o1 (RtoC a)) = Ok (op_mult_coeffs q (RtoC a))) by (apply (simplify_scale n); try assumption; rewrite Cabs_RtoC; exact Ha).
    assert (EO : op_mult_coeffs o1 (RtoC a) = (op_mult_coeffs h1 (RtoC a) ++ op_mult_coeffs h2 (RtoC (- a)))%list).
    { unfold o1. rewrite mult_app, mult_mult. do 2 f_equal. apply C_ext; cbn; ring. }
    assert (HM : pauli_op (op_mult_coeffs o1 (RtoC a))) by now apply mult_pauli.
    destruct (pair_ltb (P, H) (H, P)); unfold Antihermitian; cbn [foreach].
    + rewrite (T _ _ _ h1 E1 Z1). cbn [bind app]. rewrite (T _ _ _ h2 E2 Z2). cbn [bind]. rewrite <- EO, S. reflexivity.
    + rewrite (T _ _ _ h2 E2 Z2). cbn [bind app]. rewrite (T _ _ _ h1 E1 Z1). cbn [bind]. rewrite Ropp_involutive. rewrite EO in HM. rewrite <- (simplify_perm true _ _ HM (Permutation_app_comm _ _)). rewrite <- EO, S. reflexivity.
Qed.
