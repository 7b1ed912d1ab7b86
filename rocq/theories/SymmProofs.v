(** symmetry_check: expectation values, variances and sector weights. *)
From Coq Require Import Reals String List Arith Lia Bool Lra Permutation Sorted ZArith NArith.
From Verif Require Import CBase Result Bits Spec OpSpec SQSpec GateModel ComputerModel SafeProofs LibProofs CircuitModel PauliProofs OperatorModel OperatorProofs OrderProofs PauliIndep MeasureModel SQModel SQPhase SQProofs JWProofs PropOperator PropSQ PropMeasure SQPoolModel SQPoolSpec GradModel SpinModel SpinSpec SpinProofs SpinOps RealOps.
From Verif Require Import SaSpec SaFermi FermiProofs PyApply.
From Verif Require TransProofs PropGsd GsdProofs PropRes PropGrad CompactRot GradProofs ThreeQubit GateEval.
Import ListNotations.
Local Open Scope C_scope.

(** ---- real and Hermitian maps ---- *)
Lemma create_conj p psi : create p (sconj psi) = sconj (create p psi).
Proof. apply eqs. intros I. unfold create, sconj. destruct (bit I p); [|apply C_ext; cbn; ring]. unfold sgn. destruct (odd_below I p); apply C_ext; cbn; ring. Qed.
Lemma annihilate_conj p psi : annihilate p (sconj psi) = sconj (annihilate p psi).
Proof. apply eqs. intros I. unfold annihilate, sconj. destruct (bit I p); [apply C_ext; cbn; ring|]. unfold sgn. destruct (odd_below I p); apply C_ext; cbn; ring. Qed.
Lemma real_plus m : real_map (spin_plus m).
Proof. intros psi I. unfold spin_plus, sconj at 2. rewrite Csum_conj. apply Csum_ext. intros p _. rewrite annihilate_conj, create_conj. reflexivity. Qed.
Lemma real_minus m : real_map (spin_minus m).
Proof. intros psi I. unfold spin_minus, sconj at 2. rewrite Csum_conj. apply Csum_ext. intros p _. rewrite annihilate_conj, create_conj. reflexivity. Qed.
Lemma real_comp f g : respects f -> real_map f -> real_map g -> real_map (fun psi => f (g psi)).
Proof. intros Hf R1 R2 psi I. rewrite (Hf _ _ (R2 psi) I). apply R1. Qed.
Lemma herm_comp n f : hermitian_map n f -> hermitian_map n (fun psi => f (f psi)).
Proof. intros H N a b HN. rewrite !H by exact HN. reflexivity. Qed.
Definition diagonal (d : nat -> R) (psi : state) : state := fun I => RtoC (d I) * psi I.
Lemma diag_respects d : respects (diagonal d).
Proof. intros a b H I. unfold diagonal. rewrite (H I). reflexivity. Qed.
Lemma diag_real d : real_map (diagonal d).
Proof. intros psi I. unfold diagonal, sconj. apply C_ext; cbn; ring. Qed.
Lemma diag_herm d n : hermitian_map n (diagonal d).
Proof. intros N a b _. unfold inner, diagonal. apply Csum_ext. intros I _. apply C_ext; cbn; ring. Qed.
Lemma sq_respects m : respects (spin_squared m).
Proof. intros a b H I. rewrite !spin_squared_eq. rewrite (spin_minus_ext m _ _ (spin_plus_ext m _ _ H) I), (spin_z_ext m _ _ H I), (spin_z_ext m _ _ (spin_z_ext m _ _ H) I). reflexivity. Qed.
Lemma real_z m : real_map (spin_z m).
Proof. exact (diag_real (sz_value m)). Qed.
Lemma sq_real m : real_map (spin_squared m).
Proof.
  intros psi I. unfold sconj at 2. rewrite !spin_squared_eq.
  rewrite (spin_minus_ext m _ _ (real_plus m psi) I), (real_minus m _ I).
  rewrite (spin_z_ext m _ _ (real_z m psi) I), (real_z m (spin_z m psi) I), (real_z m psi I). unfold sconj.
  generalize (spin_minus m (spin_plus m psi) I) (spin_z m psi I) (spin_z m (spin_z m psi) I). intros a b c. apply C_ext; cbn; ring.
Qed.
Lemma inner_minus m n a b : (2 * m <= n)%nat -> inner n a (spin_minus m b) = inner n (spin_plus m a) b.
Proof. intros H. rewrite inner_conj, <- inner_plus by exact H. rewrite <- inner_conj. reflexivity. Qed.
Lemma sq_herm m : hermitian_map (2 * m) (spin_squared m).
Proof.
  intros N a b HN. set (Z := spin_z m).
  assert (E : forall x, spin_squared m x == sadd (spin_minus m (spin_plus m x)) (sadd (Z x) (Z (Z x)))) by (intros x I; rewrite spin_squared_eq; unfold sadd, Z; ring).
  assert (HZ : forall x y, inner N x (Z y) = inner N (Z x) y) by (intros x y; exact (diag_herm (sz_value m) N N x y (le_n N))).
  assert (AL : forall x y z, inner N (sadd x y) z = inner N x z + inner N y z).
  { intros x y z. rewrite inner_conj, inner_add_r. rewrite (inner_conj N x), (inner_conj N y). apply C_ext; cbn; ring. }
  rewrite (inner_ext N a a _ _ (seq_refl a) (E b)), (inner_ext N _ _ b b (E a) (seq_refl b)). rewrite !inner_add_r, !AL.
  rewrite inner_minus by exact HN. rewrite inner_plus by exact HN. rewrite !HZ. reflexivity.
Qed.
(** ---- expectation values ---- *)
Definition valid_par (n : nat) (par : option schedule) : Prop := match par with None => True | Some sched => legal_schedule sched /\ (1 <= n)%nat end.
Lemma canonical_on n o : canonical_op o -> in_reg n o -> Terms (StringOn n) o.
Proof.
  intros HC HR. unfold Terms. rewrite Forall_forall in *. intros t Ht. destruct (proj1 (Forall_forall _ _) HC t Ht) as [H1 H2]. split; [split; [apply circuit_iff, H1|]|exact (proj1 (Forall_forall _ _) HR t Ht)].
  apply (increasing_nodup _ H2).
Qed.
Lemma strings_evaluable n par o : valid_par n par -> Terms (StringOn n) o -> Forall (fun t => Nat.even (count_Y (snd t)) = true) o -> PropRes.Evaluable n par o.
Proof.
  intros HV HS HY. destruct par as [sched|]; cbn [PropRes.Evaluable valid_par] in *.
  - destruct HV as (HL & Hn). split; [exact HL|]. split; [exact Hn|]. unfold Terms in *. rewrite Forall_forall in *. intros t Ht. split; [apply HS, Ht|apply HY, Ht].
  - eapply Forall_impl; [|exact HS]. intros t Ht. apply PropGrad.string_applicable, Ht.
Qed.
Lemma evaluate n par o q : PropRes.Evaluable n par o -> wf_computer q -> nqubit q = n ->
  exists q', direct_op_exp_val par q o = Ok (inner n (psi_of q) (op_act o (psi_of q)), q') /\ Unchanged q q'.
Proof.
  intros H W N. destruct par as [sched|]; cbn [PropRes.Evaluable] in H.
  - destruct H as (HL & Hn & HT). exists q. rewrite <- N. split; [apply C20_direct_op_exp_val_even_Y_partial; [exact HL|exact W|lia|now rewrite N]|]. split; [reflexivity|]. split; [reflexivity|exact W].
  - destruct (C19_direct_op_exp_val_partial q o W) as (q' & E & U); [now rewrite N|]. exists q'. rewrite <- N. split; assumption.
Qed.
Lemma mean_var n par q A f k : valid_par n par -> wf_computer q -> nqubit q = n -> (k + k <= 39)%nat ->
  canonical_op A -> in_reg n A -> dyop k A -> Forall (fun t => Nat.even (count_Y (snd t)) = true) A ->
  (forall psi, op_act A psi == f psi) -> respects f -> real_map f -> hermitian_map n f ->
  exists q', mean_and_variance par q A = Ok ((Re (inner n (psi_of q) (f (psi_of q))), Re (inner n (psi_of q) (f (f (psi_of q)))) - Re (inner n (psi_of q) (f (psi_of q))) * Re (inner n (psi_of q) (f (psi_of q))))%R, q') /\ Unchanged q q'.
Proof.
  intros HV W HN HK HC HR HD HY HA Hf HRe HH. unfold mean_and_variance, op_add_op. cbn [app].
  destruct (product_exact k k A A HK (canonical_pauli_op _ HC) (canonical_pauli_op _ HC) HD HD) as (p & E & PC & PD & (PN & PB) & PR & PW). rewrite E. cbn [bind].
  assert (PA : forall psi, op_act p psi == f (f psi)).
  { intros psi I. rewrite <- (wop_op p psi (canonical_distinct p PC) I), (PW psi I), (wop_op A _ (canonical_distinct A HC) I), (HA _ I). apply Hf. intros J. rewrite (wop_op A psi (canonical_distinct A HC) J). apply HA. }
  assert (PE : Forall (fun t => Nat.even (count_Y (snd t)) = true) p).
  { apply (even_Y n p (fun psi => f (f psi))).
    - exact PC. - exact PN. - apply PR; assumption.
    - eapply Forall_impl; [|exact PB]. cbn beta. intros t Ht Hz. rewrite Hz, Cabs_C0 in Ht. lra.
    - exact PA. - apply real_comp; assumption. - apply herm_comp, HH. }
  destruct (evaluate n par A q (strings_evaluable n par A HV (canonical_on n A HC HR) HY) W HN) as (q1 & E1 & U1). rewrite E1. cbn [bind fst snd].
  destruct U1 as (N1 & C1' & W1).
  destruct (evaluate n par p q1 (strings_evaluable n par p HV (canonical_on n p PC (PR n HR HR)) PE) W1 (eq_trans N1 HN)) as (q2 & E2 & U2). rewrite E2. cbn [bind fst snd].
  assert (P1 : psi_of q1 = psi_of q) by (unfold psi_of; now rewrite C1'). rewrite P1.
  set (psi := psi_of q). rewrite (inner_ext n psi psi _ _ (seq_refl psi) (HA psi)), (inner_ext n psi psi _ _ (seq_refl psi) (PA psi)).
  assert (I1 : forall g, hermitian_map n g -> Im (inner n psi (g psi)) = 0%R).
  { intros g Hg. pose proof (Hg n psi psi (le_n n)) as Q. rewrite (inner_conj n (g psi) psi) in Q. apply (f_equal Im) in Q. cbn [Cconj Im] in Q. lra. }
  pose proof (I1 f HH) as Z1. pose proof (I1 (fun x => f (f x)) (herm_comp n f HH)) as Z2. cbv beta in Z2.
  destruct (Req_EM_T (Im (inner n psi (f psi))) 0) as [_|X]; [|contradiction].
  destruct (Req_EM_T _ 0) as [_|X]; [|elim X; cbn [Csub Cadd Cneg Cmul Im]; rewrite Z1, Z2; ring].
  exists q2. split.
  - do 2 f_equal. f_equal. cbn [Csub Cadd Cneg Cmul Re]. rewrite Z1. ring.
  - destruct U2 as (N2 & C2 & W2). split; [congruence|]. split; [congruence|exact W2].
Qed.
(** ---- the number operator ---- *)
Definition gZ1 (t : nat) : gate := mkGate "Z" t t m_Z None.
Definition num_op (n : nat) : qop := (mkC (INR n / 2) 0, []) :: map (fun t => (mkC (-1/2) 0, [gZ1 t])) (seq 0 n).
Lemma make_Z1 t : make_gate "Z" t t 0 = Ok (gZ1 t).
Proof. unfold make_gate. rewrite Nat.eqb_refl. reflexivity. Qed.
Lemma number_operator_eq n : number_operator n = Ok (num_op n).
Proof.
  unfold number_operator. rewrite (CompactRot.foreach_append (fun t => [(mkC (-1/2) 0, [gZ1 t])])).
  - unfold op_add_term, num_op. cbn [app]. apply f_equal, f_equal. induction (seq 0 n) as [|x l IH]; [reflexivity|]. cbn [flat_map map app]. now rewrite IH.
  - intros t s _. rewrite make_Z1. reflexivity.
Qed.
Lemma Z1_pauli t : pauli_gate (gZ1 t).
Proof. apply pauli_iff. exists "Z"%string, t. split; [auto|apply make_Z1]. Qed.
Lemma num_canonical n : canonical_op (num_op n).
Proof.
  constructor; [split; constructor|]. apply Forall_map, Forall_forall. intros t _. split; [constructor; [apply Z1_pauli|constructor]|split; [intros y []|exact I]].
Qed.
Lemma num_reg n : in_reg n (num_op n).
Proof. constructor; [constructor|]. apply Forall_map, Forall_forall. intros t Ht. apply in_seq in Ht. repeat constructor. cbn. lia. Qed.
Lemma num_even n : Forall (fun t => Nat.even (count_Y (snd t)) = true) (num_op n).
Proof. constructor; [reflexivity|]. apply Forall_map, Forall_forall. intros t _. reflexivity. Qed.
Lemma num_dy n : dyop 1 (num_op n).
Proof.
  constructor.
  - exists (Z.of_nat n), 0%Z. apply C_ext; cbn; rewrite <- ?INR_IZR_INZ; field.
  - apply Forall_map, Forall_forall. intros t _. apply dy_mhalf.
Qed.
Lemma num_act n psi : op_act (num_op n) psi == number n psi.
Proof.
  intros I. unfold op_act, num_op. rewrite Csum_cons, Csum_map. cbn [fst snd]. unfold circ_act. cbn [fold_left].
  assert (E : forall l, Csum (fun t => mkC (-1/2) 0 * gate_act (gZ1 t) psi I) l = RtoC (INR (length (filter (bit I) l)) - INR (length l) / 2) * psi I).
  { induction l as [|t l IH]; [rewrite Csum_nil; apply C_ext; cbn; field|]. rewrite Csum_cons, IH. unfold gZ1. rewrite ThreeQubit.act_1, GateEval.ev_Z. unfold GateEval.sgn. cbn [filter length].
    destruct (bit I t); cbn [length]; rewrite !S_INR; apply C_ext; cbn; field. }
  rewrite E, seq_length. unfold number, n_electrons. apply C_ext; cbn; field.
Qed.
(** ---- the weights ---- *)
Lemma py_add_map (f : nat -> R) N i w : (i < N)%nat -> py_add (map f (seq 0 N)) i w = Ok (map (fun k => if Nat.eqb i k then f k + w else f k)%R (seq 0 N)).
Proof.
  intros H. unfold py_add. rewrite (GradProofs.py_get_ok _ i (f 0%nat)) by (now rewrite map_length, seq_length). cbn [bind].
  rewrite GradProofs.py_set_ok by (now rewrite map_length, seq_length). f_equal.
  apply (nth_ext _ _ 0%R 0%R); [now rewrite GradProofs.list_set_len, !map_length|]. rewrite GradProofs.list_set_len, map_length, seq_length. intros k Hk.
  rewrite GradProofs.list_set_nth by (now rewrite map_length, seq_length).
  assert (Q : forall g : nat -> R, nth k (map g (seq 0 N)) 0%R = g k).
  { intros g. rewrite (nth_indep _ 0%R (g 0%nat)) by (now rewrite map_length, seq_length). rewrite (map_nth g), seq_nth by exact Hk. reflexivity. }
  rewrite !Q. rewrite (map_nth f), seq_nth by exact H. cbn [plus]. rewrite Nat.eqb_sym. destruct (Nat.eqb_spec i k) as [->|]; reflexivity.
Qed.
Lemma length_filter_map {A B} (f : A -> B) (p : B -> bool) l : length (filter p (map f l)) = length (filter (fun x => p (f x)) l).
Proof. induction l as [|x l IH]; [reflexivity|]. cbn [map filter]. destruct (p (f x)); cbn [length]; now rewrite IH. Qed.
Lemma evens m : range2 (2 * m) = map (fun p => 2 * p)%nat (seq 0 m).
Proof. apply range2_pairs. Qed.
Lemma len_alpha m I : length (occ_alpha (2 * m) I) = n_up m I.
Proof. unfold occ_alpha, n_up. rewrite evens, length_filter_map. reflexivity. Qed.
Lemma len_beta m I : length (occ_beta (2 * m) I) = n_down m I.
Proof. unfold occ_beta, n_down. rewrite evens, map_map, length_filter_map. reflexivity. Qed.
Lemma filter_perm {A} (p : A -> bool) l l' : Permutation l l' -> Permutation (filter p l) (filter p l').
Proof. induction 1; cbn [filter]; [constructor| | |now transitivity (filter p l')]; [destruct (p x); [now constructor|assumption]|destruct (p x), (p y); try apply perm_swap; reflexivity]. Qed.
Lemma evens_odds m : Permutation (range2 (2 * m) ++ map (fun i => i + 1)%nat (range2 (2 * m)))%list (seq 0 (2 * m)).
Proof.
  rewrite evens, map_map. induction m as [|m IH]; [constructor|].
  rewrite !seq_S, !map_app. cbn [map]. rewrite Nat.add_0_l. replace (seq 0 (2 * S m)) with (seq 0 (2 * m) ++ [2 * m; 2 * m + 1])%nat%list.
  - rewrite <- app_assoc. cbn [app]. transitivity ((map (fun p => 2 * p) (seq 0 m) ++ map (fun x => 2 * x + 1) (seq 0 m)) ++ [2 * m; 2 * m + 1])%nat%list; [|now apply Permutation_app_tail].
    rewrite <- app_assoc. apply Permutation_app_head. change [2 * m; 2 * m + 1]%nat with ([2 * m] ++ [2 * m + 1])%nat%list. rewrite app_assoc. rewrite app_comm_cons. apply Permutation_app_tail. apply Permutation_cons_append.
  - replace (2 * S m)%nat with (S (S (2 * m))) by lia. rewrite !seq_S. rewrite <- app_assoc. cbn [app]. now rewrite !Nat.add_0_l, Nat.add_1_r.
Qed.
Lemma occ_perm m I : Permutation (occ_alpha (2 * m) I ++ occ_beta (2 * m) I)%list (filter (bit I) (seq 0 (2 * m))).
Proof. unfold occ_alpha, occ_beta. change (fun i => bit I i) with (bit I). rewrite <- filter_app. apply filter_perm, evens_odds. Qed.
Lemma up_down m I : (n_up m I + n_down m I = n_electrons (2 * m) I)%nat.
Proof. unfold n_electrons. rewrite <- (Permutation_length (occ_perm m I)), app_length, len_alpha, len_beta. reflexivity. Qed.
Lemma filter_length_le {A} (p : A -> bool) l : (length (filter p l) <= length l)%nat.
Proof. induction l as [|x l IH]; [constructor|]. cbn [filter]. destruct (p x); cbn [length]; lia. Qed.
Lemma n_up_le m I : (n_up m I <= m)%nat.
Proof. unfold n_up. pose proof (filter_length_le (fun p => bit I (2 * p)) (seq 0 m)) as H. rewrite seq_length in H. exact H. Qed.
Lemma n_down_le m I : (n_down m I <= m)%nat.
Proof. unfold n_down. pose proof (filter_length_le (fun p => bit I (2 * p + 1)) (seq 0 m)) as H. rewrite seq_length in H. exact H. Qed.
Lemma find_unique {A} (p : A -> bool) l x : In x l -> p x = true -> (forall y, p y = true -> y = x) -> find p l = Some x.
Proof.
  intros Hx Hp HU. destruct (find p l) as [y|] eqn:E; [|pose proof (find_none _ _ E x Hx) as Q; congruence]. apply find_some in E. f_equal. now apply HU.
Qed.
Lemma sz_index_ok m I : sz_index (2 * m) (two_sz m I) = Ok (m + n_up m I - n_down m I)%nat /\ (m + n_up m I - n_down m I < 2 * m + 1)%nat.
Proof.
  pose proof (n_up_le m I). pose proof (n_down_le m I). unfold sz_index, two_sz. split; [|lia].
  rewrite (find_unique _ _ (m + n_up m I - n_down m I)%nat); [reflexivity|apply in_seq; lia|apply Z.eqb_eq; lia|]. intros y Hy. apply Z.eqb_eq in Hy. lia.
Qed.
Definition wt (psi : state) (I : nat) : R := (Re (psi I) * Re (psi I) + Im (psi I) * Im (psi I))%R.
Definition wsum (psi : state) (P : nat -> bool) (l : list nat) : R := fold_right Rplus 0%R (map (wt psi) (filter P l)).
Lemma Rsum_app l l' : fold_right Rplus 0%R (l ++ l') = (fold_right Rplus 0 l + fold_right Rplus 0 l')%R.
Proof. induction l as [|x l IH]; cbn [app fold_right]; [ring|]. rewrite IH. ring. Qed.
Lemma wsum_snoc psi P l I : wsum psi P (l ++ [I]) = (if P I then wsum psi P l + wt psi I else wsum psi P l)%R.
Proof. unfold wsum. rewrite filter_app, map_app, Rsum_app. cbn [filter]. destruct (P I); cbn [map fold_right]; ring. Qed.
Definition target_sector m irr tN tS ti (I : nat) : bool :=
  andb (andb (Nat.eqb (n_electrons (2 * m) I) tN) (Z.eqb (two_sz m I) tS)) (N.eqb (total_irrep irr (filter (bit I) (seq 0 (2 * m)))) ti).
Definition irrep_of m irr (I : nat) : N := total_irrep irr (filter (bit I) (seq 0 (2 * m))).
Definition weights_of psi m irr nir tN tS ti (l : list nat) : weights :=
  mkWeights (wsum psi (target_sector m irr tN tS ti) l)
    (map (fun k => wsum psi (fun I => Nat.eqb (n_electrons (2 * m) I) k) l) (seq 0 (2 * m + 1)))
    (map (fun k => wsum psi (fun I => Z.eqb (two_sz m I) (Z.of_nat k - Z.of_nat m)) l) (seq 0 (2 * m + 1)))
    (map (fun k => wsum psi (fun I => N.eqb (irrep_of m irr I) (N.of_nat k)) l) (seq 0 nir)).
Lemma det_weight_ok q m irr nir tN tS ti l I : wf_computer q -> nqubit q = (2 * m)%nat -> (I < 2 ^ (2 * m))%nat -> (m <= length irr)%nat -> (N.to_nat (irrep_of m irr I) < nir)%nat ->
  det_weight (2 * m) (coeff q) irr tN tS ti I (weights_of (psi_of q) m irr nir tN tS ti l) = Ok (weights_of (psi_of q) m irr nir tN tS ti (l ++ [I])).
Proof.
  intros [W _] HN HI HL HR. unfold det_weight. cbv zeta.
  rewrite (GradProofs.py_get_ok _ I C0) by (rewrite W; unfold nbasis; rewrite HN; exact HI). cbn [bind]. change (nth I (coeff q) C0) with (psi_of q I). set (psi := psi_of q). 
  assert (EW : Re (psi I * Cconj (psi I))%C = wt psi I) by (unfold wt; cbn; ring). rewrite EW.
  assert (EP : length (occ_alpha (2 * m) I ++ occ_beta (2 * m) I) = n_electrons (2 * m) I) by (rewrite (Permutation_length (occ_perm m I)); reflexivity). rewrite EP.
  rewrite len_alpha, len_beta. fold (two_sz m I).
  rewrite (GsdProofs.irreps_in irr m).
  2: exact HL.
  2: { apply (Permutation_Forall (Permutation_sym (occ_perm m I))). apply Forall_forall. intros x Hx. apply filter_In in Hx. destruct Hx as [Hx _]. apply in_seq in Hx. lia. }
  cbn [bind]. rewrite (PropGsd.total_perm irr _ _ (occ_perm m I)). fold (irrep_of m irr I). cbn [weights_of w_target w_N w_Sz w_irrep].
  pose proof (up_down m I) as HUD. pose proof (n_up_le m I) as HU. pose proof (n_down_le m I) as HD.
  rewrite py_add_map by lia. cbn [bind]. destruct (sz_index_ok m I) as [ES BS]. rewrite ES. cbn [bind]. rewrite py_add_map by exact BS. cbn [bind]. rewrite py_add_map by exact HR. cbn [bind].
  unfold weights_of. f_equal. f_equal.
  - rewrite wsum_snoc. unfold target_sector. fold (irrep_of m irr I). reflexivity.
  - apply map_ext. intros k. rewrite wsum_snoc. reflexivity.
  - apply map_ext_in. intros k _. rewrite wsum_snoc.
    replace (Nat.eqb (m + n_up m I - n_down m I) k) with (Z.eqb (two_sz m I) (Z.of_nat k - Z.of_nat m)); [reflexivity|].
    unfold two_sz. destruct (Nat.eqb_spec (m + n_up m I - n_down m I) k); [apply Z.eqb_eq|apply Z.eqb_neq]; lia.
  - apply map_ext_in. intros k _. rewrite wsum_snoc.
    replace (Nat.eqb (N.to_nat (irrep_of m irr I)) k) with (N.eqb (irrep_of m irr I) (N.of_nat k)); [reflexivity|].
    destruct (Nat.eqb_spec (N.to_nat (irrep_of m irr I)) k); [apply N.eqb_eq|apply N.eqb_neq]; lia.
Qed.
Lemma weights_foreach q m irr nir tN tS ti : wf_computer q -> nqubit q = (2 * m)%nat -> (m <= length irr)%nat -> (forall I, (N.to_nat (irrep_of m irr I) < nir)%nat) ->
  forall l, Forall (fun I => I < 2 ^ (2 * m))%nat l -> forall done,
  foreach l (det_weight (2 * m) (coeff q) irr tN tS ti) (weights_of (psi_of q) m irr nir tN tS ti done) = Ok (weights_of (psi_of q) m irr nir tN tS ti (done ++ l)).
Proof.
  intros W HN HL HR. induction l as [|I l IH]; intros HB done; [now rewrite app_nil_r|]. cbn [foreach].
  rewrite det_weight_ok; [|exact W|exact HN|exact (Forall_inv HB)|exact HL|apply HR]. cbn [bind]. rewrite IH by exact (Forall_inv_tail HB). now rewrite <- app_assoc.
Qed.
