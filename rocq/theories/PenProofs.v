(** Proofs about PenModel: the penalized Hamiltonian. *)
From Coq Require Import Reals String List Arith Bool Lia Lra.
From Verif Require Import CBase Result Bits Spec OpSpec GateModel ComputerModel LibProofs SafeProofs CircuitModel PauliProofs OperatorModel OperatorProofs PoolProofs PauliIndep SQSpec FermiProofs SparseNorm RealOps PropOperator PropMeasure PropGrad QpeProofs QiteNorm PenModel PenSpec.
From Verif Require QkProofs.
Import ListNotations.
Local Open Scope C_scope.

Definition big (t : C * list gate) : bool := Rltb 1e-12 (Cabs (fst t)).
Definition small_part (o : qop) : qop := filter (fun t => negb (big t)) o.
Lemma simplify_all n o : pauli_op o -> in_reg n o -> exists all, canonical_op all /\ NoDup (map snd all) /\ in_reg n all /\ (forall psi, wop o psi == op_act all psi) /\ op_simplify true o = Ok (filter big all).
Proof.
  intros HP HR. destruct (simplify_spec false o HP) as (k & d & E & HC & HN & _ & HD & _ & HRg & HW). assert (ED := HD eq_refl). subst d. rewrite app_nil_r in *.
  exists k. split; [exact HC|]. split; [exact HN|]. split; [now apply HRg|]. split.
  - intros psi I. rewrite (HW psi I). unfold sadd. rewrite (wop_nil psi I). rewrite (wop_op k psi (canonical_distinct k HC) I). unfold szero. ring.
  - unfold op_simplify in *. destruct (canonical_order o) as [o'|e]; cbn [bind] in *; [|discriminate]. injection E as <-. f_equal. generalize (unique_terms o'). intros m. induction m as [|x m IH]; [reflexivity|]. cbn [filter map]. unfold big at 1. cbn [fst]. destruct (Rltb 1e-12 (Cabs (snd x))); cbn [map]; rewrite IH; reflexivity.
Qed.
Lemma split_act o psi : op_act o psi == sadd (op_act (filter big o) psi) (op_act (small_part o) psi).
Proof.
  intros I. unfold op_act, sadd, small_part. induction o as [|t o IH]; [cbn; apply C_ext; cbn; ring|]. cbn [filter]. destruct (big t); cbn [negb]; rewrite !Csum_cons, IH; ring.
Qed.
Lemma filter_canonical f o : canonical_op o -> canonical_op (filter f o).
Proof. intros H. apply Forall_forall. intros t Ht. apply filter_In in Ht. unfold canonical_op in H. rewrite Forall_forall in H. now apply H. Qed.
Lemma filter_reg n f o : in_reg n o -> in_reg n (filter f o).
Proof. intros H. apply Forall_forall. intros t Ht. apply filter_In in Ht. unfold in_reg in H. rewrite Forall_forall in H. now apply H. Qed.
Lemma filter_keys f (o : qop) : NoDup (map snd o) -> NoDup (map snd (filter f o)).
Proof.
  induction o as [|t o IH]; intros H; [constructor|]. cbn [map] in H. inversion H as [|? ? N ND]; subst. cbn [filter]. destruct (f t); [|now apply IH]. cbn [map]. constructor; [|now apply IH].
  intros Hi. apply N. apply in_map_iff in Hi. destruct Hi as (u & E & Hu). apply filter_In in Hu. rewrite <- E. apply in_map, Hu.
Qed.
Lemma small_bound o : Forall (fun t => (Cabs (fst t) <= 1e-12)%R) (small_part o).
Proof. apply Forall_forall. intros t Ht. apply filter_In in Ht. destruct Ht as [_ B]. unfold big in B. destruct (Rltb_spec 1e-12 (Cabs (fst t))); [discriminate|]. lra. Qed.
Lemma big_bound o : Forall (fun t => (1e-12 < Cabs (fst t))%R) (filter big o).
Proof. apply Forall_forall. intros t Ht. apply filter_In in Ht. destruct Ht as [_ B]. unfold big in B. destruct (Rltb_spec 1e-12 (Cabs (fst t))); [assumption|discriminate]. Qed.
Lemma canonical_string n t : canonical_pauli t -> Forall (fun g => gtarget g < n)%nat t -> StringOn n t.
Proof. intros [H1 H2] HR. split; [split; [now apply circuit_iff|apply increasing_nodup, H2]|exact HR]. Qed.
Lemma canonical_strings n o : canonical_op o -> in_reg n o -> Forall (fun t => StringOn n (snd t)) o.
Proof. intros HC HR. unfold canonical_op, in_reg in *. rewrite Forall_forall in *. intros t Ht. apply canonical_string; [now apply HC|now apply HR]. Qed.
Lemma count_strings n o : canonical_op o -> in_reg n o -> NoDup (map snd o) -> (length o <= 4 ^ n)%nat.
Proof.
  intros HC HR HN. rewrite <- (map_length snd), <- strings_length. apply NoDup_incl_length; [exact HN|]. intros gs Hg. apply in_map_iff in Hg. destruct Hg as (t & <- & Ht). apply strings_all. unfold canonical_op, in_reg in *. rewrite Forall_forall in HC, HR. split; [now apply HC|now apply HR].
Qed.
Lemma weight_small l : Forall (fun t : C * list gate => (Cabs (fst t) <= 1e-12)%R) l -> (weight l <= 1e-12 * INR (length l))%R.
Proof.
  induction 1 as [|t l H _ IH]; [unfold weight, Rsum; cbn; lra|]. unfold weight in *. rewrite Rsum_cons. cbn [length]. rewrite S_INR. lra.
Qed.
Lemma small_norm n o psi : canonical_op o -> in_reg n o -> NoDup (map snd o) -> (norm n (op_act (small_part o) psi) <= 1e-12 * INR (4 ^ n) * norm n psi)%R.
Proof.
  intros HC HR HN. eapply Rle_trans; [apply norm_op, canonical_strings; [now apply filter_canonical|now apply filter_reg]|]. apply Rmult_le_compat_r; [apply norm_nonneg|]. eapply Rle_trans; [apply weight_small, small_bound|]. apply Rmult_le_compat_l; [lra|]. apply le_INR. apply count_strings; [now apply filter_canonical|now apply filter_reg|now apply filter_keys].
Qed.
(** Hermitian and real operators *)
Lemma ham_mono n N o : (n <= N)%nat -> Hamiltonian n o -> Hamiltonian N o.
Proof. intros L. apply Forall_impl. intros t ((S1 & S2) & R). split; [|exact R]. split; [exact S1|]. eapply Forall_impl; [|exact S2]. cbn beta. intros g Hg. lia. Qed.
Lemma ham_hermitian n o : Hamiltonian n o -> hermitian_map n (op_act o).
Proof. intros H N a b L. apply (C63_hamiltonian_self_adjoint N o (ham_mono n N o L H)). Qed.
Definition EvenY (o : qop) : Prop := Forall (fun t => Nat.even (count_Y (snd t)) = true) o.
Lemma even_real n o : Hamiltonian n o -> EvenY o -> real_map (op_act o).
Proof.
  intros H Y psi I. unfold op_act, sconj at 2. rewrite Csum_conj. apply Csum_ext. intros t Ht. unfold Hamiltonian, EvenY in *. rewrite Forall_forall in *. destruct (H t Ht) as (S1 & R). specialize (Y t Ht). destruct (string_on n _ S1) as (P & _). rewrite (sconj_circ _ P psi I). rewrite <- Nat.negb_odd in Y. destruct (Nat.odd (count_Y (snd t))); [discriminate|]. unfold sscale, sconj. rewrite Cconj_mul. replace (Cconj (fst t)) with (fst t) by (apply C_ext; cbn; [reflexivity|rewrite R; ring]). ring.
Qed.
Lemma simplify_herm n o f : pauli_op o -> in_reg n o -> (forall psi, wop o psi == f psi) -> hermitian_map n f -> exists k d, op_simplify true o = Ok k /\
  Hamiltonian n k /\ canonical_op k /\ NoDup (map snd k) /\ Forall (fun t => (1e-12 < Cabs (fst t))%R) k /\ (real_map f -> EvenY k) /\
  (forall psi, f psi == sadd (op_act k psi) (op_act d psi)) /\ (forall psi, (norm n (op_act d psi) <= 1e-12 * INR (4 ^ n) * norm n psi)%R).
Proof.
  intros HP HR HF HH. destruct (simplify_all n o HP HR) as (all & C & N & G & W & E). exists (filter big all), (small_part all).
  assert (A : forall psi, op_act all psi == f psi) by (intros psi I; rewrite <- (W psi I); apply HF).
  pose proof (hermitian_coeffs n all f C N G A HH) as CR. rewrite Forall_forall in CR.
  split; [exact E|]. split; [|split; [now apply filter_canonical|split; [now apply filter_keys|split; [apply big_bound|split; [|split]]]]].
  - apply Forall_forall. intros t Ht. pose proof Ht as Ht'. apply filter_In in Ht'. destruct Ht' as [Ha _]. split.
    + pose proof (canonical_strings n all C G) as CS. rewrite Forall_forall in CS. now apply CS.
    + specialize (CR t Ha). apply (f_equal Im) in CR. cbn in CR. lra.
  - intros RF. pose proof (real_coeffs all f C N A RF) as H1. apply Forall_forall. intros t Ht. pose proof (big_bound all) as BB. rewrite Forall_forall in BB. specialize (BB t Ht). cbn beta in BB. apply filter_In in Ht. destruct Ht as [Ha _]. rewrite Forall_forall in H1. specialize (H1 t Ha). specialize (CR t Ha). cbn beta in *. rewrite <- Nat.negb_odd. destruct (Nat.odd _); [|reflexivity].
    exfalso. rewrite CR in H1. assert (Z : fst t = C0). { destruct (fst t) as [x y]. injection H1 as A1 A2. apply C_ext; cbn in *; lra. } rewrite Z, Cabs_C0 in BB. lra.
  - intros psi I. rewrite <- (A psi I). apply split_act.
  - intros psi. now apply small_norm.
Qed.

(** ---- one penalty ---- *)
Definition Simplified (n : nat) (A : qop) : Prop := Hamiltonian n A /\ canonical_op A /\ NoDup (map snd A) /\ Forall (fun t => (1e-12 < Cabs (fst t))%R) A.
Lemma shift_op A e psi : op_act (op_add_term (op_add_op [] A) (RtoC (- e)) []) psi == shifted A e psi.
Proof. intros I. unfold op_add_term, op_add_op, shifted, sadd, sscale, op_act. cbn [app]. rewrite Csum_app, Csum_cons, Csum_nil. cbn [fst snd circ_act fold_left]. ring. Qed.
Lemma shifted_ext A e a b : a == b -> shifted A e a == shifted A e b.
Proof. intros E I. unfold shifted, sadd, sscale. rewrite (op_act_ext A a b E I), (E I). reflexivity. Qed.
Lemma shifted_herm n A e : Hamiltonian n A -> hermitian_map n (shifted A e).
Proof.
  intros H N a b L. unfold shifted. rewrite inner_add_r, inner_scale_r, QkProofs.inner_add_l, QkProofs.inner_scale_l, (ham_hermitian n A H N a b L). replace (Cconj (RtoC (- e))) with (RtoC (- e)) by (apply C_ext; cbn; ring). reflexivity.
Qed.
Lemma shifted_real n A e : Hamiltonian n A -> EvenY A -> real_map (shifted A e).
Proof. intros H Y psi I. unfold shifted, sadd, sscale. rewrite (even_real n A H Y psi I). unfold sconj. apply C_ext; cbn; ring. Qed.
Lemma shift_pauli n A e : Simplified n A -> let T := op_add_term (op_add_op [] A) (RtoC (- e)) [] in canonical_op T /\ in_reg n T.
Proof.
  intros (H & C & _ & _) T. unfold T, op_add_term, op_add_op. cbn [app]. split.
  - apply Forall_app. split; [exact C|]. constructor; [|constructor]. split; [constructor|]. constructor.
  - apply Forall_app. split; [|constructor; [constructor|constructor]]. unfold Hamiltonian in H. eapply Forall_impl; [|exact H]. intros t ((_ & R) & _). exact R.
Qed.
Lemma shifted_norm n A e psi : Hamiltonian n A -> (norm n (shifted A e psi) <= (weight A + Rabs e) * norm n psi)%R.
Proof.
  intros H. unfold shifted. eapply Rle_trans; [apply norm_triangle|]. rewrite norm_scale, Cabs_RtoC, Rabs_Ropp. assert (X : (norm n (op_act A psi) <= weight A * norm n psi)%R). { apply norm_op. eapply Forall_impl; [|exact H]. intros t (S1 & _). exact S1. } lra.
Qed.
Lemma penalty_one n A e s : Simplified n A -> exists p d eps, penalty_qop A e s = Ok (op_mult_coeffs p (RtoC s)) /\
  Hamiltonian n p /\ canonical_op p /\ NoDup (map snd p) /\ (EvenY A -> EvenY p) /\ (Rabs eps <= 1e-12)%R /\
  (forall psi, shifted A e (shifted A e psi) == sadd (sadd (op_act p psi) (op_act d psi)) (sscale (RtoC eps) (shifted A e psi))) /\
  (forall psi, (norm n (op_act d psi) <= 1e-12 * INR (4 ^ n) * norm n psi)%R).
Proof.
  intros HA. destruct (shift_pauli n A e HA) as (CT & RT). destruct HA as (H & C & ND & BG). unfold penalty_qop. cbv zeta. set (T := op_add_term (op_add_op [] A) (RtoC (- e)) []) in *.
  change (op_add_op [] T) with T. pose proof (canonical_pauli_op T CT) as PT. destruct (simplify_all n T PT RT) as (all & CA & NA & GA & WA & EA).
  assert (AT : forall psi, op_act all psi == shifted A e psi). { intros psi I. rewrite <- (WA psi I), (wop_op T psi (canonical_distinct T CT) I). apply shift_op. }
  pose proof (hermitian_coeffs n all (shifted A e) CA NA GA AT (shifted_herm n A e H)) as CR.
  set (eps := coef (small_part all) (letters [])).
  assert (CS := filter_canonical (fun t => negb (big t)) all CA). fold (small_part all) in CS. assert (NS := filter_keys (fun t => negb (big t)) all NA). fold (small_part all) in NS.
  assert (ES : (exists t, In t (small_part all) /\ fst t = eps) \/ eps = C0).
  { destruct (in_dec ldec (letters []) (map (fun t => letters (snd t)) (small_part all))) as [Hi|Hi]; [|right; now apply coef_notin]. left. apply in_map_iff in Hi. destruct Hi as (t & E & Ht). exists t. split; [exact Ht|]. unfold eps. rewrite <- E. symmetry. now apply coef_in. }
  assert (EB : (Cabs eps <= 1e-12)%R). { destruct ES as [(t & Ht & <-)| ->]; [|rewrite Cabs_C0; lra]. pose proof (small_bound all) as SB. rewrite Forall_forall in SB. now apply SB. }
  assert (ER : eps = RtoC (Re eps)). { destruct ES as [(t & Ht & <-)| ->]; [|apply C_ext; reflexivity]. apply filter_In in Ht. rewrite Forall_forall in CR. specialize (CR t (proj1 Ht)). cbn beta in CR. apply (f_equal Im) in CR. apply C_ext; cbn in *; [reflexivity|lra]. }
  assert (SA : forall psi, op_act (small_part all) psi == sscale eps psi).
  { intros psi I. unfold op_act, sscale, eps, coef. rewrite <- Csum_mul_r. apply Csum_ext. intros t Ht. pose proof Ht as Ht'. apply filter_In in Ht'. destruct Ht' as [Ha _].
    destruct (ldec (letters (snd t)) (letters [])) as [E|N].
    - destruct (snd t) as [|g gs]; [reflexivity|discriminate].
    - assert (Z : fst t = C0); [|rewrite Z; ring]. pose proof (small_bound all) as SB. rewrite Forall_forall in SB. specialize (SB t Ht). cbn beta in SB.
      assert (Q : coef all (letters (snd t)) = coef T (letters (snd t))). { apply op_eq_coef; [exact CA|exact CT|]. intros phi J. rewrite (AT phi J). symmetry. apply shift_op. }
      rewrite (coef_in all t CA NA Ha) in Q. unfold T, op_add_term, op_add_op in Q. cbn [app] in Q. rewrite coef_app in Q.
      replace (coef [(RtoC (- e), [])] (letters (snd t))) with C0 in Q; [|unfold coef; rewrite Csum_cons, Csum_nil; cbn [fst snd]; destruct (ldec (letters []) (letters (snd t))) as [X|]; [now rewrite X in N|ring]].
      rewrite Q. destruct (in_dec ldec (letters (snd t)) (map (fun t => letters (snd t)) A)) as [Hi|Hi]; [|rewrite (coef_notin A _ Hi); ring]. exfalso. apply in_map_iff in Hi. destruct Hi as (u & E & Hu). rewrite <- E, (coef_in A u C ND Hu) in Q. rewrite Forall_forall in BG. specialize (BG u Hu). cbn beta in BG. rewrite Q in SB. replace (fst u + C0) with (fst u) in SB by ring. lra. }
  set (l := filter big all) in *.
  assert (LA : forall psi, shifted A e psi == sadd (op_act l psi) (sscale eps psi)). { intros psi I. rewrite <- (AT psi I), (split_act all psi I). unfold sadd. fold l. rewrite (SA psi I). reflexivity. }
  assert (CL := filter_canonical big all CA). fold l in CL. assert (GL := filter_reg n big all GA). fold l in GL.
  set (f := fun psi : state => fun I => shifted A e (shifted A e psi) I - eps * shifted A e psi I).
  assert (HF : forall psi, wop (raw_product l T) psi == f psi).
  { intros psi I. rewrite (wop_product l T psi I). rewrite (wop_op l _ (canonical_distinct l CL) I). assert (X : wop T psi == shifted A e psi) by (intros J; rewrite (wop_op T psi (canonical_distinct T CT) J); apply shift_op). rewrite (op_act_ext l _ _ X I). unfold f. rewrite (LA (shifted A e psi) I). unfold sadd, sscale. ring. }
  assert (HH : hermitian_map n f).
  { intros N a b L. assert (F : forall phi, f phi == sadd (shifted A e (shifted A e phi)) (sscale (- eps) (shifted A e phi))) by (intros phi I; unfold f, sadd, sscale; ring).
    rewrite (inner_ext N a a _ _ (seq_refl a) (F b)), (inner_ext N _ _ b b (F a) (seq_refl b)), inner_add_r, inner_scale_r, QkProofs.inner_add_l, QkProofs.inner_scale_l. pose proof (shifted_herm n A e H N) as SH. rewrite !SH by exact L. rewrite ER. replace (Cconj (- RtoC (Re eps))) with (- RtoC (Re eps)) by (apply C_ext; cbn; ring). reflexivity. }
  destruct (simplify_herm n (raw_product l T) f (raw_product_pauli l T (canonical_pauli_op l CL) PT) (raw_product_reg n l T GL RT) HF HH) as (p & d & EP & K1 & K2 & K3 & K4 & K5 & K6 & K7).
  exists p, d, (Re eps). unfold operator_product. rewrite EA. cbn [bind]. rewrite EP. cbn [bind].
  split; [reflexivity|]. do 3 (split; [assumption|]). split; [|split; [|split]].
  - intros Y. apply K5. intros psi I. unfold f. pose proof (shifted_real n A e H Y) as SR. rewrite (shifted_ext A e _ _ (SR psi) I), (SR (shifted A e psi) I), (SR psi I). unfold sconj. rewrite ER. apply C_ext; cbn; ring.
  - rewrite ER, Cabs_RtoC in EB. exact EB.
  - intros psi I. pose proof (K6 psi I) as X. unfold f in X. unfold sadd, sscale in *. rewrite <- ER, <- X. ring.
  - exact K7.
Qed.

(** ---- the sum ---- *)
Lemma coefficient_weight A : coefficient_sum A = weight A.
Proof. reflexivity. Qed.
Lemma mult_act p c psi : op_act (op_mult_coeffs p c) psi == sscale c (op_act p psi).
Proof. intros I. unfold op_act, op_mult_coeffs, sscale. rewrite Csum_map, <- Csum_mul_l. apply Csum_ext. intros t _. cbn [fst snd]. ring. Qed.
Lemma ham_scale n p s : Hamiltonian n p -> Hamiltonian n (op_mult_coeffs p (RtoC s)).
Proof. intros H. apply Forall_map. eapply Forall_impl; [|exact H]. intros t (S1 & R). cbn [fst snd]. split; [exact S1|]. cbn. rewrite R. ring. Qed.
Lemma ham_app n a b : Hamiltonian n a -> Hamiltonian n b -> Hamiltonian n (a ++ b).
Proof. intros H1 H2. now apply Forall_app. Qed.
Lemma ham_distinct n o : Hamiltonian n o -> distinct_op o.
Proof. apply Forall_impl. intros t (S1 & _). destruct (string_on n _ S1) as (P & N & _). now split. Qed.
Lemma ham_reg n o : Hamiltonian n o -> in_reg n o.
Proof. apply Forall_impl. intros t ((_ & R) & _). exact R. Qed.
(** simplification of a Hamiltonian *)
Lemma simplify_ham n o : Hamiltonian n o -> exists k d, op_simplify true o = Ok k /\
  Hamiltonian n k /\ canonical_op k /\ NoDup (map snd k) /\ Forall (fun t => (1e-12 < Cabs (fst t))%R) k /\ (EvenY o -> EvenY k) /\
  (forall psi, op_act o psi == sadd (op_act k psi) (op_act d psi)) /\ (forall psi, (norm n (op_act d psi) <= 1e-12 * INR (4 ^ n) * norm n psi)%R).
Proof.
  intros H. pose proof (ham_distinct n o H) as D. destruct (simplify_herm n o (op_act o) (distinct_pauli o D) (ham_reg n o H)) as (k & d & E & K1 & K2 & K3 & K4 & K5 & K6 & K7); [intros psi; now apply wop_op|now apply ham_hermitian|].
  exists k, d. do 5 (split; [assumption|]). split; [|now split]. intros Y. apply K5. exact (even_real n o H Y).
Qed.
Lemma norm_sub_split n a b c : (norm n (ssub a c) <= norm n (ssub a b) + norm n (ssub b c))%R.
Proof. apply norm_add_le. intros I. unfold ssub, sadd. ring. Qed.
Lemma norm_opp_sub n a b : norm n (ssub a b) = norm n (ssub b a).
Proof. transitivity (norm n (sscale (RtoC (-1)) (ssub b a))); [apply norm_seq; intros I; unfold ssub, sscale; apply C_ext; cbn; ring|]. rewrite norm_scale, Cabs_RtoC. replace (Rabs (-1)) with 1%R by (unfold Rabs; destruct (Rcase_abs (-1)); lra). ring. Qed.
Definition EvenPenalties (ps : list (qop * R * R)) : Prop := Forall (fun p => EvenY (fst (fst p))) ps.
Lemma penalized_app H ps psi : penalized H ps psi == sadd (op_act H psi) (penalized [] ps psi).
Proof.
  induction ps as [|((A, e), s) ps IH]; intros I; cbn [penalized].
  - unfold sadd. change (op_act [] psi I) with C0. ring.
  - unfold sadd at 1. rewrite (IH I). unfold sadd. ring.
Qed.
Lemma penalties_loop n ps : Forall (fun p => Simplified n (fst (fst p))) ps -> forall acc, Hamiltonian n acc -> exists acc',
  foreach ps (fun p acc => do q <- penalty_qop (fst (fst p)) (snd (fst p)) (snd p); op_simplify true (op_add_op acc q)) acc = Ok acc' /\
  Hamiltonian n acc' /\ (EvenY acc -> EvenPenalties ps -> EvenY acc') /\
  forall psi, (norm n (ssub (op_act acc' psi) (penalized acc ps psi)) <= (penalty_error n ps - 1e-12 * INR (4 ^ n)) * norm n psi)%R.
Proof.
  induction 1 as [|((A, e), s) ps HA _ IH]; intros acc Hacc.
  - exists acc. split; [reflexivity|]. split; [exact Hacc|]. split; [auto|]. intros psi. cbn [penalized penalty_error]. right. transitivity (norm n (sscale C0 psi)); [apply norm_seq; intros I; unfold ssub, sscale; ring|]. rewrite norm_scale, Cabs_C0. ring.
  - cbn [fst snd] in HA. destruct (penalty_one n A e s HA) as (p & d & eps & EP & P1 & P2 & P3 & P4 & P5 & P6 & P7).
    destruct (simplify_ham n (op_add_op acc (op_mult_coeffs p (RtoC s)))) as (k & d' & ES & K1 & K2 & K3 & K4 & K5 & K6 & K7); [apply ham_app; [exact Hacc|now apply ham_scale]|].
    destruct (IH k K1) as (acc' & EF & F1 & F2 & F3). exists acc'. split; [|split; [exact F1|split]].
    + cbn [foreach fst snd]. rewrite EP. cbn [bind]. rewrite ES. cbn [bind]. exact EF.
    + intros Y1 Y2. inversion Y2 as [|? ? Y3 Y4]; subst. apply F2; [|exact Y4]. apply K5. apply Forall_app. split; [exact Y1|]. apply Forall_map. exact (P4 Y3).
    + intros psi. eapply Rle_trans; [apply (norm_sub_split n _ (penalized k ps psi))|].
      assert (X : (norm n (ssub (penalized k ps psi) (penalized acc ((A, e, s) :: ps) psi)) <= 1e-12 * (INR (4 ^ n) * (1 + Rabs s) + Rabs s * (coefficient_sum A + Rabs e)) * norm n psi)%R).
      { rewrite coefficient_weight. set (T := shifted A e).
        assert (E : ssub (penalized k ps psi) (penalized acc ((A, e, s) :: ps) psi) == sscale (RtoC (-1)) (sadd (op_act d' psi) (sscale (RtoC s) (sadd (op_act d psi) (sscale (RtoC eps) (T psi)))))).
        { intros I. pose proof (penalized_app k ps psi I) as Z1. pose proof (penalized_app acc ps psi I) as Z2. pose proof (P6 psi I) as Z3. pose proof (K6 psi I) as Z4.
          assert (Z5 : op_act (op_add_op acc (op_mult_coeffs p (RtoC s))) psi I = op_act acc psi I + RtoC s * op_act p psi I) by (unfold op_add_op; unfold op_act at 1; rewrite Csum_app; f_equal; exact (mult_act p (RtoC s) psi I)).
          rewrite Z5 in Z4. fold T in Z3. cbn [penalized]. fold T. unfold ssub, sadd, sscale in *. rewrite Z1, Z2, Z3.
          assert (Z6 : op_act k psi I = op_act acc psi I + RtoC s * op_act p psi I - op_act d' psi I) by (rewrite Z4; ring). rewrite Z6. replace (RtoC (-1)) with (- C1) by (apply C_ext; cbn; ring). ring. }
        rewrite (norm_seq n _ _ E), norm_scale, Cabs_RtoC. replace (Rabs (-1)) with 1%R by (unfold Rabs; destruct (Rcase_abs (-1)); lra). rewrite Rmult_1_l.
        eapply Rle_trans; [apply norm_triangle|]. rewrite norm_scale, Cabs_RtoC. specialize (K7 psi). specialize (P7 psi).
        assert (N1 : (norm n (sadd (op_act d psi) (sscale (RtoC eps) (T psi))) <= 1e-12 * INR (4 ^ n) * norm n psi + 1e-12 * ((weight A + Rabs e) * norm n psi))%R).
        { eapply Rle_trans; [apply norm_triangle|]. rewrite norm_scale, Cabs_RtoC. apply Rplus_le_compat; [exact P7|]. apply Rmult_le_compat; [apply Rabs_pos|apply norm_nonneg|exact P5|apply shifted_norm; apply HA]. }
        apply (Rmult_le_compat_l (Rabs s)) in N1; [|apply Rabs_pos]. lra. }
      specialize (F3 psi). cbn [penalty_error]. lra.
Qed.
Theorem penalized_hamiltonian n H ps : Hamiltonian n H -> Forall (fun p => Simplified n (fst (fst p))) ps -> exists pen q,
  penalties_qop ps = Ok pen /\ op_simplify true (op_add_op (op_add_op [] H) pen) = Ok q /\ Hamiltonian n q /\ canonical_op q /\ NoDup (map snd q) /\ Forall (fun t => (1e-12 < Cabs (fst t))%R) q /\
  (EvenY H -> EvenPenalties ps -> EvenY q) /\ forall psi, (norm n (ssub (op_act q psi) (penalized H ps psi)) <= penalty_error n ps * norm n psi)%R.
Proof.
  intros HH HP. destruct (penalties_loop n ps HP [] (Forall_nil _)) as (pen & E & P1 & P2 & P3). destruct (simplify_ham n (op_add_op (op_add_op [] H) pen)) as (q & d & EQ & K1 & K2 & K3 & K4 & K5 & K6 & K7); [apply ham_app; assumption|].
  exists pen, q. split; [exact E|]. split; [exact EQ|]. do 4 (split; [assumption|]). split.
  - intros Y1 Y2. apply K5. apply Forall_app. split; [exact Y1|]. apply P2; [constructor|exact Y2].
  - intros psi. specialize (P3 psi). specialize (K7 psi). eapply Rle_trans; [apply (norm_sub_split n _ (op_act (op_add_op (op_add_op [] H) pen) psi))|].
    assert (A1 : norm n (ssub (op_act q psi) (op_act (op_add_op (op_add_op [] H) pen) psi)) = norm n (op_act d psi)).
    { rewrite norm_opp_sub. apply norm_seq. intros I. unfold ssub. rewrite (K6 psi I). unfold sadd. ring. }
    assert (A2 : norm n (ssub (op_act (op_add_op (op_add_op [] H) pen) psi) (penalized H ps psi)) = norm n (ssub (op_act pen psi) (penalized [] ps psi))).
    { apply norm_seq. intros I. unfold ssub. rewrite (penalized_app H ps psi I). unfold sadd, op_add_op, op_act. cbn [app]. rewrite Csum_app. ring. }
    rewrite A1, A2. lra.
Qed.
(** ---- the meaning of the penalties ---- *)
Lemma penalized_eigen H ps psi : Forall (fun p => op_act (fst (fst p)) psi == sscale (RtoC (snd (fst p))) psi) ps -> penalized H ps psi == op_act H psi.
Proof.
  induction 1 as [|((A, e), s) ps E _ IH]; intros I; cbn [penalized]; [reflexivity|]. cbn [fst snd] in E. unfold sadd at 1. rewrite (IH I).
  assert (Z : shifted A e psi == szero) by (intros J; unfold shifted, sadd; rewrite (E J); unfold sscale, szero; apply C_ext; cbn; ring).
  unfold sscale at 1. rewrite (shifted_ext A e _ _ Z I). unfold shifted, sadd, sscale, op_act. rewrite Csum_zero; [unfold szero; ring|]. intros t _. rewrite (circ_act_zero (snd t) I). unfold szero. ring.
Qed.
Fixpoint penalty_sum (n : nat) (ps : list (qop * R * R)) (psi : state) : R :=
  match ps with [] => 0 | (A, e, s) :: r => s * Re (inner n (shifted A e psi) (shifted A e psi)) + penalty_sum n r psi end%R.
Lemma penalized_energy n H ps psi : Forall (fun p => Hamiltonian n (fst (fst p))) ps -> Re (inner n psi (penalized H ps psi)) = (Re (inner n psi (op_act H psi)) + penalty_sum n ps psi)%R.
Proof.
  induction 1 as [|((A, e), s) ps HA _ IH]; cbn [penalized penalty_sum]; [ring|]. cbn [fst snd] in HA. rewrite inner_add_r, inner_scale_r. rewrite (shifted_herm n A e HA n psi (shifted A e psi) (Nat.le_refl n)). cbn [Re Im Cadd Cmul RtoC]. rewrite IH. ring.
Qed.
Lemma penalty_sum_nonneg n ps psi : Forall (fun p => (0 <= snd p)%R) ps -> (0 <= penalty_sum n ps psi)%R.
Proof.
  induction 1 as [|((A, e), s) ps HS _ IH]; cbn [penalty_sum]; [lra|]. cbn [snd] in HS. pose proof (normsq_nonneg n (shifted A e psi)) as N. unfold normsq in N. pose proof (Rmult_le_pos _ _ HS N). lra.
Qed.
