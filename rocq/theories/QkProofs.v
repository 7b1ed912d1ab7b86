(** Krylov matrices of SRQK: states reached by Trotter circuits and the loops of
    build_qk_mats. *)
From Coq Require Import Reals String List Arith Bool Lia Lra.
From Verif Require Import CBase Result Bits Spec OpSpec GateModel ComputerModel SafeProofs LibProofs CleanProofs SimProofs CircuitModel PauliProofs OperatorModel MeasureModel MeasureProofs PyModel PyApply ExpSpec ExpProofs ExpCircuit FermiProofs EigModel GradModel GradSpec GradProofs QkModel PropOperator PropMeasure PropGrad.
From Verif Require TrotterProofs PropPy.
Import ListNotations.
Local Open Scope nat_scope.

(** ---- the Trotter circuit of a Hamiltonian ---- *)
Lemma string_term n gs : StringOn n gs -> TrotterProofs.term_ok gs.
Proof.
  intros H. split; [exact (string_word n gs H)|]. destruct gs as [|g r]; [now left|right]. destruct (string_on n _ H) as (HP & _). inversion HP as [|? ? Hg _]; subst.
  unfold sup. cbn [filter]. rewrite (pauli_not_I g Hg). discriminate.
Qed.
Lemma trotterize_ham n o y r : Hamiltonian n o -> 1 <= r -> exists gs ph l,
  trotterize o (mkC 0 y) r 1 = Ok (gs, ph) /\ applicable n gs /\ (forall psi, sscale ph (circ_act gs psi) == TrotterProofs.eulers l psi) /\
  TrotterProofs.acting (TrotterProofs.opened l) = PropPy.trotter_factors (mkC 0 y) r o /\ Forall (fun t => StringOn n (snd t)) l.
Proof.
  intros HO Hr. rewrite PropPy.factors_acting. unfold trotterize. rewrite TrotterProofs.trotter_scaled by exact Hr. unfold Hamiltonian in HO. rewrite Forall_forall in HO.
  destruct (TrotterProofs.scaled_opened (mkC 0 y) r o) as (l & E & HI).
  { apply Forall_forall. intros t Ht. destruct (HO t Ht) as (_ & HR). cbn [Re Im Cmul]. rewrite HR. ring. }
  assert (HS : Forall (fun t => StringOn n (snd t)) l). { apply Forall_forall. intros t Ht. destruct (HI t Ht) as [c Hc]. apply (HO _ Hc). }
  rewrite E. destruct (TrotterProofs.plain_terms l) with (g0 := @nil gate) (p0 := C1) as (gs & ph & EF & L & A & F).
  { eapply Forall_impl; [|exact HS]. intros t Ht. exact (string_term n _ Ht). }
  unfold exp_terms. rewrite EF. exists gs, (C1 * ph)%C, l. split; [reflexivity|]. split.
  - apply F. eapply Forall_impl; [|exact HS]. intros t (_ & Ht). rewrite Forall_forall in Ht. exact Ht.
  - split; [|split; [reflexivity|exact HS]]. intros psi. eapply seq_trans; [|apply A]. intros I. unfold sscale. ring.
Qed.
Lemma inner_scale_l n a b k : inner n (sscale k a) b = (Cconj k * inner n a b)%C.
Proof. unfold inner, sscale. rewrite <- Csum_mul_l. apply Csum_ext. intros I _. rewrite Cconj_mul. ring. Qed.
Lemma inner_add_l n a b c : inner n (sadd a b) c = (inner n a c + inner n b c)%C.
Proof. unfold inner, sadd. rewrite <- Csum_add. apply Csum_ext. intros I _. rewrite Cconj_add. ring. Qed.
Lemma euler_inner n y P a b : StringOn n P -> inner n (euler y (circ_act P) a) (euler y (circ_act P) b) = inner n a b.
Proof.
  intros H. destruct (string_applicable n P H) as (A1 & _ & A3). pose proof (string_word n P H) as HW.
  assert (S1 : inner n (circ_act P a) (circ_act P b) = inner n a b) by now apply circ_preserves_inner.
  assert (S2 : inner n (circ_act P a) b = inner n a (circ_act P b)).
  { rewrite <- (circ_preserves_inner n P (circ_act P a) b A1 A3). apply inner_ext; [|apply seq_refl]. now apply word_invol. }
  unfold euler. rewrite inner_add_l, !inner_add_r, !inner_scale_l, !inner_scale_r, S1, S2.
  generalize (inner n a b) (inner n a (circ_act P b)). intros u v. pose proof (sin2_cos2 y) as Q. unfold Rsqr in Q.
  transitivity (RtoC (sin y * sin y + cos y * cos y) * u)%C; [|rewrite Q; change (RtoC 1) with C1; ring]. apply C_ext; cbn; ring.
Qed.
Lemma eulers_inner n l : Forall (fun t => StringOn n (snd t)) l -> forall a b, inner n (TrotterProofs.eulers l a) (TrotterProofs.eulers l b) = inner n a b.
Proof. induction 1 as [|[y P] l HP _ IH]; intros a b; [reflexivity|]. cbn [TrotterProofs.eulers]. rewrite IH. now apply euler_inner. Qed.
Lemma eulers_zero l : Forall (fun t => fst t = 0%R) l -> forall psi, TrotterProofs.eulers l psi == psi.
Proof.
  induction 1 as [|[y P] l HP _ IH]; intros psi; [apply seq_refl|]. cbn [TrotterProofs.eulers fst] in *. subst y. eapply seq_trans; [apply IH|]. intros I. unfold euler, sadd, sscale. rewrite cos_0, sin_0. change (RtoC 1) with C1. change (RtoC 0) with C0. ring.
Qed.

(** the state prepared at step m *)
Definition Reached (o : qk_options) (m : nat) (psi : state) : Prop :=
  exp_product (PropPy.trotter_factors (mkC 0 (- (INR m * qk_dt o))) (qk_trotter o) (qk_ham o)) (circ_act (qk_Uprep o) (ket 0)) psi.
Record qk_ready (o : qk_options) : Prop := { ready_U : applicable (qk_nqb o) (qk_Uprep o); ready_H : Hamiltonian (qk_nqb o) (qk_ham o); ready_r : 1 <= qk_trotter o }.
Lemma ket_norm n : inner n (ket 0) (ket 0) = C1.
Proof.
  unfold inner. replace (2 ^ n) with (S (2 ^ n - 1)) by (pose proof (Nat.pow_nonzero 2 n); lia). cbn [seq]. rewrite Csum_cons. rewrite Csum_zero.
  - unfold ket. cbn. apply C_ext; cbn; ring.
  - intros I HI. apply in_seq in HI. unfold ket. destruct (Nat.eqb_spec I 0); [lia|]. apply C_ext; cbn; ring.
Qed.
Lemma wf_constant q c : wf_computer q -> wf_computer (apply_constant q c).
Proof. unfold wf_computer, apply_constant, set_coeff, nbasis. destruct q. cbn. rewrite map_length. auto. Qed.
Lemma psi_constant q c I : psi_of (apply_constant q c) I = (psi_of q I * c)%C.
Proof. unfold psi_of, apply_constant, set_coeff. cbn [coeff]. apply amp_map_mul. Qed.
Lemma srqk_prep_ok o m : qk_ready o -> exists QC, srqk_prep o m = Ok QC /\ wf_computer QC /\ nqubit QC = qk_nqb o /\ Reached o m (psi_of QC) /\
  inner (qk_nqb o) (psi_of QC) (psi_of QC) = C1.
Proof.
  intros [HU HH Hr]. set (n := qk_nqb o) in *. unfold Reached. destruct (trotterize_ham n (qk_ham o) (- (INR m * qk_dt o)) (qk_trotter o) HH Hr) as (gs & ph & l & ET & HA & HE & HF & HS).
  set (ref := circ_act (qk_Uprep o) (ket 0)).
  assert (N0 : inner n ref ref = C1). { unfold ref. destruct HU as (U1 & _ & U3). rewrite circ_preserves_inner by assumption. apply ket_norm. }
  assert (HX : forall phi, phi == TrotterProofs.eulers l ref -> exp_product (PropPy.trotter_factors (mkC 0 (- (INR m * qk_dt o))) (qk_trotter o) (qk_ham o)) ref phi /\ inner n phi phi = C1).
  { intros phi HP. rewrite <- HF. split; [apply TrotterProofs.eulers_product; [|exact HP]|].
    - eapply Forall_impl; [|exact HS]. intros t Ht. exact (string_word n _ Ht).
    - rewrite (inner_ext n _ _ _ _ HP HP). rewrite eulers_inner by exact HS. exact N0. }
  unfold srqk_prep, srqk_U. destruct (Nat.ltb_spec 0 m) as [Lm|Lm].
  - rewrite ET. cbn [bind fst snd]. destruct (sim_apply (new_computer n) (qk_Uprep o ++ gs) (new_computer_wf n)) as (QC & E & W & Q & A); [now apply applicable_app|].
    fold n. rewrite E. cbn [bind]. eexists. split; [reflexivity|]. split; [|split; [exact Q|apply HX]].
    + now apply wf_constant.
    + eapply seq_trans; [|apply HE]. intros I. rewrite psi_constant. unfold psi_of. rewrite (A I), circ_act_app. unfold sscale.
      rewrite (circ_act_ext gs _ _ (circ_act_ext (qk_Uprep o) _ _ (new_computer_ket0 n)) I). fold ref. ring.
  - cbn [bind fst snd]. destruct (sim_apply (new_computer n) (qk_Uprep o) (new_computer_wf n) HU) as (QC & E & W & Q & A). fold n. rewrite E. cbn [bind]. eexists. split; [reflexivity|]. split; [|split; [exact Q|apply HX]].
    + now apply wf_constant.
    + assert (E0 : TrotterProofs.eulers l ref == ref).
      { assert (m = 0) by lia. subst m. apply eulers_zero. apply Forall_forall. intros t Ht.
        assert (HC : In (mkC 0 (fst t)) (map fst (PropPy.trotter_factors (mkC 0 (- (INR 0 * qk_dt o))) (qk_trotter o) (qk_ham o)))).
        { rewrite <- HF. unfold TrotterProofs.acting, TrotterProofs.opened. rewrite !map_map. cbn [fst]. apply in_map_iff. now exists t. }
        apply in_map_iff in HC. destruct HC as (x & Ex & Hx). unfold PropPy.trotter_factors in Hx. apply in_concat in Hx. destruct Hx as (b & Hb & Hx). apply repeat_spec in Hb. subst b. apply in_map_iff in Hx.
        destruct Hx as (u & <- & _). cbn [fst INR] in Ex. apply (f_equal Im) in Ex. cbn [Im Re Cmul RtoC] in Ex. rewrite <- Ex. ring. }
      eapply seq_trans; [|apply seq_sym, E0]. intros I. rewrite psi_constant. unfold psi_of. rewrite (A I). rewrite (circ_act_ext (qk_Uprep o) _ _ (new_computer_ket0 n) I). fold ref. ring.
Qed.

(** ---- the loops ---- *)
Lemma foreach_app' {A S} (l1 l2 : list A) (body : A -> S -> res S) s : foreach (l1 ++ l2) body s = (do s' <- foreach l1 body s; foreach l2 body s').
Proof. revert s. induction l1 as [|x l1 IH]; intros s; [reflexivity|]. cbn [app foreach]. destruct (body x s); cbn [bind]; [apply IH|reflexivity]. Qed.
Definition cross (m k a b : nat) : bool := (Nat.eqb a m && Nat.ltb b k) || (Nat.eqb b m && Nat.ltb a k).
Section loops.
Context (eig : eig_oracle) (o : qk_options) (prep : nat -> res computer) (n : nat).
Context (QC : nat -> computer) (HH : Hamiltonian n (qk_ham o)).
Context (HP : forall m, m <= qk_s o -> prep m = Ok (QC m) /\ wf_computer (QC m) /\ nqubit (QC m) = n).
Let sv (a b : nat) : C := inner n (psi_of (QC a)) (psi_of (QC b)).
Let hv (a b : nat) : C := inner n (psi_of (QC a)) (op_act (qk_ham o) (psi_of (QC b))).
Lemma sv_conj a b : Cconj (sv a b) = sv b a.
Proof. unfold sv. symmetry. apply inner_conj. Qed.
Lemma hv_conj a b : Cconj (hv a b) = hv b a.
Proof. unfold hv. rewrite <- inner_conj. symmetry. apply C63_hamiltonian_self_adjoint, HH. Qed.
Lemma mset_cross M m k (v : nat -> nat -> C) (f : nat -> nat -> C) : (forall a b, Cconj (v a b) = v b a) -> (forall a b, f a b = if cross m k a b then v a b else M a b) ->
  forall a b, mset (mset f m k (v m k)) k m (Cconj (mset f m k (v m k) m k)) a b = if cross m (S k) a b then v a b else M a b.
Proof.
  intros HC HF a b. unfold mset. rewrite !Nat.eqb_refl. cbn [andb]. rewrite HC, HF. unfold cross.
  destruct (Nat.eqb_spec a m), (Nat.eqb_spec b m), (Nat.eqb_spec a k), (Nat.eqb_spec b k), (Nat.ltb_spec b k), (Nat.ltb_spec a k), (Nat.ltb_spec b (S k)), (Nat.ltb_spec a (S k)); cbn [andb orb]; subst; try lia; try reflexivity.
Qed.
(** H applied to the m-th state *)
Lemma applied m : m <= qk_s o -> exists q', apply_operator (QC m) (qk_ham o) = Ok q' /\ wf_computer q' /\ nqubit q' = n /\ psi_of q' == op_act (qk_ham o) (psi_of (QC m)).
Proof.
  intros Hm. destruct (HP m Hm) as (_ & W & N). destruct (C18_apply_operator_partial (QC m) (qk_ham o) W) as (q' & E & W' & N' & A).
  - rewrite N. eapply Forall_impl; [|exact HH]. intros t (Ht & _). exact (string_applicable n _ Ht).
  - exists q'. rewrite N' . auto.
Qed.
Record qk_inv (m : nat) (st : qk_state) : Prop := {
  inv_om : q_omega st = map (fun i => coeff (QC i)) (seq 0 m);
  inv_Hl : length (q_Homega st) = m;
  inv_Hom : forall i, i < m -> exists q', nth_error (q_Homega st) i = Some (coeff q') /\ wf_computer q' /\ nqubit q' = n /\ psi_of q' == op_act (qk_ham o) (psi_of (QC i));
  inv_h : forall a b, a < m -> b < m -> q_h st a b = hv a b;
  inv_s : forall a b, a < m -> b < m -> q_s st a b = sv a b }.
Lemma map_nth_seq {A} (f : nat -> A) m i : i < m -> nth_error (map f (seq 0 m)) i = Some (f i).
Proof. intros H. rewrite nth_error_map. rewrite (nth_error_nth' (seq 0 m) 0) by (rewrite seq_length; exact H). rewrite seq_nth by exact H. reflexivity. Qed.
Lemma qk_step_inv m st : m <= qk_s o -> qk_inv m st -> exists st', qk_inv (S m) st' /\
  qk_step eig o prep m st = (if qk_each_step o then do e <- canonical_geig_solve eig (m + 1) (q_s st') (q_h st') true; do _x <- py_get (fst e) (qk_root o); Ok st' else Ok st').
Proof.
  intros Hm [I1 I2 I3 I4 I5]. destruct (HP m Hm) as (EP & W & N). destruct (applied m Hm) as (q' & EA & W' & N' & HA). unfold qk_step. rewrite EP. cbn [bind]. rewrite EA. cbn [bind]. cbv zeta.
  set (om := q_omega st ++ [coeff (QC m)]). set (Hom := q_Homega st ++ [coeff q']).
  assert (EO : om = map (fun i => coeff (QC i)) (seq 0 (S m))) by (unfold om; rewrite I1, seq_S, map_app; reflexivity).
  assert (LO : length om = S m) by (rewrite EO, map_length, seq_length; reflexivity).
  assert (HHo : forall i, i < S m -> exists q', nth_error Hom i = Some (coeff q') /\ wf_computer q' /\ nqubit q' = n /\ psi_of q' == op_act (qk_ham o) (psi_of (QC i))).
  { intros i Hi. unfold Hom. destruct (Nat.eq_dec i m) as [->|Ne].
    - exists q'. split; [|auto]. rewrite nth_error_app2 by lia. rewrite I2, Nat.sub_diag. reflexivity.
    - destruct (I3 i) as (q1 & E1 & R); [lia|]. exists q1. split; [|exact R]. rewrite nth_error_app1 by lia. exact E1. }
  match goal with |- context [foreach (seq 0 (length om)) ?bd _] => set (body := bd) end.
  assert (HL : forall k, k <= S m -> exists h s, foreach (seq 0 k) body (q_h st, q_s st) = Ok (h, s) /\ (forall a b, h a b = if cross m k a b then hv a b else q_h st a b) /\ (forall a b, s a b = if cross m k a b then sv a b else q_s st a b)).
  { induction k as [|k IH]; intros Hk.
    - exists (q_h st), (q_s st). split; [reflexivity|]. assert (CF : forall a b, cross m 0 a b = false) by (intros a b; unfold cross; destruct (Nat.ltb_spec b 0), (Nat.ltb_spec a 0); try lia; now rewrite !andb_false_r). split; intros a b; now rewrite CF.
    - destruct IH as (h & s & E & Hh & Hs); [lia|]. rewrite seq_S, foreach_app', E. cbn [bind Nat.add foreach]. unfold body at 1. unfold py_get. rewrite EO, (map_nth_seq _ _ m) by lia. cbn [bind].
      destruct (HHo k) as (qk & Ek & Wk & Nk & Ak); [lia|]. rewrite Ek. cbn [bind]. rewrite (map_nth_seq _ _ k) by lia. cbn [bind]. destruct (HP k) as (_ & Wk' & Nk'); [lia|].
      rewrite (vdot_inner n (QC m) qk) by assumption. cbn [bind]. rewrite (vdot_inner n (QC m) (QC k)) by assumption. cbn [bind fst snd]. rewrite (inner_ext n (psi_of (QC m)) (psi_of (QC m)) _ _ (seq_refl _) Ak).
      eexists _, _. split; [reflexivity|]. split; [exact (mset_cross (q_h st) m k hv h hv_conj Hh)|exact (mset_cross (q_s st) m k sv s sv_conj Hs)]. }
  rewrite LO. destruct (HL (S m) (Nat.le_refl _)) as (h & s & E & Hh & Hs). rewrite E. cbn [bind fst snd].
  exists (mkQk h s om Hom). split; [|reflexivity]. split; cbn [q_h q_s q_omega q_Homega].
  - exact EO.
  - unfold Hom. rewrite app_length, I2. cbn. lia.
  - exact HHo.
  - intros a b Ha Hb. rewrite Hh. unfold cross. destruct (Nat.eqb_spec a m), (Nat.eqb_spec b m), (Nat.ltb_spec b (S m)), (Nat.ltb_spec a (S m)); cbn [andb orb]; try lia; try reflexivity. apply I4; lia.
  - intros a b Ha Hb. rewrite Hs. unfold cross. destruct (Nat.eqb_spec a m), (Nat.eqb_spec b m), (Nat.ltb_spec b (S m)), (Nat.ltb_spec a (S m)); cbn [andb orb]; try lia; try reflexivity. apply I5; lia.
Qed.
Lemma qk_start : qk_inv 0 (mkQk mzero mzero [] []).
Proof. split; cbn; try reflexivity; intros; lia. Qed.
(** whatever is returned *)
Lemma build_inv k : k <= S (qk_s o) -> forall st, foreach (seq 0 k) (qk_step eig o prep) (mkQk mzero mzero [] []) = Ok st -> qk_inv k st.
Proof.
  induction k as [|k IH]; intros Hk st E.
  - cbn in E. injection E as <-. exact qk_start.
  - rewrite seq_S, foreach_app' in E. destruct (foreach (seq 0 k) _ _) as [s1|] eqn:E1; cbn [bind] in E; [|discriminate]. specialize (IH ltac:(lia) s1 eq_refl).
    cbn [Nat.add foreach] in E. destruct (qk_step_inv k s1 ltac:(lia) IH) as (st' & I' & E'). rewrite E' in E. destruct (qk_each_step o); [|cbn in E; injection E as <-; exact I'].
    destruct (canonical_geig_solve eig (k + 1) (q_s st') (q_h st') true) as [e|]; cbn [bind] in E; [|discriminate]. destruct (py_get (fst e) (qk_root o)) as [x|]; cbn [bind] in E; [|discriminate]. injection E as <-. exact I'.
Qed.
Lemma build_total k : qk_each_step o = false -> k <= S (qk_s o) -> exists st, foreach (seq 0 k) (qk_step eig o prep) (mkQk mzero mzero [] []) = Ok st /\ qk_inv k st.
Proof.
  intros EF. induction k as [|k IH]; intros Hk; [eexists; split; [reflexivity|exact qk_start]|]. destruct IH as (s1 & E1 & I1); [lia|]. rewrite seq_S, foreach_app', E1. cbn [bind Nat.add foreach].
  destruct (qk_step_inv k s1 ltac:(lia) I1) as (st' & I' & E'). rewrite E', EF. cbn [bind]. now exists st'.
Qed.
End loops.
