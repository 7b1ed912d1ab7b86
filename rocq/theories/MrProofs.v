(** MRSQK: the states |psi_{i,m}>, the overlap and Hamiltonian matrices. *)
From Coq Require Import Reals String List Arith NArith Bool Lia Lra.
From Verif Require Import CBase Result Bits Spec OpSpec GateModel ComputerModel SafeProofs LibProofs CleanProofs SimProofs CircuitModel PauliProofs OperatorModel MeasureModel MeasureProofs PyModel PyApply ExpSpec ExpProofs ExpCircuit FermiProofs StateProofs EigModel GradModel GradSpec GradProofs QkModel QkProofs GsdProofs MrModel PropOperator PropMeasure PropGrad.
From Verif Require TrotterProofs PropPy PropAnsatz.
Import ListNotations.
Local Open Scope nat_scope.

(** ---- the evolution ---- *)
Definition evolved (o : mr_options) (m : nat) (phi psi : state) : Prop :=
  exp_product (PropPy.trotter_factors (mkC 0 (- (INR m * mr_dt o))) (mr_trotter o) (mr_ham o)) phi psi.
Lemma euler_ext' y A a b : (forall u v, u == v -> A u == A v) -> a == b -> euler y A a == euler y A b.
Proof. intros HA H I. unfold euler, sadd, sscale. rewrite (H I), (HA a b H I). reflexivity. Qed.
Lemma eulers_ext' l : forall a b, a == b -> TrotterProofs.eulers l a == TrotterProofs.eulers l b.
Proof. induction l as [|[y P] l IH]; intros a b H; [exact H|]. cbn [TrotterProofs.eulers]. apply IH, euler_ext'; [intros u v; apply circ_act_ext|exact H]. Qed.
Lemma evolve_spec o n m : Hamiltonian n (mr_ham o) -> 1 <= mr_trotter o -> exists gs ph,
  mr_evolve o m = Ok (gs, ph) /\ applicable n gs /\
  (forall phi phi' psi, phi == phi' -> psi == sscale ph (circ_act gs phi) -> evolved o m phi' psi /\ inner n psi psi = inner n phi' phi') /\
  (m = 0 -> forall phi psi, psi == phi -> evolved o m phi psi).
Proof.
  intros HH Hr. destruct (trotterize_ham n (mr_ham o) (- (INR m * mr_dt o)) (mr_trotter o) HH Hr) as (gs & ph & l & ET & HA & HE & HF & HS).
  assert (HX : forall phi psi, psi == TrotterProofs.eulers l phi -> evolved o m phi psi).
  { intros phi psi HP. unfold evolved. rewrite <- HF. apply TrotterProofs.eulers_product; [|exact HP]. eapply Forall_impl; [|exact HS]. intros t Ht. exact (string_word n _ Ht). }
  exists gs, ph. split; [exact ET|]. split; [exact HA|]. split.
  - intros phi phi' psi H1 H2. assert (HP : psi == TrotterProofs.eulers l phi'). { eapply seq_trans; [exact H2|]. eapply seq_trans; [apply HE|]. now apply eulers_ext'. }
    split; [now apply HX|]. rewrite (inner_ext n _ _ _ _ HP HP). now apply eulers_inner.
  - intros -> phi psi HP. apply HX. eapply seq_trans; [exact HP|]. apply seq_sym, eulers_zero. apply Forall_forall. intros t Ht.
    assert (HC : In (mkC 0 (fst t)) (map fst (PropPy.trotter_factors (mkC 0 (- (INR 0 * mr_dt o))) (mr_trotter o) (mr_ham o)))).
    { rewrite <- HF. unfold TrotterProofs.acting, TrotterProofs.opened. rewrite !map_map. cbn [fst]. apply in_map_iff. now exists t. }
    apply in_map_iff in HC. destruct HC as (x & Ex & Hx). unfold PropPy.trotter_factors in Hx. apply in_concat in Hx. destruct Hx as (b & Hb & Hx). apply repeat_spec in Hb. subst b. apply in_map_iff in Hx.
    destruct Hx as (u & <- & _). cbn [fst INR] in Ex. apply (f_equal Im) in Ex. cbn [Im Re Cmul RtoC] in Ex. rewrite <- Ex. ring.
Qed.

(** ---- references as vectors ---- *)
(** number of the determinant with the given occupations of spin orbitals 0, 1, 2, ... *)
Definition det_number (d : list nat) : nat := fold_right (fun o k => o + 2 * k) 0 d.
Definition ref_wave (ref : list (R * list nat)) : state := fun I => Csum (fun t => (RtoC (fst t) * ket (det_number (snd t)) I)%C) ref.
Definition DetOn (n : nat) (d : list nat) : Prop := length d = n /\ Forall (fun o => o = 0 \/ o = 1) d.
Lemma det_on_binary n d : DetOn n d -> binary d.
Proof. intros [_ H]. eapply Forall_impl; [|exact H]. cbn. lia. Qed.
Lemma det_number_idx d : N.to_nat (idx d) = det_number d.
Proof. induction d as [|o r IH]; [reflexivity|]. cbn [idx det_number fold_right]. fold (det_number r). rewrite <- IH. lia. Qed.
Lemma det_number_lt n d : DetOn n d -> det_number d < 2 ^ n.
Proof.
  intros H. destruct (H) as [L _]. pose proof (idx_lt d (det_on_binary n d H)) as HL. rewrite L in HL. rewrite <- det_number_idx. apply N.compare_lt_iff in HL.
  rewrite N2Nat.inj_compare, N2Nat.inj_pow, Nat2N.id in HL. now apply Nat.compare_lt_iff in HL.
Qed.
Lemma det_number_bit n d q : DetOn n d -> bit (det_number d) q = Nat.eqb (nth q d 0) 1.
Proof. intros H. rewrite <- det_number_idx, FermiProofs.occ_bit. apply occ_idx, (det_on_binary n d H). Qed.
Lemma det_number_inj n d e : DetOn n d -> DetOn n e -> det_number d = det_number e -> d = e.
Proof.
  intros Hd He E. apply (nth_ext _ _ 0 0); [destruct Hd, He; congruence|]. intros q Hq. assert (B : Nat.eqb (nth q d 0) 1 = Nat.eqb (nth q e 0) 1) by (rewrite <- (det_number_bit n d q Hd), <- (det_number_bit n e q He), E; reflexivity).
  destruct Hd as [Ld Hd], He as [Le He]. rewrite Forall_forall in Hd, He. specialize (Hd _ (nth_In d 0 Hq)). assert (Hq2 : q < length e) by lia. specialize (He _ (nth_In e 0 Hq2)).
  destruct Hd as [Hd|Hd], He as [He|He]; rewrite Hd, He in *; try reflexivity; discriminate.
Qed.
Lemma xgates_prepare n d : DetOn n d -> applicable n (xgates 0 d) /\ circ_act (xgates 0 d) (ket 0) == ket (det_number d).
Proof.
  intros H. split; [apply xgates_applicable; destruct H; lia|]. intros I. rewrite xgates_act, flips_ket. f_equal. apply bits_ext. intros q. rewrite bit_flips, (det_number_bit n d q H). unfold bit at 1. rewrite Nat.bits_0, Nat.sub_0_r. cbn [Nat.leb andb xorb].
  destruct H as [L H]. destruct (Nat.lt_ge_cases q n) as [Lt|Ge]; [|rewrite nth_overflow by lia; reflexivity]. rewrite Forall_forall in H. destruct (H (nth q d 0)) as [-> | ->]; [apply nth_In; lia|reflexivity|reflexivity].
Qed.
Lemma det_circuit_eq n d : DetOn n d -> det_circuit n d = Ok (xgates 0 d).
Proof.
  intros [L H]. unfold det_circuit. change (xgates 0 d) with ([] ++ xgates 0 d). rewrite <- L.
  match goal with |- foreach _ ?b _ = _ => set (body := b) end.
  assert (G : forall e k c, (forall j, j < length e -> nth_error d (k + j) = nth_error e j) -> Forall (fun o => o = 0 \/ o = 1) e -> foreach (seq k (length e)) body c = Ok (c ++ xgates k e)).
  { induction e as [|x e IH]; intros k c HN HB; cbn [length seq foreach xgates]; [now rewrite app_nil_r|]. unfold body at 1. unfold py_get. pose proof (HN 0 ltac:(cbn; lia)) as H0. rewrite Nat.add_0_r in H0. rewrite H0. cbn [nth_error bind].
    assert (HN' : forall j, j < length e -> nth_error d (S k + j) = nth_error e j) by (intros j Hj; pose proof (HN (S j) ltac:(cbn; lia)) as H1; rewrite <- plus_n_Sm in H1; exact H1).
    destruct (Forall_inv HB) as [-> | ->]; cbn [Nat.eqb]; [apply IH; [exact HN'|exact (Forall_inv_tail HB)]|]. rewrite make_X. cbn [bind]. rewrite IH; [|exact HN'|exact (Forall_inv_tail HB)]. rewrite <- app_assoc. reflexivity. }
  apply G; [intros; reflexivity|exact H].
Qed.
Lemma find_csum (l : list (nat * C)) J : NoDup (map fst l) -> match find (fun p => fst p =? J) l with Some p => snd p | None => C0 end = Csum (fun p => (snd p * ket (fst p) J)%C) l.
Proof.
  induction l as [|[a c] l IH]; intros HN; [reflexivity|]. cbn [map fst] in HN. inversion HN as [|? ? N1 N2]; subst. cbn [find fst snd]. rewrite Csum_cons. cbn [fst snd]. assert (EK : ket a J = if Nat.eqb J a then C1 else C0) by reflexivity. rewrite EK. clear EK. destruct (Nat.eqb_spec a J) as [->|Ne].
  - rewrite Nat.eqb_refl. rewrite Csum_zero; [cbn [snd]; ring|]. intros [b e] Hb. cbn [fst snd]. unfold ket. destruct (Nat.eqb_spec J b) as [->|]; [|ring]. exfalso. apply N1. apply in_map_iff. now exists (b, e).
  - destruct (Nat.eqb_spec J a); [congruence|]. rewrite IH by exact N2. ring.
Qed.
Lemma last_csum (l : list (nat * C)) J : NoDup (map fst l) -> last_entry l J = Csum (fun p => (snd p * ket (fst p) J)%C) l.
Proof.
  intros HN. unfold last_entry. rewrite find_csum; [apply Csum_perm, Permutation.Permutation_sym, Permutation.Permutation_rev|]. rewrite map_rev. apply (Permutation.Permutation_NoDup (Permutation.Permutation_rev _) HN).
Qed.

(** ---- the states ---- *)
Section states.
Context (o : mr_options) (n : nat) (En : mr_nqb o = n) (HH : Hamiltonian n (mr_ham o)) (Hr : 1 <= mr_trotter o).
Definition good_state (ref : list (R * list nat)) (m : nat) (QC : computer) : Prop :=
  wf_computer QC /\ nqubit QC = n /\ evolved o m (ref_wave ref) (psi_of QC) /\ inner n (psi_of QC) (psi_of QC) = inner n (ref_wave ref) (ref_wave ref).
Lemma one_wave d : ref_wave [(1%R, d)] == ket (det_number d).
Proof. intros I. unfold ref_wave. rewrite Csum_cons, Csum_nil. cbn [fst snd]. change (RtoC 1) with C1. ring. Qed.
Lemma det_state_spec d m ph0 : DetOn n d -> In 1 d -> exists QC ph, det_state o d m ph0 = Ok (QC, ph) /\ good_state [(1%R, d)] m QC.
Proof.
  intros Hd HI. destruct (xgates_prepare n d Hd) as (PA & PK). destruct (evolve_spec o n m HH Hr) as (gs & ph & EV & HA & HE & HZ).
  unfold det_state. rewrite En, (det_circuit_eq n d Hd). cbn [bind].
  assert (EX : existsb (fun j => Nat.eqb (nth j d 0) 1) (seq 0 n) = true).
  { apply existsb_exists. destruct (In_nth _ _ 0 HI) as (j & Lj & Ej). exists j. split; [apply in_seq; destruct Hd; lia|]. rewrite Ej. reflexivity. }
  rewrite EX. destruct (Nat.ltb_spec 0 m) as [Lm|Lm].
  - rewrite EV. cbn [bind fst snd]. destruct (sim_apply (new_computer n) (xgates 0 d ++ gs) (new_computer_wf n)) as (QC & E & W & Q & A); [now apply applicable_app|]. rewrite E. cbn [bind].
    eexists _, _. split; [reflexivity|]. split; [now apply wf_constant|]. split; [exact Q|]. apply (HE (ket (det_number d))); [apply seq_sym, one_wave|].
    intros I. rewrite psi_constant. unfold psi_of. rewrite (A I), circ_act_app. unfold sscale.
    rewrite (circ_act_ext gs _ _ (seq_trans _ _ _ (circ_act_ext (xgates 0 d) _ _ (new_computer_ket0 n)) PK) I). ring.
  - cbn [bind fst snd]. destruct (sim_apply (new_computer n) (xgates 0 d) (new_computer_wf n) PA) as (QC & E & W & Q & A). rewrite E. cbn [bind].
    assert (HP : psi_of (apply_constant QC C1) == ref_wave [(1%R, d)]).
    { eapply seq_trans; [|apply seq_sym, one_wave]. intros I. rewrite psi_constant. unfold psi_of. rewrite (A I). rewrite (seq_trans _ _ _ (circ_act_ext (xgates 0 d) _ _ (new_computer_ket0 n)) PK I). ring. }
    eexists _, _. split; [reflexivity|]. split; [now apply wf_constant|]. split; [exact Q|]. split; [apply HZ; [lia|exact HP]|]. now apply inner_ext.
Qed.
Definition AdaptedRef (ref : list (R * list nat)) : Prop := Forall (fun t => DetOn n (snd t)) ref /\ NoDup (map snd ref).
Lemma sa_entries ref : 1 <= n -> Forall (fun t => DetOn n (snd t)) ref -> forall l, foreach ref (fun t l => do idx <- ref_to_basis_idx (snd t); Ok (l ++ [(N.to_nat idx, RtoC (fst t))])%list) l = Ok (l ++ map (fun t => (det_number (snd t), RtoC (fst t))) ref)%list.
Proof.
  intros Hn. induction 1 as [|t ref Ht _ IH]; intros l; cbn [foreach map]; [now rewrite app_nil_r|]. rewrite basis_idx_eq; [|destruct Ht as [L _]; destruct (snd t); cbn in L; [lia|discriminate]|exact (det_on_binary n _ Ht)]. cbn [bind]. rewrite IH, det_number_idx, <- app_assoc. reflexivity.
Qed.
Lemma sa_state_spec ref m : 1 <= n -> AdaptedRef ref -> exists QC, sa_state o ref m = Ok QC /\ good_state ref m QC.
Proof.
  intros Hn (HD & HN). destruct (evolve_spec o n m HH Hr) as (gs & ph & EV & HA & HE & HZ). unfold sa_state. rewrite En, (sa_entries ref Hn HD). cbn [app].
  set (l := map (fun t => (det_number (snd t), RtoC (fst t))) ref).
  destruct (set_state_spec (new_computer n) l (new_computer_wf n)) as (Q0 & E0 & A0 & N0 & W0 & _).
  { unfold l. apply Forall_map. cbn [fst]. eapply Forall_impl; [|exact HD]. intros t Ht. exact (det_number_lt n _ Ht). }
  assert (HW : psi_of Q0 == ref_wave ref).
  { intros I. unfold psi_of. rewrite A0, last_csum.
    - unfold l, ref_wave. rewrite Csum_map. reflexivity.
    - unfold l. rewrite map_map. cbn [fst]. clear - HD HN. induction ref as [|t ref IH]; [constructor|]. cbn [map] in *. inversion HN as [|? ? N1 N2]; subst. constructor; [|apply IH; [exact (Forall_inv_tail HD)|exact N2]].
      intros HI. apply in_map_iff in HI. destruct HI as (u & Eu & Hu). apply N1. apply in_map_iff. exists u. split; [|exact Hu]. apply (det_number_inj n); [|exact (Forall_inv HD)|exact Eu]. pose proof (Forall_inv_tail HD) as HT. rewrite Forall_forall in HT. now apply HT. }
  destruct (Nat.ltb_spec 0 m) as [Lm|Lm].
  - rewrite EV. cbn [bind fst snd]. rewrite E0. cbn [bind]. destruct (sim_apply Q0 gs W0) as (QC & E & W & Q & A); [rewrite N0; exact HA|]. rewrite E. cbn [bind]. eexists. split; [reflexivity|].
    split; [now apply wf_constant|]. split; [cbn; rewrite Q; exact N0|]. apply (HE (psi_of Q0)); [exact HW|]. intros I. rewrite psi_constant. unfold psi_of. rewrite (A I). unfold sscale. ring.
  - cbn [bind fst snd]. rewrite E0. cbn [bind]. destruct (sim_apply Q0 [] W0) as (QC & E & W & Q & A); [apply applicable_nil|]. rewrite E. cbn [bind]. eexists. split; [reflexivity|].
    assert (HP : psi_of (apply_constant QC C1) == ref_wave ref). { eapply seq_trans; [|exact HW]. intros I. rewrite psi_constant. unfold psi_of. rewrite (A I). cbn. ring. }
    split; [now apply wf_constant|]. split; [cbn; rewrite Q; exact N0|]. split; [apply HZ; [lia|exact HP]|]. now apply inner_ext.
Qed.
(** what has been stored for the computers qs *)
Record stored (qs : list computer) (l : list (list C) * list (list C)) : Prop := {
  st_om : fst l = map coeff qs;
  st_Hom : Forall2 (fun q v => exists q', v = coeff q' /\ wf_computer q' /\ nqubit q' = n /\ psi_of q' == op_act (mr_ham o) (psi_of q)) qs (snd l) }.
Lemma push_spec qs l QC : stored qs l -> wf_computer QC -> nqubit QC = n -> exists l', push_state o QC l = Ok l' /\ stored (qs ++ [QC]) l'.
Proof.
  intros [S1 S2] W N. unfold push_state. destruct (C18_apply_operator_partial QC (mr_ham o) W) as (q' & E & W' & N' & A).
  { rewrite N. eapply Forall_impl; [|exact HH]. intros t (Ht & _). exact (string_applicable n _ Ht). }
  rewrite E. cbn [bind]. eexists. split; [reflexivity|]. split; cbn [fst snd]; [rewrite S1, map_app; reflexivity|]. apply Forall2_app; [exact S2|]. constructor; [|constructor]. exists q'. repeat split; try assumption; try congruence; apply W'.
Qed.
Definition all_pairs {A} (refs : list A) : list (A * nat) := flat_map (fun r => map (fun m => (r, m)) (seq 0 (mr_s o + 1))) refs.
Lemma det_states_spec refs : Forall (fun d => DetOn n d /\ In 1 d) refs -> exists qs l, det_states o refs = Ok l /\ stored qs l /\ Forall2 (fun rm q => good_state [(1%R, fst rm)] (snd rm) q) (all_pairs refs) qs.
Proof.
  intros HR. unfold det_states.
  assert (EF : forall st, foreach refs (fun ref st => foreach (seq 0 (mr_s o + 1)) (fun m st => do QC <- det_state o ref m (snd st); do l <- push_state o (fst QC) (fst st); Ok (l, snd QC)) st) st
     = foreach (all_pairs refs) (fun rm st => do QC <- det_state o (fst rm) (snd rm) (snd st); do l <- push_state o (fst QC) (fst st); Ok (l, snd QC)) st).
  { intros st. unfold all_pairs. rewrite <- foreach_flat. apply foreach_ext2. intros r s _. generalize (seq 0 (mr_s o + 1)). intros ms. revert s. induction ms as [|m ms IH]; intros s; [reflexivity|]. cbn [foreach map fst snd].
    destruct (do QC <- det_state o r m (snd s); do l <- push_state o (fst QC) (fst s); Ok (l, snd QC)); cbn [bind]; [apply IH|reflexivity]. }
  rewrite EF. clear EF.
  assert (HP : Forall (fun rm => DetOn n (fst rm) /\ In 1 (fst rm)) (all_pairs refs)).
  { apply Forall_forall. intros [r m] Hm. apply in_flat_map in Hm. destruct Hm as (r' & Hr' & Hm). apply in_map_iff in Hm. destruct Hm as (m' & E & _). injection E as <- <-. rewrite Forall_forall in HR. now apply HR. }
  assert (G : forall ps, Forall (fun rm => DetOn n (fst rm) /\ In 1 (fst rm)) ps -> forall qs l ph, stored qs l -> exists qs' l' ph', foreach ps (fun rm st => do QC <- det_state o (fst rm) (snd rm) (snd st); do l <- push_state o (fst QC) (fst st); Ok (l, snd QC)) (l, ph) = Ok (l', ph') /\ stored (qs ++ qs') l' /\ Forall2 (fun rm q => good_state [(1%R, fst rm)] (snd rm) q) ps qs').
  { induction 1 as [|[r m] ps (Hd & HI) _ IH]; intros qs l ph HS; [exists [], l, ph; rewrite app_nil_r; repeat split; try constructor; apply HS|]. cbn [foreach fst snd] in *.
    destruct (det_state_spec r m ph Hd HI) as (QC & ph1 & E1 & G1). rewrite E1. cbn [bind fst snd]. destruct (G1) as (W & Q & _). destruct (push_spec qs l QC HS W Q) as (l1 & E2 & S1). rewrite E2. cbn [bind].
    destruct (IH _ l1 ph1 S1) as (qs' & l' & ph' & E3 & S3 & F3). exists (QC :: qs'), l', ph'. split; [exact E3|]. split; [rewrite <- app_assoc in S3; exact S3|]. constructor; [exact G1|exact F3]. }
  destruct (G _ HP [] ([], []) None) as (qs & l & ph & E & S & F); [split; [reflexivity|constructor]|]. rewrite E. cbn [bind fst]. exists qs, l. auto.
Qed.
Lemma sa_states_spec refs : 1 <= n -> Forall AdaptedRef refs -> exists qs l, sa_states o refs = Ok l /\ stored qs l /\ Forall2 (fun rm q => good_state (fst rm) (snd rm) q) (all_pairs refs) qs.
Proof.
  intros Hn HR. unfold sa_states.
  assert (EF : forall st, foreach refs (fun ref l => foreach (seq 0 (mr_s o + 1)) (fun m l => do QC <- sa_state o ref m; push_state o QC l) l) st
     = foreach (all_pairs refs) (fun rm l => do QC <- sa_state o (fst rm) (snd rm); push_state o QC l) st).
  { intros st. unfold all_pairs. rewrite <- foreach_flat. apply foreach_ext2. intros r s _. generalize (seq 0 (mr_s o + 1)). intros ms. revert s. induction ms as [|m ms IH]; intros s; [reflexivity|]. cbn [foreach map fst snd].
    destruct (do QC <- sa_state o r m; push_state o QC s); cbn [bind]; [apply IH|reflexivity]. }
  rewrite EF. clear EF.
  assert (HP : Forall (fun rm => AdaptedRef (fst rm)) (all_pairs refs)).
  { apply Forall_forall. intros [r m] Hm. apply in_flat_map in Hm. destruct Hm as (r' & Hr' & Hm). apply in_map_iff in Hm. destruct Hm as (m' & E & _). injection E as <- <-. rewrite Forall_forall in HR. now apply HR. }
  assert (G : forall ps, Forall (fun rm : list (R * list nat) * nat => AdaptedRef (fst rm)) ps -> forall qs l, stored qs l -> exists qs' l', foreach ps (fun rm l => do QC <- sa_state o (fst rm) (snd rm); push_state o QC l) l = Ok l' /\ stored (qs ++ qs') l' /\ Forall2 (fun rm q => good_state (fst rm) (snd rm) q) ps qs').
  { induction 1 as [|[r m] ps HA _ IH]; intros qs l HS; [exists [], l; rewrite app_nil_r; repeat split; try constructor; apply HS|]. cbn [foreach fst snd] in *.
    destruct (sa_state_spec r m Hn HA) as (QC & E1 & G1). rewrite E1. cbn [bind]. destruct (G1) as (W & Q & _). destruct (push_spec qs l QC HS W Q) as (l1 & E2 & S1). rewrite E2. cbn [bind].
    destruct (IH _ l1 S1) as (qs' & l' & E3 & S3 & F3). exists (QC :: qs'), l'. split; [exact E3|]. split; [rewrite <- app_assoc in S3; exact S3|]. constructor; [exact G1|exact F3]. }
  destruct (G _ HP [] ([], [])) as (qs & l & E & S & F); [split; [reflexivity|constructor]|]. exists qs, l. auto.
Qed.

(** ---- the matrices ---- *)
Section matrices.
Context (eig : eig_oracle) (qs : list computer) (l : list (list C) * list (list C)) (HS : stored qs l) (HQ : Forall (fun q => wf_computer q /\ nqubit q = n) qs).
Let psi (p : nat) : state := psi_of (nth p qs (new_computer n)).
Let sv (a b : nat) : C := inner n (psi a) (psi b).
Let hv (a b : nat) : C := inner n (psi a) (op_act (mr_ham o) (psi b)).
Lemma mr_sv_conj a b : Cconj (sv a b) = sv b a.
Proof. unfold sv. symmetry. apply inner_conj. Qed.
Lemma mr_hv_conj a b : Cconj (hv a b) = hv b a.
Proof. unfold hv. rewrite <- inner_conj. symmetry. apply C63_hamiltonian_self_adjoint, HH. Qed.
Lemma qs_nth p : p < length qs -> nth_error qs p = Some (nth p qs (new_computer n)) /\ wf_computer (nth p qs (new_computer n)) /\ nqubit (nth p qs (new_computer n)) = n.
Proof. intros H. split; [now apply nth_error_nth'|]. rewrite Forall_forall in HQ. now apply HQ, nth_In. Qed.
Lemma om_nth p : p < length qs -> nth_error (fst l) p = Some (coeff (nth p qs (new_computer n))).
Proof. intros H. destruct HS as [-> _]. rewrite nth_error_map. destruct (qs_nth p H) as (-> & _). reflexivity. Qed.
Lemma Hom_nth p : p < length qs -> exists q', nth_error (snd l) p = Some (coeff q') /\ wf_computer q' /\ nqubit q' = n /\ psi_of q' == op_act (mr_ham o) (psi p).
Proof.
  intros H. destruct (qs_nth p H) as (E & _). destruct HS as [_ HF]. unfold psi. generalize (nth p qs (new_computer n)) E. clear - HF. revert p. induction HF as [|q v qs vs (q' & -> & R) _ IH]; intros [|p] q0 E; try discriminate.
  - cbn in E. injection E as <-. now exists q'.
  - now apply IH.
Qed.
Definition row_cross (p k a b : nat) : bool := (Nat.eqb a p && (p <=? b) && (b <? p + k)) || (Nat.eqb b p && (p <=? a) && (a <? p + k)).
Lemma mset_row M p k (v f : nat -> nat -> C) : (forall a b, Cconj (v a b) = v b a) -> (forall a b, f a b = if row_cross p k a b then v a b else M a b) ->
  forall a b, mset (mset f p (p + k) (v p (p + k))) (p + k) p (Cconj (mset f p (p + k) (v p (p + k)) p (p + k))) a b = if row_cross p (S k) a b then v a b else M a b.
Proof.
  intros HC HF a b. unfold mset. rewrite !Nat.eqb_refl. cbn [andb]. rewrite HC, HF. unfold row_cross.
  destruct (Nat.eqb_spec a p), (Nat.eqb_spec b p), (Nat.eqb_spec a (p + k)), (Nat.eqb_spec b (p + k)), (Nat.leb_spec p b), (Nat.leb_spec p a), (Nat.ltb_spec b (p + k)), (Nat.ltb_spec a (p + k)), (Nat.ltb_spec b (p + S k)), (Nat.ltb_spec a (p + S k)); cbn [andb orb]; subst; try lia; try reflexivity. f_equal; lia.
Qed.
Definition mats_ok (N p : nat) (hs : mat * mat) : Prop := forall a b, a < N -> b < N -> Nat.min a b < p -> fst hs a b = hv a b /\ snd hs a b = sv a b.
Definition row_body (p : nat) := (fun q hs =>
      do wp <- py_get (fst l) p;
      do Hq <- py_get (snd l) q;
      do wq <- py_get (fst l) q;
      do hv <- vdot wp Hq;
      let h := mset (fst hs) p q hv in
      let h := mset h q p (Cconj (h p q)) in
      do sv <- vdot wp wq;
      let s := mset (snd hs) p q sv in
      let s := mset s q p (Cconj (s p q)) in
      Ok (h, s)) : nat -> mat * mat -> res (mat * mat).
Lemma row_spec p hs k : p + k <= length qs -> exists hs', foreach (seq p k) (row_body p) hs = Ok hs' /\ (forall a b, fst hs' a b = if row_cross p k a b then hv a b else fst hs a b) /\ (forall a b, snd hs' a b = if row_cross p k a b then sv a b else snd hs a b).
Proof.
  induction k as [|k IH]; intros Hk.
  - exists hs. split; [reflexivity|]. assert (CF : forall a b, row_cross p 0 a b = false). { intros a b. unfold row_cross. destruct (Nat.eqb_spec a p), (Nat.eqb_spec b p), (Nat.leb_spec p b), (Nat.leb_spec p a), (Nat.ltb_spec b (p + 0)), (Nat.ltb_spec a (p + 0)); cbn [andb orb]; try lia; reflexivity. }
    split; intros a b; now rewrite CF.
  - destruct IH as (hs1 & E & Hh & Hs); [lia|]. rewrite seq_S, foreach_app', E. cbn [bind foreach]. unfold row_body at 1. unfold py_get. rewrite om_nth by lia. cbn [bind].
    destruct (Hom_nth (p + k)) as (q' & Eq & Wq & Nq & Aq); [lia|]. rewrite Eq. cbn [bind]. rewrite om_nth by lia. cbn [bind]. destruct (qs_nth p) as (_ & W1 & N1); [lia|]. destruct (qs_nth (p + k)) as (_ & W2 & N2); [lia|].
    rewrite (vdot_inner n _ q') by assumption. cbn [bind]. rewrite (vdot_inner n _ (nth (p + k) qs (new_computer n))) by assumption. cbn [bind]. rewrite (inner_ext n _ _ _ _ (seq_refl _) Aq).
    eexists. split; [reflexivity|]. cbn [fst snd]. split; [exact (mset_row (fst hs) p k hv (fst hs1) mr_hv_conj Hh)|exact (mset_row (snd hs) p k sv (snd hs1) mr_sv_conj Hs)].
Qed.
Lemma fill_step N p hs : N <= length qs -> p < N -> mats_ok N p hs -> exists hs', foreach (seq p (N - p)) (row_body p) hs = Ok hs' /\ mats_ok N (S p) hs'.
Proof.
  intros HN Hp HI. destruct (row_spec p hs (N - p)) as (hs' & E & Hh & Hs); [lia|]. exists hs'. split; [exact E|]. intros a b Ha Hb Hm. rewrite Hh, Hs. unfold row_cross.
  destruct (Nat.eqb_spec a p), (Nat.eqb_spec b p), (Nat.leb_spec p b), (Nat.leb_spec p a), (Nat.ltb_spec b (p + (N - p))), (Nat.ltb_spec a (p + (N - p))); cbn [andb orb]; try lia; try (split; reflexivity); apply HI; lia.
Qed.
Lemma fill_body p N hs : (foreach (seq p (N - p)) (fun q hs =>
      do wp <- py_get (fst l) p;
      do Hq <- py_get (snd l) q;
      do wq <- py_get (fst l) q;
      do hv <- vdot wp Hq;
      let h := mset (fst hs) p q hv in
      let h := mset h q p (Cconj (h p q)) in
      do sv <- vdot wp wq;
      let s := mset (snd hs) p q sv in
      let s := mset s q p (Cconj (s p q)) in
      Ok (h, s)) hs) = foreach (seq p (N - p)) (row_body p) hs.
Proof. reflexivity. Qed.
Lemma fill_inv N hs : N <= length qs -> fill_mats eig o N l = Ok hs -> mats_ok N N hs.
Proof.
  intros HN. unfold fill_mats. match goal with |- foreach _ ?b _ = _ -> _ => set (body := b) end.
  enough (G : forall k, k <= N -> forall hs, foreach (seq 0 k) body (mzero, mzero) = Ok hs -> mats_ok N k hs) by (apply G; lia).
  induction k as [|k IH]; intros Hk hs' E; [intros a b _ _ H; lia|]. rewrite seq_S, foreach_app' in E. destruct (foreach (seq 0 k) body (mzero, mzero)) as [h1|] eqn:E1; cbn [bind] in E; [|discriminate]. specialize (IH ltac:(lia) h1 eq_refl).
  cbn [Nat.add foreach] in E. unfold body in E at 1. rewrite fill_body in E. destruct (fill_step N k h1 HN ltac:(lia) IH) as (h2 & E2 & I2). rewrite E2 in E. cbn [bind] in E. destruct (mr_each o); [|cbn [bind] in E; injection E as <-; exact I2].
  destruct (canonical_geig_solve _ _ _ _ _) as [e|]; cbn [bind] in E; [|discriminate]. destruct (mr_root o) as [r|]; [|discriminate]. destruct (py_get (fst e) r); cbn [bind] in E; [|discriminate]. injection E as <-. exact I2.
Qed.
Lemma fill_total N : N <= length qs -> mr_each o = false -> exists hs, fill_mats eig o N l = Ok hs /\ mats_ok N N hs.
Proof.
  intros HN HE. unfold fill_mats. match goal with |- context [foreach _ ?b _] => set (body := b) end.
  enough (G : forall k, k <= N -> exists hs, foreach (seq 0 k) body (mzero, mzero) = Ok hs /\ mats_ok N k hs) by (apply G; lia).
  induction k as [|k IH]; intros Hk; [eexists; split; [reflexivity|]; intros a b _ _ H; lia|]. destruct IH as (h1 & E1 & I1); [lia|]. rewrite seq_S, foreach_app', E1. cbn [bind Nat.add foreach]. unfold body at 1. rewrite fill_body.
  destruct (fill_step N k h1 HN ltac:(lia) I1) as (h2 & E2 & I2). rewrite E2. cbn [bind]. rewrite HE. cbn [bind]. now exists h2.
Qed.
End matrices.
End states.
Lemma pairs_length {A} o (refs : list A) : length (all_pairs o refs) = length refs * (mr_s o + 1).
Proof. unfold all_pairs. induction refs as [|r refs IH]; [reflexivity|]. cbn [flat_map length]. rewrite app_length, map_length, seq_length, IH. lia. Qed.
Lemma pairs_nth {A} o (refs : list A) i m r : nth_error refs i = Some r -> m <= mr_s o -> nth_error (all_pairs o refs) (i * (mr_s o + 1) + m) = Some (r, m).
Proof.
  unfold all_pairs. revert i. induction refs as [|x refs IH]; intros [|i] E Hm; try discriminate; cbn [flat_map].
  - cbn in E. injection E as ->. rewrite nth_error_app1 by (rewrite map_length, seq_length; lia). rewrite nth_error_map, (nth_error_nth' _ 0) by (rewrite seq_length; lia). rewrite seq_nth by lia. reflexivity.
  - rewrite nth_error_app2 by (rewrite map_length, seq_length; lia). rewrite map_length, seq_length. replace (S i * (mr_s o + 1) + m - (mr_s o + 1)) with (i * (mr_s o + 1) + m) by lia. now apply IH.
Qed.
