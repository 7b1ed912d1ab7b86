(** MRSQK: spin adapted references. *)
From Coq Require Import Reals String List Arith NArith ZArith Bool Lia Lra Permutation Sorted.
From Verif Require Import CBase Result Bits Spec OpSpec GateModel ComputerModel SafeProofs LibProofs CleanProofs SimProofs CircuitModel PauliProofs OperatorModel MeasureModel MeasureProofs PyModel PyApply FermiProofs StateProofs EigModel EigProofs GradModel GradSpec GradProofs QkModel QkProofs MrModel MrProofs MrRefs PropOperator PropMeasure PropGrad.
From Verif Require PropPy AnsatzSa.
Import ListNotations.
Local Open Scope nat_scope.

(** ---- configurations ---- *)
(** d has the same spatial occupations as r and the same |Sz| *)
Definition same_config (r d : list nat) : Prop := spin_moved r d /\ Z.abs (spin2 d) = Z.abs (spin2 r).
Definition ClassOf (r : list nat) (cl : list (list nat)) : Prop := NoDup cl /\ forall d, In d cl <-> same_config r d.
Lemma moved_sym a b : spin_moved a b -> spin_moved b a.
Proof.
  intros (L & P & T). split; [now symmetry|]. rewrite L. split; [|intros p Hp; symmetry; now apply T]. intros i Hi. destruct (P i Hi) as [E|(S & E)]; [left; now symmetry|right]. rewrite E. cbn [fst snd]. split; [lia|]. destruct (pair_at a i); reflexivity.
Qed.
Lemma moved_trans a b d : spin_moved a b -> spin_moved b d -> spin_moved a d.
Proof.
  intros (L & P & T) (L' & P' & T'). rewrite L in P', T'. split; [congruence|]. split; [|intros p Hp; rewrite T' by exact Hp; now apply T].
  intros i Hi. destruct (P i Hi) as [E|(S & E)], (P' i Hi) as [E'|(S' & E')]; rewrite E in E'; cbn [fst snd] in E'.
  - left. exact E'.
  - right. rewrite E in S'. split; [exact S'|exact E'].
  - right. split; [exact S|exact E'].
  - left. rewrite E'. destruct (pair_at a i); reflexivity.
Qed.
Lemma config_sym a b : same_config a b -> same_config b a.
Proof. intros (H & E). split; [now apply moved_sym|now symmetry]. Qed.
Lemma config_trans a b d : same_config a b -> same_config b d -> same_config a d.
Proof. intros (H & E) (H' & E'). split; [now apply (moved_trans a b)|congruence]. Qed.
Lemma closed_shell_alone r d : open_shell r = false -> spin_moved r d -> d = r.
Proof.
  intros HO HM. assert (HS : singles r = []).
  { unfold singles. unfold open_shell in HO. revert HO. generalize (seq 0 (Nat.div (length r) 2)). induction l as [|i l IH]; intros H; [reflexivity|]. cbn [existsb filter] in *. apply orb_false_iff in H. destruct H as (-> & H). now apply IH. }
  assert (HI : In d [r]); [|destruct HI as [->|[]]; reflexivity]. apply (moved_closed r [r]); [now left| |exact HM]. intros e o _ Ho. rewrite HS in Ho. destruct Ho.
Qed.
Lemma moved_det n r d : DetOn n r -> spin_moved r d -> DetOn n d.
Proof.
  intros (L & H) (L' & P & T). split; [congruence|]. apply Forall_forall. intros x Hx. apply (In_nth _ _ 0) in Hx. destruct Hx as (p & Lp & <-).
  assert (HN : forall q, nth q r 0 = 0 \/ nth q r 0 = 1). { intros q. destruct (Nat.lt_ge_cases q (length r)) as [Lt|Ge]; [|left; now apply nth_overflow]. rewrite Forall_forall in H. now apply H, nth_In. }
  destruct (Nat.lt_ge_cases p (2 * Nat.div (length r) 2)) as [Lt|Ge]; [|rewrite T by exact Ge; apply HN].
  assert (Hi : Nat.div p 2 < Nat.div (length r) 2) by (apply Nat.div_lt_upper_bound; lia). pose proof (Nat.div_mod p 2 ltac:(lia)) as ED. pose proof (Nat.mod_upper_bound p 2 ltac:(lia)) as EM.
  destruct (P _ Hi) as [E|(_ & E)]; pose proof (f_equal fst E) as E1; pose proof (f_equal snd E) as E2; unfold pair_at in E1, E2; cbn [fst snd] in E1, E2; (destruct (Nat.eq_dec (p mod 2) 0) as [e|e]; [replace p with (2 * (p / 2)) by lia; rewrite E1; apply HN|replace p with (2 * (p / 2) + 1) by lia; rewrite E2; apply HN]).
Qed.
Lemma class_of_closed r : open_shell r = false -> ClassOf r [r].
Proof.
  intros H. split; [repeat constructor; intros []|]. intros d. split; [intros [<-|[]]; split; [apply moved_refl|reflexivity]|]. intros (HM & _). left. symmetry. now apply closed_shell_alone.
Qed.
Lemma class_of_open r : exists l, build_eq_dets (2 ^ Nat.div (length r) 2 + 1) r = Ok l /\ ClassOf r l.
Proof. destruct (eq_dets_correct r (2 ^ Nat.div (length r) 2 + 1) ltac:(lia)) as (l & E & ND & HI). exists l. split; [exact E|]. split; [exact ND|exact HI]. Qed.
Lemma det_in l r : existsb (det_eqb r) l = true <-> In r l.
Proof.
  rewrite existsb_exists. unfold det_eqb. split; [intros (x & Hx & E); destruct (list_eq_dec Nat.eq_dec r x); [subst; exact Hx|discriminate]|]. intros H. exists r. split; [exact H|]. destruct (list_eq_dec Nat.eq_dec r r); congruence.
Qed.
Lemma NoDup_app_intro {A} (l1 l2 : list A) : NoDup l1 -> NoDup l2 -> (forall x, In x l1 -> ~ In x l2) -> NoDup (l1 ++ l2).
Proof.
  induction l1 as [|x l1 IH]; intros H1 H2 HD; [exact H2|]. cbn. inversion H1 as [|? ? N1 N2]; subst. constructor; [|apply IH; [exact N2|exact H2|intros y Hy; apply HD; now right]].
  intros H. apply in_app_or in H. destruct H as [H|H]; [now apply N1|]. exact (HD x (or_introl eq_refl) H).
Qed.
Definition Configurations (refs : list (list nat)) (classes : list (list (list nat))) : Prop :=
  NoDup (concat classes) /\ Forall (fun cl => exists r, In r refs /\ ClassOf r cl) classes /\ forall r, In r refs -> In r (concat classes).
Lemma spin_complements_spec refs : exists classes, spin_complements refs = Ok (concat classes, map (@length (list nat)) classes) /\ Configurations refs classes.
Proof.
  unfold spin_complements. match goal with |- context [foreach _ ?b _] => set (body := b) end.
  assert (G : forall l done classes, (forall r, In r l -> In r refs) -> NoDup (concat classes) -> Forall (fun cl => exists r, In r refs /\ ClassOf r cl) classes -> (forall r, In r done -> In r (concat classes)) ->
    exists classes', foreach l body (concat classes, map (@length (list nat)) classes) = Ok (concat classes', map (@length (list nat)) classes') /\ NoDup (concat classes') /\ Forall (fun cl => exists r, In r refs /\ ClassOf r cl) classes' /\ forall r, In r (done ++ l) -> In r (concat classes')).
  { induction l as [|r l IH]; intros done classes HL ND HF HD; [exists classes; rewrite app_nil_r; repeat split; assumption|]. cbn [foreach]. unfold body at 1. cbn [fst snd].
    assert (HL' : forall x, In x l -> In x refs) by (intros x Hx; apply HL; now right).
    destruct (existsb (det_eqb r) (concat classes)) eqn:EX.
    - cbn [bind]. destruct (IH (done ++ [r]) classes HL' ND HF) as (c' & E & N' & F' & D').
      + intros x Hx. apply in_app_or in Hx. destruct Hx as [Hx|[<-|[]]]; [now apply HD|now apply det_in].
      + exists c'. rewrite <- app_assoc in D'. auto.
    - assert (NI : ~ In r (concat classes)) by (intros H; apply det_in in H; congruence).
      assert (HN : forall cl, ClassOf r cl -> exists classes', foreach l body (concat classes ++ cl, map (@length (list nat)) classes ++ [length cl]) = Ok (concat classes', map (@length (list nat)) classes') /\ NoDup (concat classes') /\ Forall (fun cl => exists r, In r refs /\ ClassOf r cl) classes' /\ forall x, In x (done ++ r :: l) -> In x (concat classes')).
      { intros cl (HC1 & HC2). destruct (IH (done ++ [r]) (classes ++ [cl]) HL') as (c' & E & N' & F' & D').
        - rewrite concat_app. cbn [concat]. rewrite app_nil_r. apply NoDup_app_intro; [exact ND|exact HC1|]. intros x Hx Hc. apply HC2 in Hc. apply NI. apply in_concat in Hx. destruct Hx as (cl' & Hcl' & Hx). rewrite Forall_forall in HF. destruct (HF cl' Hcl') as (r' & _ & _ & HC'). apply in_concat. exists cl'. split; [exact Hcl'|]. apply HC'. apply HC' in Hx. apply (config_trans r' x); [exact Hx|now apply config_sym].
        - apply Forall_app. split; [exact HF|]. constructor; [|constructor]. exists r. split; [apply HL; now left|now split].
        - intros x Hx. rewrite concat_app. apply in_or_app. apply in_app_or in Hx. destruct Hx as [Hx|[<-|[]]]; [left; now apply HD|right]. cbn [concat]. rewrite app_nil_r. apply HC2. split; [apply moved_refl|reflexivity].
        - exists c'. rewrite concat_app, map_app in E. cbn [concat map] in E. rewrite app_nil_r in E. rewrite <- app_assoc in D'. auto. }
      destruct (open_shell r) eqn:EO.
      + destruct (class_of_open r) as (cl & Ec & HC). rewrite Ec. cbn [bind]. exact (HN cl HC).
      + cbn [bind]. exact (HN [r] (class_of_closed r EO)). }
  destruct (G refs [] [] (fun r H => H)) as (c' & E & N' & F' & D'); [constructor|constructor|intros r []|]. exists c'. split; [exact E|]. split; [exact N'|]. split; [exact F'|exact D'].
Qed.
Lemma pieces_concat {A} (cs : list (list A)) : pieces (concat cs) (map (@length A) cs) = cs.
Proof. induction cs as [|c cs IH]; [reflexivity|]. cbn [concat map pieces]. rewrite firstn_app, Nat.sub_diag, firstn_all, firstn_O, app_nil_r, skipn_app, skipn_all, Nat.sub_diag, skipn_O. cbn [app]. now rewrite IH. Qed.
Lemma pieces_map {A B} (f : A -> B) l lens : pieces (map f l) lens = map (map f) (pieces l lens).
Proof. revert l. induction lens as [|n lens IH]; intros l; [reflexivity|]. cbn [pieces map]. rewrite firstn_map, skipn_map, IH. reflexivity. Qed.

(** ---- the CI matrix ---- *)
Definition CIMatrix (n : nat) (ham : qop) (dets : list (list nat)) (h : mat) : Prop :=
  forall a b, a < length dets -> b < length dets -> h a b = inner n (ket (det_number (nth a dets []))) (op_act ham (ket (det_number (nth b dets [])))).
Section ci.
Context (o : mr_options) (n : nat) (En : mr_nqb o = n) (HH : Hamiltonian n (mr_ham o)).
Let v (dets : list (list nat)) (a b : nat) : C := inner n (ket (det_number (nth a dets []))) (op_act (mr_ham o) (ket (det_number (nth b dets [])))).
Lemma ci_v_conj dets a b : Cconj (v dets a b) = v dets b a.
Proof. unfold v. rewrite <- inner_conj. symmetry. apply C63_hamiltonian_self_adjoint, HH. Qed.
Record ci_inv (dets : list (list nat)) (m : nat) (st : mat * list (list C) * list (list C)) : Prop := {
  ci_om : forall i, i < m -> exists q, nth_error (snd (fst st)) i = Some (coeff q) /\ wf_computer q /\ nqubit q = n /\ psi_of q == ket (det_number (nth i dets []));
  ci_len : length (snd (fst st)) = m;
  ci_Hom : forall i, i < m -> exists q, nth_error (snd st) i = Some (coeff q) /\ wf_computer q /\ nqubit q = n /\ psi_of q == op_act (mr_ham o) (ket (det_number (nth i dets [])));
  ci_Hlen : length (snd st) = m;
  ci_h : forall a b, a < m -> b < m -> fst (fst st) a b = v dets a b }.
Lemma op_act_ext2 (O : qop) a b : a == b -> op_act O a == op_act O b.
Proof. intros H I. unfold op_act. apply Csum_ext. intros t _. f_equal. apply (circ_act_ext (snd t) _ _ H I). Qed.
Lemma ci_step_inv dets m st : m < length dets -> DetOn n (nth m dets []) -> ci_inv dets m st -> exists st', ci_step o m (nth m dets []) st = Ok st' /\ ci_inv dets (S m) st'.
Proof.
  intros Hm Hd [I1 I2 I3 I4 I5]. destruct (xgates_prepare n _ Hd) as (PA & PK). unfold ci_step. rewrite En, (det_circuit_eq n _ Hd). cbn [bind]. destruct (sim_apply (new_computer n) _ (new_computer_wf n) PA) as (QC & E & W & Q & A). rewrite E. cbn [bind]. cbv zeta.
  assert (HQ : psi_of QC == ket (det_number (nth m dets []))) by (eapply seq_trans; [exact A|]; eapply seq_trans; [apply circ_act_ext; exact (new_computer_ket0 n)|exact PK]).
  assert (NQ : nqubit QC = n) by exact Q.
  destruct (C18_apply_operator_partial QC (mr_ham o) W) as (q' & E' & W' & N' & A'). { rewrite NQ. eapply Forall_impl; [|exact HH]. intros t (Ht & _). exact (string_applicable n _ Ht). }
  rewrite E'. cbn [bind]. set (om := snd (fst st) ++ [coeff QC]). set (Hom := snd st ++ [coeff q']).
  assert (HO : forall i, i < S m -> exists q, nth_error om i = Some (coeff q) /\ wf_computer q /\ nqubit q = n /\ psi_of q == ket (det_number (nth i dets []))).
  { intros i Hi. unfold om. destruct (Nat.eq_dec i m) as [->|Ne].
    - exists QC. split; [|auto]. rewrite nth_error_app2 by lia. rewrite I2, Nat.sub_diag. reflexivity.
    - destruct (I1 i) as (q1 & E1 & R); [lia|]. exists q1. split; [|exact R]. rewrite nth_error_app1 by lia. exact E1. }
  assert (HHo : forall i, i < S m -> exists q, nth_error Hom i = Some (coeff q) /\ wf_computer q /\ nqubit q = n /\ psi_of q == op_act (mr_ham o) (ket (det_number (nth i dets [])))).
  { intros i Hi. unfold Hom. destruct (Nat.eq_dec i m) as [->|Ne].
    - exists q'. split; [rewrite nth_error_app2 by lia; rewrite I4, Nat.sub_diag; reflexivity|]. split; [exact W'|]. split; [congruence|]. eapply seq_trans; [exact A'|]. apply op_act_ext2, HQ.
    - destruct (I3 i) as (q1 & E1 & R); [lia|]. exists q1. split; [|exact R]. rewrite nth_error_app1 by lia. exact E1. }
  assert (LO : length om = S m) by (unfold om; rewrite app_length, I2; cbn; lia).
  match goal with |- context [foreach (seq 0 (length om)) ?bd _] => set (body := bd) end.
  assert (HL : forall k, k <= S m -> exists h, foreach (seq 0 k) body (fst (fst st)) = Ok h /\ (forall a b, h a b = if cross m k a b then v dets a b else fst (fst st) a b)).
  { induction k as [|k IH]; intros Hk.
    - exists (fst (fst st)). split; [reflexivity|]. assert (CF : forall a b, cross m 0 a b = false) by (intros a b; unfold cross; destruct (Nat.ltb_spec b 0), (Nat.ltb_spec a 0); try lia; now rewrite !andb_false_r). intros a b; now rewrite CF.
    - destruct IH as (h & E1 & Hh); [lia|]. rewrite seq_S, foreach_app', E1. cbn [bind Nat.add foreach]. unfold body at 1. unfold py_get. destruct (HO m) as (qm & Em & Wm & Nm & Am); [lia|]. rewrite Em. cbn [bind].
      destruct (HHo k) as (qk & Ek & Wk & Nk & Ak); [lia|]. rewrite Ek. cbn [bind]. rewrite (vdot_inner n qm qk) by assumption. cbn [bind]. rewrite (inner_ext n _ _ _ _ Am Ak).
      eexists. split; [reflexivity|]. exact (mset_cross (fst (fst st)) m k (v dets) h (ci_v_conj dets) Hh). }
  rewrite LO. destruct (HL (S m) (Nat.le_refl _)) as (h & E1 & Hh). rewrite E1. cbn [bind]. eexists. split; [reflexivity|]. split; cbn [fst snd].
  - exact HO.
  - exact LO.
  - exact HHo.
  - unfold Hom. rewrite app_length, I4. cbn. lia.
  - intros a b Ha Hb. rewrite Hh. unfold cross. destruct (Nat.eqb_spec a m), (Nat.eqb_spec b m), (Nat.ltb_spec b (S m)), (Nat.ltb_spec a (S m)); cbn [andb orb]; try lia; try reflexivity. apply I5; lia.
Qed.
Lemma ci_mats_spec dets : Forall (DetOn n) dets -> exists h, build_classical_CI_mats o dets = Ok h /\ CIMatrix n (mr_ham o) dets h.
Proof.
  intros HD. unfold build_classical_CI_mats.
  assert (EC : combine (seq 0 (length dets)) dets = map (fun i => (i, nth i dets [])) (seq 0 (length dets))).
  { clear. assert (G : forall (l : list (list nat)) k (f : nat -> list nat), (forall i, i < length l -> f (k + i) = nth i l []) -> combine (seq k (length l)) l = map (fun i => (i, f i)) (seq k (length l))).
    { induction l as [|x l IH]; intros k f Hf; [reflexivity|]. cbn [length seq combine map]. f_equal; [f_equal; specialize (Hf 0); rewrite Nat.add_0_r in Hf; rewrite Hf by (cbn; lia); reflexivity|]. apply IH. intros i Hi. specialize (Hf (S i)). rewrite <- plus_n_Sm in Hf. cbn [Nat.add]. rewrite Hf by (cbn; lia). reflexivity. }
    apply (G dets 0 (fun i => nth i dets [])). intros i _. reflexivity. }
  rewrite EC. clear EC.
  assert (G : forall k, k <= length dets -> exists st, foreach (map (fun i => (i, nth i dets [])) (seq 0 k)) (fun ir st => ci_step o (fst ir) (snd ir) st) (mzero, [], []) = Ok st /\ ci_inv dets k st).
  { induction k as [|k IH]; intros Hk; [eexists; split; [reflexivity|]; split; cbn; try reflexivity; intros; lia|]. destruct IH as (st & E & I); [lia|]. rewrite seq_S, map_app, foreach_app', E. cbn [bind map foreach fst snd Nat.add].
    destruct (ci_step_inv dets k st ltac:(lia)) as (st' & E' & I'); [rewrite Forall_forall in HD; apply HD, nth_In; lia|exact I|]. rewrite E'. cbn [bind]. now exists st'. }
  destruct (G (length dets) (Nat.le_refl _)) as (st & E & I). rewrite E. cbn [bind]. eexists. split; [reflexivity|]. intros a b Ha Hb. now apply (ci_h _ _ _ I).
Qed.
End ci.

(** ---- the CI root ---- *)
Lemma adjusted_spec fuel k evecs : forall s r, adjusted_root fuel k evecs s = Ok r -> s <= r /\ r < k /\ (1e-6 <= Rabs (evecs 0%nat r))%R /\ forall i, s <= i < r -> (Rabs (evecs 0%nat i) < 1e-6)%R.
Proof.
  induction fuel as [|f IH]; intros s r E; [discriminate|]. cbn [adjusted_root] in E. destruct (Nat.ltb_spec s k) as [Lt|]; cbn [negb] in E; [|discriminate]. destruct (Rltb_spec (Rabs (evecs 0 s)) 1e-6) as [Ls|Gs].
  - destruct (IH _ _ E) as (A & B & D & F). split; [lia|]. split; [exact B|]. split; [exact D|]. intros i Hi. destruct (Nat.eq_dec i s) as [->|]; [exact Ls|apply F; lia].
  - injection E as <-. split; [lia|]. split; [exact Lt|]. split; [lra|]. intros i Hi. lia.
Qed.
(** the coefficient that belongs to each determinant *)
Fixpoint lookup (dets : list (list nat)) (v : list R) (d : list nat) : R :=
  match dets, v with x :: dets, c :: v => if det_eqb x d then c else lookup dets v d | _, _ => 0%R end.
Lemma lookup_nth dets : forall v a, NoDup dets -> length v = length dets -> a < length dets -> lookup dets v (nth a dets []) = nth a v 0%R.
Proof.
  induction dets as [|x dets IH]; intros [|c v] a ND L Ha; try discriminate; [cbn in Ha; lia|]. inversion ND as [|? ? N1 N2]; subst. destruct a as [|a]; cbn [nth lookup]; unfold det_eqb.
  - destruct (list_eq_dec Nat.eq_dec x x); [reflexivity|congruence].
  - cbn [length] in *. destruct (list_eq_dec Nat.eq_dec x (nth a dets [])) as [E|]; [exfalso; apply N1; rewrite E; apply nth_In; lia|]. apply IH; [exact N2|lia|lia].
Qed.
Lemma lookup_map dets v : NoDup dets -> length v = length dets -> map (lookup dets v) dets = v.
Proof.
  intros ND L. apply (nth_ext _ _ 0%R 0%R); [rewrite map_length; now symmetry|]. intros a Ha. rewrite map_length in Ha. rewrite (nth_indep _ 0%R (lookup dets v [])) by (rewrite map_length; exact Ha). rewrite map_nth. now apply lookup_nth.
Qed.
(** the weight of a configuration and its normalised wave function *)
Definition config_weight (cf : list nat -> R) (cl : list (list nat)) : R := fold_right Rplus 0%R (map (fun d => (cf d * cf d)%R) cl).
Definition config_wave (cf : list nat -> R) (cl : list (list nat)) : list (R * list nat) := map (fun d => ((cf d / sqrt (config_weight cf cl))%R, d)) cl.
Definition last_weight (cf : list nat -> R) (cl : list (list nat)) : R := (cf (last cl []) * cf (last cl []))%R.
Lemma sq_fold v : forall s, fold_left (fun s x => (s + x * x)%R) v s = (s + fold_right Rplus 0 (map (fun x => (x * x)%R) v))%R.
Proof. induction v as [|x v IH]; intros s; cbn; [ring|]. rewrite IH. ring. Qed.
Lemma normalised_class cf cl : combine (normalised (map cf cl)) cl = config_wave cf cl.
Proof.
  unfold normalised, config_wave. rewrite sq_fold, Rplus_0_l, !map_map. change (fold_right Rplus 0%R (map (fun x => (cf x * cf x)%R) cl)) with (config_weight cf cl). generalize (config_weight cf cl). intros w. induction cl as [|d cl IH]; [reflexivity|]. cbn. now rewrite IH.
Qed.
Lemma importance_class cf cl : cl <> [] -> importance (map cf cl) = last_weight cf cl.
Proof.
  intros H. unfold importance, last_weight. generalize 0%R at 2 as s. induction cl as [|d cl IH]; intros s; [congruence|]. destruct cl as [|e cl]; [cbn; ring|]. change (last (d :: e :: cl) []) with (last (e :: cl) []). rewrite <- (IH ltac:(discriminate) (0 + cf d * cf d)%R). reflexivity.
Qed.
Lemma insert_desc_pair x l : StronglySorted desc l -> StronglySorted desc (insert_pair (fun a b => Rleb b a) x l).
Proof.
  induction 1 as [|y l HS IH HF]; [repeat constructor|]. cbn [insert_pair]. unfold Rleb at 1. destruct (Rltb_spec (Re (fst x)) (Re (fst y))) as [Lt|Ge]; cbn [negb].
  - constructor; [exact IH|]. apply (Permutation_Forall (Permutation_sym (insert_perm _ x l))). constructor; [unfold desc; lra|exact HF].
  - constructor; [constructor; assumption|]. constructor; [unfold desc; lra|]. eapply Forall_impl; [|exact HF]. intros z Hz. unfold desc in *. lra.
Qed.
Lemma sorted_desc_idxs a : StronglySorted desc (sorted_largest_idxs a true).
Proof. unfold sorted_largest_idxs. induction (combine _ _) as [|x l IH]; [constructor|]. cbn [fold_right]. apply insert_desc_pair, IH. Qed.
(** picks are [d] positions with the largest weights, in decreasing order *)
Definition TopPicks (num d : nat) (w : nat -> R) (picks : list nat) : Prop :=
  length picks = d /\ NoDup picks /\ Forall (fun g => g < num) picks /\ StronglySorted (fun a b => (w b <= w a)%R) picks /\
  forall a b, In a picks -> b < num -> ~ In b picks -> (w b <= w a)%R.
Lemma picks_spec (w : list R) d : d <= length w -> let s := sorted_largest_idxs (map RtoC w) true in TopPicks (length w) d (fun g => nth g w 0%R) (map snd (firstn d s)).
Proof.
  intros Hd s. pose proof (sorted_perm (map RtoC w) true) as HP. fold s in HP. rewrite map_length in HP. pose proof (sorted_desc_idxs (map RtoC w)) as HS. fold s in HS.
  assert (LS : length s = length w) by (rewrite (Permutation_length HP), combine_length, map_length, seq_length; lia).
  assert (HI : forall p, In p s -> snd p < length w /\ Re (fst p) = nth (snd p) w 0%R).
  { intros p Hp. apply (Permutation_in _ HP) in Hp. apply (In_nth _ _ (RtoC 0, 0)) in Hp. destruct Hp as (k & Lk & Ek). rewrite combine_length, map_length, seq_length, Nat.min_id in Lk. rewrite combine_nth in Ek by (rewrite map_length, seq_length; reflexivity). rewrite seq_nth in Ek by exact Lk. rewrite map_nth in Ek. subst p. cbn. split; [exact Lk|reflexivity]. }
  rewrite <- (firstn_skipn d s) in HS. destruct (sorted_app_le _ _ _ HS) as (S1 & S2).
  assert (HF : forall p, In p (firstn d s) -> In p s) by (intros p Hp; rewrite <- (firstn_skipn d s); apply in_or_app; now left).
  assert (HMs : Permutation (map snd s) (seq 0 (length w))). { rewrite (Permutation_map snd HP). assert (G : forall (a : list C) (b : list nat), length a = length b -> map snd (combine a b) = b) by (induction a as [|x a IH]; intros [|y b] H; try discriminate; [reflexivity|cbn; rewrite IH; [reflexivity|cbn in H; lia]]). rewrite G; [reflexivity|]. now rewrite map_length, seq_length. }
  assert (ND : NoDup (map snd s)) by (apply (Permutation_NoDup (Permutation_sym HMs)), seq_NoDup).
  split; [rewrite map_length, firstn_length; lia|]. split; [|split; [|split]].
  - rewrite <- (firstn_skipn d s), map_app in ND. now apply NoDup_app_l in ND.
  - apply Forall_map, Forall_forall. intros p Hp. apply HI, HF, Hp.
  - apply (sorted_map _ _ _ _) with (2 := S1). intros a b Ha Hb H. unfold desc in H. rewrite (proj2 (HI a (HF a Ha))), (proj2 (HI b (HF b Hb))) in H. exact H.
  - intros a b Ha Lb Nb. apply in_map_iff in Ha. destruct Ha as (p & <- & Hp). assert (Hs : In b (map snd s)) by (apply (Permutation_in _ (Permutation_sym HMs)), in_seq; lia). rewrite <- (firstn_skipn d s), map_app in Hs. apply in_app_or in Hs. destruct Hs as [Hs|Hs]; [contradiction|].
    apply in_map_iff in Hs. destruct Hs as (q & <- & Hq). specialize (S2 p q Hp Hq). unfold desc in S2. rewrite (proj2 (HI p (HF p Hp))) in S2. rewrite (proj2 (HI q ltac:(rewrite <- (firstn_skipn d s); apply in_or_app; now right))) in S2. exact S2.
Qed.
Lemma pick_loop {A B} (s : list (C * nat)) (cs : list (list A)) (ds : list (list B)) (f : list A -> list B -> list (R * list nat)) d : length cs = length ds -> (forall p, In p s -> snd p < length cs) ->
  foreach (seq 0 d) (fun i l => do p <- py_get s i; do c <- py_get cs (snd p); do dd <- py_get ds (snd p); Ok (l ++ [f c dd])%list) [] =
  (if length s <? d then Throw (PyError "IndexError") else Ok (map (fun g => f (nth g cs []) (nth g ds [])) (map snd (firstn d s)))).
Proof.
  intros HL HI. match goal with |- foreach _ ?b _ = _ => set (body := b) end.
  assert (G : forall k, k <= length s -> foreach (seq 0 k) body [] = Ok (map (fun g => f (nth g cs []) (nth g ds [])) (map snd (firstn k s)))).
  { induction k as [|k IH]; intros Hk; [reflexivity|]. rewrite seq_S, foreach_app', IH by lia. cbn [bind Nat.add foreach]. unfold body. unfold py_get. destruct (nth_error s k) as [p|] eqn:Ep; [|apply nth_error_None in Ep; lia]. cbn [bind].
    pose proof (HI p (nth_error_In _ _ Ep)) as Lp. rewrite (nth_error_nth' cs [] Lp). cbn [bind]. rewrite (nth_error_nth' ds []) by lia. cbn [bind]. f_equal.
    replace (firstn (S k) s) with (firstn k s ++ [p]); [rewrite !map_app; reflexivity|]. clear - Ep. revert k Ep. induction s as [|x s IH]; intros [|k] Ep; try discriminate; [cbn in Ep; injection Ep as ->; reflexivity|]. cbn [firstn app]. f_equal. now apply IH. }
  destruct (Nat.ltb_spec (length s) d) as [Lt|Ge]; [|now apply G]. replace d with (length s + S (d - length s - 1)) by lia. rewrite seq_app, foreach_app', G by lia. cbn [bind Nat.add seq foreach]. unfold body at 1. unfold py_get. rewrite (proj2 (nth_error_None s (length s))) by lia. reflexivity.
Qed.
