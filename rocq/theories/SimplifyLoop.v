(** The loops of Circuit::simplify: positions marked for removal (C09). *)
From Coq Require Import Reals String List Arith Lia Bool Lra Permutation.
From Verif Require Import CBase Result Bits Spec GateModel ComputerModel ApplyProofs SafeProofs GateProofs LibProofs SimProofs InteractProofs CircuitModel SimplifyProofs.
Import ListNotations.

Definition gate0 : gate := mkGate "" 0 0 (fun _ _ => C0) None.
Definition stdg (g : gate) : Prop := exists ty p, std_gate ty p g.

(** gates at live positions a, a+1, ..., a+k-1 *)
Definition seg (gs : list gate) (rem : list nat) (a k : nat) : list gate :=
  map (fun p => nth p gs gate0) (filter (fun p => negb (nmem p rem)) (seq a k)).

Lemma seg_app gs rem a k1 k2 : seg gs rem a (k1 + k2) = seg gs rem a k1 ++ seg gs rem (a + k1) k2.
Proof. unfold seg. rewrite seq_app, filter_app, map_app. reflexivity. Qed.
Lemma seg_S gs rem a k : seg gs rem a (S k) = (if nmem a rem then [] else [nth a gs gate0]) ++ seg gs rem (S a) k.
Proof. unfold seg. cbn [seq filter]. destruct (nmem a rem); reflexivity. Qed.
Lemma nmem_In x l : nmem x l = true <-> In x l.
Proof. unfold nmem. rewrite existsb_exists. split; [intros (y & H & E); apply Nat.eqb_eq in E; subst; exact H|intros H; exists x; split; [exact H|apply Nat.eqb_refl]]. Qed.
Lemma nmem_notIn x l : nmem x l = false <-> ~ In x l.
Proof. rewrite <- nmem_In. destruct (nmem x l); split; congruence. Qed.
Lemma nmem_app x l r : nmem x (l ++ r) = nmem x l || nmem x r.
Proof. unfold nmem. apply existsb_app. Qed.
Lemma seg_rem_out gs rem ps a k : (forall p, In p ps -> p < a \/ a + k <= p) -> seg gs (rem ++ ps) a k = seg gs rem a k.
Proof.
  intros H. unfold seg. f_equal. apply filter_ext_in. intros x Hx. apply in_seq in Hx. rewrite nmem_app.
  assert (E : nmem x ps = false). { apply nmem_notIn. intros F. specialize (H x F). lia. }
  rewrite E, orb_false_r. reflexivity.
Qed.
Lemma seg_set_out gs rem p g a k : p < length gs -> (p < a \/ a + k <= p) -> seg (list_set gs p g) rem a k = seg gs rem a k.
Proof.
  intros L H. unfold seg. apply map_ext_in. intros x Hx. apply filter_In in Hx. destruct Hx as [Hx _]. apply in_seq in Hx.
  rewrite nth_list_set by exact L. destruct (Nat.eqb_spec x p); [lia|reflexivity].
Qed.

Lemma commute_through g B psi : Forall (gates_commute g) B -> circ_act B (gate_act g psi) == gate_act g (circ_act B psi).
Proof.
  revert psi; induction B as [|h B IH]; intros psi H; [apply seq_refl|].
  inversion H; subst. rewrite !circ_act_cons.
  eapply seq_trans; [apply circ_act_ext, gates_commute_sym; eassumption|]. apply IH; assumption.
Qed.

Record inv (n : nat) (A : state -> state) (gs : list gate) (rem : list nat) : Prop := {
  i_len : length gs = n;
  i_lib : Forall lib_shape gs;
  i_nd : NoDup rem;
  i_rng : forall p, In p rem -> p < n;
  i_act : forall psi, circ_act (seg gs rem 0 n) psi == A psi
}.

Lemma Forall_list_set {T} (P : T -> Prop) l i x : Forall P l -> P x -> Forall P (list_set l i x).
Proof.
  intros H Hx. revert i; induction H; intros i; destruct i; simpl; constructor; auto.
Qed.
Lemma Forall_nth' {T} (P : T -> Prop) l i d : Forall P l -> i < length l -> P (nth i l d).
Proof. intros H Hi. rewrite Forall_forall in H. apply H, nth_In, Hi. Qed.
Lemma NoDup_snoc {T} (l : list T) x : NoDup l -> ~ In x l -> NoDup (l ++ [x]).
Proof.
  intros H N. apply NoDup_rev in H. rewrite <- (rev_involutive (l ++ [x])), rev_app_distr.
  apply NoDup_rev. simpl. constructor; [|exact H]. rewrite <- in_rev. exact N.
Qed.

Lemma inner_inv n A gs rem pos1 : forall r j,
  inv n A gs rem -> pos1 < n -> nmem pos1 rem = false -> S pos1 + j + r = n ->
  Forall (gates_commute (nth pos1 gs gate0)) (seg gs rem (S pos1) j) ->
  let '(gs', rem', o) := simplify_inner (nth pos1 gs gate0) pos1 (seq (S pos1 + j) r) gs rem in
  inv n A gs' rem' /\ (Forall stdg gs -> o = None /\ Forall stdg gs').
Proof.
  induction r as [|r IH]; intros j HI Hp HN Hs HC; cbn [seq simplify_inner]; [auto|].
  set (pos2 := S pos1 + j) in *. change (S pos2) with (S (S pos1 + j)). 
  assert (L2 : pos2 < length gs) by (rewrite (i_len _ _ _ _ HI); unfold pos2; lia).
  destruct (nmem pos2 rem) eqn:E2.
  - replace (S (S pos1 + j)) with (S pos1 + S j) by lia. apply IH; auto; [lia|].
    replace (S j) with (j + 1) by lia. rewrite seg_app. fold pos2. rewrite seg_S, E2. simpl. rewrite app_nil_r. exact HC.
  - rewrite (vget_ok gs pos2 gate0 L2). set (g1 := nth pos1 gs gate0) in *. set (g2 := nth pos2 gs gate0).
    assert (S1 : lib_shape g1) by (apply Forall_nth'; [apply HI|rewrite (i_len _ _ _ _ HI); exact Hp]).
    assert (S2 : lib_shape g2) by (apply Forall_nth'; [apply HI|exact L2]).
    assert (SPLIT : forall g r', S r' = n - pos2 -> forall gs' rem', nmem pos1 rem' = g -> 
       seg gs' rem' 0 n = seg gs' rem' 0 pos1 ++ (if g then [] else [nth pos1 gs' gate0]) ++ seg gs' rem' (S pos1) j
         ++ (if nmem pos2 rem' then [] else [nth pos2 gs' gate0]) ++ seg gs' rem' (S pos2) r').
    { intros g r' Hr gs' rem' Hg. replace n with (pos1 + S (j + S r')) at 1 by lia. rewrite seg_app, Nat.add_0_l, seg_S, Hg, seg_app, seg_S.
      fold pos2. rewrite <- ?app_assoc. reflexivity. }
    specialize (SPLIT) with (r' := r). 
    assert (ER : S r = n - pos2) by (unfold pos2; lia).
    assert (OLD : forall psi, circ_act (seg gs rem (S pos2) r) (gate_act g2 (gate_act g1 (circ_act (seg gs rem (S pos1) j) (circ_act (seg gs rem 0 pos1) psi)))) == A psi).
    { intros psi. eapply seq_trans; [|apply (i_act _ _ _ _ HI psi)]. rewrite (SPLIT false ER gs rem HN), E2.
      fold g1 g2. rewrite !circ_act_app. cbn [circ_act fold_left]. apply circ_act_ext, gate_act_ext.
      apply seq_sym, commute_through, HC. }
    destruct (pair_step g1 g2) as [a|e] eqn:EP.
    + pose proof (pair_step_sound g1 g2 a S1 S2 EP) as HP. destruct a as [| | |g]; cbn [pair_sound] in HP.
      * replace (S (S pos1 + j)) with (S pos1 + S j) by lia. apply IH; auto; [lia|].
        replace (S j) with (j + 1) by lia. rewrite seg_app. fold pos2. rewrite seg_S, E2. cbn [app seg seq filter map].
        apply Forall_app. split; [exact HC|]. constructor; [exact HP|constructor].
      * auto.
      * split; [|auto]. constructor; try apply HI.
        -- replace (rem ++ [pos1; pos2]) with ((rem ++ [pos1]) ++ [pos2]) by (rewrite <- app_assoc; reflexivity).
           apply nmem_notIn in HN, E2. apply NoDup_snoc; [apply NoDup_snoc; [apply HI|exact HN]|].
           rewrite in_app_iff. intros [F|[F|[]]]; [contradiction|]. unfold pos2 in F; lia.
        -- intros p Hp'. apply in_app_iff in Hp'. destruct Hp' as [F|[<-|[<-|[]]]]; [apply HI, F|exact Hp|unfold pos2; lia].
        -- intros psi. rewrite (SPLIT true ER).
           2:{ rewrite nmem_app. unfold nmem at 2. simpl. rewrite Nat.eqb_refl, ?orb_true_r; reflexivity. }
           rewrite nmem_app. unfold nmem at 2. cbn [existsb]. rewrite Nat.eqb_refl, ?orb_true_r. cbn [orb].
           rewrite !seg_rem_out by (intros p [<-|[<-|[]]]; unfold pos2; lia).
           rewrite !circ_act_app. cbn [circ_act fold_left]. eapply seq_trans; [|apply OLD].
           apply circ_act_ext, seq_sym, HP.
      * destruct HP as (HM & HS & HT & HCc). split.
        -- constructor.
           ++ rewrite list_set_length. apply HI.
           ++ apply Forall_list_set; [apply HI|left; exact HS].
           ++ apply nmem_notIn in HN. apply NoDup_snoc; [apply HI|exact HN].
           ++ intros p Hp'. apply in_app_iff in Hp'. destruct Hp' as [F|[<-|[]]]; [apply HI, F|exact Hp].
           ++ intros psi. rewrite (SPLIT true ER).
              2:{ rewrite nmem_app. unfold nmem at 2. simpl. rewrite Nat.eqb_refl, ?orb_true_r; reflexivity. }
              rewrite nmem_app, E2. unfold nmem at 1. cbn [existsb].
              replace (Nat.eqb pos2 pos1) with false by (symmetry; apply Nat.eqb_neq; unfold pos2; lia). cbn [orb].
              rewrite nth_list_set by exact L2. rewrite Nat.eqb_refl.
              rewrite !seg_rem_out by (intros p [<-|[]]; unfold pos2; lia).
              rewrite !seg_set_out by (try exact L2; unfold pos2; lia).
              rewrite !circ_act_app. cbn [circ_act fold_left]. eapply seq_trans; [|apply OLD].
              apply circ_act_ext, seq_sym, HM.
        -- intros HF. split; [reflexivity|]. apply Forall_list_set; [exact HF|exact HS].
    + split; [auto|]. intros HF. exfalso.
      assert (Q1 : stdg g1) by (apply Forall_nth'; [exact HF|rewrite (i_len _ _ _ _ HI); exact Hp]).
      assert (Q2 : stdg g2) by (apply Forall_nth'; [exact HF|exact L2]).
      destruct (pair_step_total g1 g2 Q1 Q2) as [a Ha]. congruence.
Qed.

Lemma outer_inv n A : forall l gs rem, inv n A gs rem -> Forall (fun p => p < n) l ->
  let '(gs', rem', o) := simplify_outer l gs rem in
  inv n A gs' rem' /\ (Forall stdg gs -> o = None /\ Forall stdg gs').
Proof.
  induction l as [|pos1 l IH]; intros gs rem HI HL; cbn [simplify_outer]; [auto|].
  inversion HL; subst. destruct (nmem pos1 rem) eqn:E1; [apply IH; assumption|].
  assert (Lp : pos1 < length gs) by (rewrite (i_len _ _ _ _ HI); assumption).
  rewrite (vget_ok gs pos1 gate0 Lp).
  pose proof (inner_inv n A gs rem pos1 (length gs - S pos1) 0 HI) as HIn. rewrite Nat.add_0_r in HIn.
  destruct (simplify_inner _ _ _ _ _) as [[gs' rem'] o].
  destruct HIn as [HI' HT]; try assumption; [rewrite (i_len _ _ _ _ HI) in *; lia|constructor|].
  destruct o as [e|].
  - split; [exact HI'|]. intros HF. destruct (HT HF); discriminate.
  - pose proof (IH gs' rem' HI' ltac:(assumption)) as HO. destruct (simplify_outer l gs' rem') as [[gs'' rem''] o'].
    destruct HO as [HI'' HT'']. split; [exact HI''|]. intros HF. apply HT'', HT, HF.
Qed.

(** *** erasing the marked positions *)
Fixpoint live (k : nat) (gs : list gate) (rem : list nat) : list gate :=
  match gs with [] => [] | g :: r => if nmem k rem then live (S k) r rem else g :: live (S k) r rem end.
Lemma live_seg rem : forall gs k, live k gs rem = map (fun p => nth (p - k) gs gate0) (filter (fun p => negb (nmem p rem)) (seq k (length gs))).
Proof.
  induction gs as [|g gs IH]; intros k; [reflexivity|]. cbn [live length seq filter].
  assert (E : map (fun p => nth (p - k) (g :: gs) gate0) (filter (fun p => negb (nmem p rem)) (seq (S k) (length gs)))
     = live (S k) gs rem).
  { rewrite IH. apply map_ext_in. intros p Hp. apply filter_In in Hp. destruct Hp as [Hp _]. apply in_seq in Hp.
    replace (p - k) with (S (p - S k)) by lia. reflexivity. }
  destruct (nmem k rem); cbn [negb map]; rewrite E; [reflexivity|]. rewrite Nat.sub_diag. reflexivity.
Qed.
Lemma live0 gs rem : live 0 gs rem = seg gs rem 0 (length gs).
Proof. rewrite live_seg. unfold seg. apply map_ext. intros p. rewrite Nat.sub_0_r. reflexivity. Qed.

Lemma nmem_perm x l1 l2 : Permutation l1 l2 -> nmem x l1 = nmem x l2.
Proof.
  intros H. destruct (nmem x l1) eqn:E1, (nmem x l2) eqn:E2; try reflexivity;
  [apply nmem_In in E1; apply nmem_notIn in E2|apply nmem_notIn in E1; apply nmem_In in E2];
  exfalso; [apply E2; eapply Permutation_in; eassumption|apply E1; eapply Permutation_in; [apply Permutation_sym|]; eassumption].
Qed.
Lemma live_nil k gs : live k gs [] = gs.
Proof. revert k; induction gs as [|g gs IH]; intros k; [reflexivity|]. simpl. rewrite IH; reflexivity. Qed.
Lemma vec_erase_cons {A} (g : A) gs p : vec_erase (g :: gs) (S p) = g :: vec_erase gs p.
Proof. reflexivity. Qed.
Lemma live_erase p l : forall gs k, p < length gs -> (forall q, In q l -> q < k + p) ->
  live k (vec_erase gs p) l = live k gs (l ++ [k + p]).
Proof.
  induction p as [|p IH]; intros gs k HL Hl; (destruct gs as [|g gs]; [simpl in HL; lia|]).
  - unfold vec_erase. cbn [firstn skipn app live]. rewrite nmem_app. unfold nmem at 2. cbn [existsb]. rewrite Nat.add_0_r, Nat.eqb_refl, orb_true_r.
    transitivity gs.
    + assert (G : forall gs k', (forall q, In q l -> q < k') -> live k' gs l = gs).
      { clear. induction gs as [|h gs IH]; intros k' H; [reflexivity|]. simpl.
        assert (nmem k' l = false) as ->. { apply nmem_notIn. intros F. specialize (H _ F). lia. }
        rewrite IH; [reflexivity|]. intros q Hq; specialize (H q Hq); lia. }
      apply G. intros q Hq; specialize (Hl q Hq); lia.
    + symmetry. clear HL. assert (G : forall gs k', k < k' -> live k' gs (l ++ [k]) = gs).
      { clear - Hl. induction gs as [|h gs IH]; intros k' H; [reflexivity|]. simpl.
        assert (nmem k' (l ++ [k]) = false) as ->.
        { apply nmem_notIn. intros F. apply in_app_iff in F. destruct F as [F|[F|[]]]; [specialize (Hl _ F)|]; lia. }
        rewrite IH; [reflexivity|lia]. }
      apply G; lia.
  - rewrite vec_erase_cons. cbn [live]. rewrite nmem_app.
    assert (nmem k [k + S p] = false) as ->. { apply nmem_notIn. intros [F|[]]. lia. }
    rewrite orb_false_r. simpl in HL. specialize (IH gs (S k) ltac:(lia)). rewrite IH by (intros q Hq; specialize (Hl q Hq); lia).
    replace (S k + p) with (k + S p) by lia. reflexivity.
Qed.

Inductive desc : list nat -> Prop :=
| desc_nil : desc []
| desc_cons p l : (forall q, In q l -> q < p) -> desc l -> desc (p :: l).
Lemma erase_desc : forall l gs, desc l -> (forall p, In p l -> p < length gs) -> fold_left vec_erase l gs = live 0 gs l.
Proof.
  induction l as [|p l IH]; intros gs HD HR; [cbn [fold_left]; rewrite live_nil; reflexivity|].
  inversion HD as [|? ? Hq Hd]; subst. cbn [fold_left].
  assert (Hp : p < length gs) by (apply HR; left; reflexivity).
  assert (LE : length (vec_erase gs p) = pred (length gs)).
  { unfold vec_erase. rewrite app_length, firstn_length, skipn_length. lia. }
  rewrite IH; [|exact Hd|].
  - rewrite live_erase by (auto; intros q Hq'; apply Hq in Hq'; lia). rewrite Nat.add_0_l, !live0.
    unfold seg. f_equal. apply filter_ext. intros x. f_equal. apply nmem_perm. apply Permutation_sym, Permutation_cons_append.
  - intros q Hq'. apply Hq in Hq'. rewrite LE. lia.
Qed.

Lemma insert_nat_perm x l : Permutation (insert_nat x l) (x :: l).
Proof.
  induction l as [|y l IH]; simpl; [reflexivity|]. destruct (Nat.leb x y); [reflexivity|].
  rewrite IH. apply perm_swap.
Qed.
Lemma sort_nat_perm l : Permutation (sort_nat l) l.
Proof. induction l as [|x l IH]; simpl; [reflexivity|]. rewrite insert_nat_perm, IH. reflexivity. Qed.
Inductive asc : list nat -> Prop :=
| asc_nil : asc []
| asc_cons p l : (forall q, In q l -> p <= q) -> asc l -> asc (p :: l).
Lemma insert_nat_asc x l : asc l -> asc (insert_nat x l).
Proof.
  induction 1 as [|p l H HA IH]; simpl; [repeat constructor; intros q []|].
  destruct (Nat.leb_spec x p) as [L|L].
  - constructor; [|constructor; assumption]. intros q [<-|Hq]; [lia|]. specialize (H q Hq); lia.
  - constructor; [|exact IH]. intros q Hq. apply (Permutation_in _ (insert_nat_perm x l)) in Hq.
    destruct Hq as [<-|Hq]; [lia|apply H; exact Hq].
Qed.
Lemma sort_nat_asc l : asc (sort_nat l).
Proof. induction l; simpl; [constructor|apply insert_nat_asc; assumption]. Qed.
Lemma rev_asc_desc l : asc l -> NoDup l -> desc (rev l).
Proof.
  assert (A : forall l p, desc l -> (forall q, In q l -> p < q) -> desc (l ++ [p])).
  { clear. induction l as [|x l IH]; intros p H HP; simpl; [repeat constructor; intros q []|].
    inversion H; subst. constructor.
    - intros q Hq. apply in_app_iff in Hq. destruct Hq as [Hq|[<-|[]]]; [auto|apply HP; left; reflexivity].
    - apply IH; [assumption|]. intros q Hq; apply HP; right; exact Hq. }
  induction 1 as [|p l H HA IH]; intros HN; simpl; [constructor|]. inversion HN; subst.
  apply A; [apply IH; assumption|]. intros q Hq. rewrite <- in_rev in Hq. specialize (H q Hq).
  destruct (Nat.eq_dec p q); [subst; contradiction|lia].
Qed.

Lemma filter_length_le {A} f (l : list A) : length (filter f l) <= length l.
Proof. induction l as [|a l IH]; simpl; [lia|]. destruct (f a); simpl; lia. Qed.

Lemma simplify_core gs : Forall lib_shape gs ->
  let (gs', o) := simplify gs in
  (o = None -> (forall psi, circ_act gs' psi == circ_act gs psi) /\ length gs' <= length gs) /\
  (Forall stdg gs -> o = None).
Proof.
  intros HF. unfold simplify.
  assert (I0 : inv (length gs) (circ_act gs) gs []).
  { constructor; auto; [constructor|intros p []|]. intros psi. rewrite <- live0, live_nil. apply seq_refl. }
  assert (HL : Forall (fun p => p < length gs) (seq 0 (length gs))) by (apply Forall_forall; intros p Hp; apply in_seq in Hp; lia).
  pose proof (outer_inv _ _ _ _ _ I0 HL) as HO.
  destruct (simplify_outer (seq 0 (length gs)) gs []) as [[gs' rem] o]. destruct HO as [HI HT].
  destruct o as [e|].
  - split; [discriminate|]. intros HS. apply HT, HS.
  - split; [|auto]. intros _. 
    assert (PE : Permutation (rev (sort_nat rem)) rem) by (rewrite <- Permutation_rev; apply sort_nat_perm).
    rewrite erase_desc.
    + rewrite live0, (i_len _ _ _ _ HI).
      assert (ES : seg gs' (rev (sort_nat rem)) 0 (length gs) = seg gs' rem 0 (length gs)).
      { unfold seg. f_equal. apply filter_ext. intros x. f_equal. apply nmem_perm, PE. }
      rewrite ES. split; [apply (i_act _ _ _ _ HI)|].
      unfold seg. rewrite map_length. etransitivity; [apply filter_length_le|]. rewrite seq_length. lia.
    + apply rev_asc_desc; [apply sort_nat_asc|]. eapply Permutation_NoDup; [apply Permutation_sym, sort_nat_perm|apply HI].
    + intros p Hp. apply (Permutation_in _ PE) in Hp. rewrite (i_len _ _ _ _ HI). apply HI, Hp.
Qed.
