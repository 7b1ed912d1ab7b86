(** C47: the second operator of add_equiv_ops and the order of operators with equal gradients. *)
From Coq Require Import Reals String List Arith NArith ZArith Bool Lia Lra Permutation Sorted.
From Verif Require Import CBase Result SelectModel SelectSpec SelectProofs PropAdapt.
Import ListNotations.
Local Open Scope R_scope.

(** ---- add_equiv_ops ---- *)
(** what the second operator of the scan is: the largest gradient among those before the largest *)
Definition second_inv (pre : list R) (s : scan_t) : Prop :=
  match snd (fst s) with
  | None => snd s = None
  | Some m => if List.existsb (fun x => if Req_EM_T x 0 then false else true) (firstn (N.to_nat m) pre)
      then exists j, Largest (firstn (N.to_nat m) pre) j /\ snd s = Some (nth (N.to_nat j) pre 0, j)
      else snd s = None
  end.
Lemma exists_nonzero l : List.existsb (fun x => if Req_EM_T x 0 then false else true) l = false <-> Forall (eq 0) l.
Proof.
  induction l as [|x l IH]; cbn; [split; [constructor|reflexivity]|]. destruct (Req_EM_T x 0) as [->|n]; cbn.
  - rewrite IH. split; [intros H; constructor; auto|intros H; inversion H; assumption].
  - split; [discriminate|]. intros H. inversion H; subst. contradiction.
Qed.
Lemma foreach_snoc {A S} (f : A -> S -> res S) l x s : foreach (l ++ [x]) f s = (do t <- foreach l f s; f x t).
Proof. revert s. induction l as [|a l IH]; intros s; cbn [app foreach bind]; [destruct (f x s); reflexivity|]. destruct (f a s); cbn [bind]; [apply IH|reflexivity]. Qed.
Lemma combine_app_eq {A B} (a a' : list A) (b b' : list B) : length b = length a -> combine (a ++ a') (b ++ b') = (combine a b ++ combine a' b')%list.
Proof. revert b. induction a as [|x a IH]; intros [|y b] H; try discriminate; [reflexivity|]. cbn. f_equal. apply IH. injection H as H. exact H. Qed.
Lemma enumerate_snoc l x : enumerate (l ++ [x]) = (enumerate l ++ [(N.of_nat (length l), x)])%list.
Proof.
  unfold enumerate. rewrite app_length. cbn [length]. rewrite Nat.add_1_r, seq_S, map_app, Nat.add_0_l. cbn [map]. rewrite combine_app_eq by (rewrite map_length, seq_length; reflexivity). reflexivity.
Qed.

Lemma largest_unique g m k : Largest g m -> Largest g k -> m = k.
Proof.
  intros (i & -> & Hi & Mi & Li) (j & -> & Hj & Mj & Lj). f_equal. destruct (Nat.lt_trichotomy i j) as [L|[L|L]]; [|exact L|].
  - specialize (Lj i L). specialize (Mi j Hj). lra.
  - specialize (Li j L). specialize (Mj i Hi). lra.
Qed.
Lemma scan_second g : exists s, foreach (enumerate g) scan_grad (0, None, None) = Ok s /\ scan_inv g s /\ second_inv g s.
Proof.
  induction g as [|x g IH] using rev_ind.
  - exists (0, None, None). repeat split. constructor.
  - destruct IH as (s & E & I1 & I2). destruct (scan_spec (g ++ [x]) [] (0, None, None)) as (s' & E' & I'); [repeat split; constructor|]. cbn [app] in I'. change (length (@nil R)) with 0%nat in E'. fold (enumerate (g ++ [x])) in E'.
    exists s'. split; [exact E'|]. split; [exact I'|]. rewrite enumerate_snoc, foreach_snoc, E in E'. cbn [bind] in E'. clear E. destruct s as ((l, im), sec). unfold scan_grad in E'. cbn [fst snd] in *. unfold second_inv in *. unfold scan_inv in I1. cbn [fst snd] in *.
    destruct (Rltb_spec (Rabs l) (Rabs x)) as [L|L].
    + assert (FN : firstn (N.to_nat (N.of_nat (length g))) (g ++ [x]) = g) by (rewrite Nat2N.id, firstn_app, firstn_all, Nat.sub_diag; cbn; apply app_nil_r).
      destruct im as [m|].
      * destruct I1 as (HL & HE & H0). destruct (Rltb_spec 0 (Rabs l)) as [_|Q]; [|pose proof (Rabs_pos_lt l H0); lra]. cbn [bind] in E'. injection E' as <-. cbn [fst snd]. rewrite FN.
        destruct (existsb _ g) eqn:EX.
        -- exists m. split; [exact HL|]. rewrite HE. destruct HL as (i & -> & Hi & _). rewrite Nat2N.id. rewrite app_nth1 by exact Hi. reflexivity.
        -- exfalso. apply exists_nonzero in EX. destruct HL as (i & -> & Hi & _). rewrite Nat2N.id in HE. rewrite Forall_forall in EX. apply H0. rewrite HE. symmetry. apply EX, nth_In, Hi.
      * destruct I1 as (-> & -> & HF). destruct (Rltb_spec 0 (Rabs 0)) as [Q|_]; [rewrite Rabs_R0 in Q; lra|]. cbn [bind] in E'. injection E' as <-. cbn [fst snd]. rewrite FN. apply exists_nonzero in HF. rewrite HF. reflexivity.
    + injection E' as <-. cbn [fst snd]. destruct im as [m|]; [|exact I2]. destruct I1 as (HL & HE & H0). destruct HL as (i & -> & Hi & _). assert (FN : firstn (N.to_nat (N.of_nat i)) (g ++ [x]) = firstn (N.to_nat (N.of_nat i)) g) by (rewrite Nat2N.id, firstn_app; replace (i - length g)%nat with 0%nat by lia; cbn; apply app_nil_r).
      rewrite FN. destruct (existsb _ _); [|exact I2]. destruct I2 as (j & HJ & ->). exists j. split; [exact HJ|]. destruct HJ as (j' & -> & Hj & _). rewrite Nat2N.id in *. rewrite firstn_length in Hj. rewrite app_nth1 by lia. reflexivity.
Qed.
(** add_equiv_ops: next to the operator m of the largest gradient, the operator added is the one with
    the largest gradient among those before m in the pool, if it is within 1e-5 of the largest; when
    all gradients before m are zero the method raises *)
Theorem C47_equivalent_operators_partial : forall o g s m, cumulative o = false -> add_equiv o = true -> Rabs (avqe_thresh o) <= norm g ->
  Largest g m -> nth (N.to_nat m) g 0 <> 0 ->
  (Forall (eq 0) (firstn (N.to_nat m) g) -> update_ansatz o g s = Throw (PyError "UnboundLocalError")) /\ forall j, ~ Forall (eq 0) (firstn (N.to_nat m) g) -> Largest (firstn (N.to_nat m) g) j ->
    exists s' new, update_ansatz o g s = Ok s' /\ a_conv s' = false /\ a_tops s' = (a_tops s ++ new)%list /\ a_tamps s' = (a_tamps s ++ repeat 0 (length new))%list /\ (Rabs (nth (N.to_nat m) g 0) < Rabs (nth (N.to_nat j) g 0) + / 10 ^ 5 -> new = [m; j]) /\ (Rabs (nth (N.to_nat j) g 0) + / 10 ^ 5 <= Rabs (nth (N.to_nat m) g 0) -> new = [m]).
Proof.
  intros o g s m HC HQ HT HL H0. destruct (scan_second g) as (sc & E & I1 & I2). unfold update_ansatz. rewrite E. cbn [bind]. unfold adapt_conv. rewrite sum_sq_total. fold (norm g). rewrite (Rabs_right (norm g)) by (apply Rle_ge, norm_nonneg).
  destruct (Rltb_spec (norm g) (Rabs (avqe_thresh o))) as [Q|_]; [lra|]. cbn [bind fst snd]. rewrite HC, HQ. destruct sc as ((l, im), sec). unfold scan_inv in I1. unfold second_inv in I2. cbn [fst snd] in *.
  destruct im as [k|].
  2: { exfalso. destruct I1 as (_ & _ & HF). apply H0. destruct HL as (i & -> & Hi & _). rewrite Nat2N.id. rewrite Forall_forall in HF. symmetry. apply HF, nth_In, Hi. }
  destruct I1 as (HK & -> & _). pose proof (largest_unique _ _ _ HK HL) as ->. destruct (existsb _ (firstn (N.to_nat m) g)) eqn:EX.
  - destruct I2 as (j' & HJ & ->). split; [intros HF; apply exists_nonzero in HF; congruence|]. intros j _ HJ'. pose proof (largest_unique _ _ _ HJ HJ') as ->.
    assert (T5 : 1e-5 = / 10 ^ 5) by lra. destruct (Rltb_spec (Rabs (nth (N.to_nat m) g 0) - Rabs (nth (N.to_nat j) g 0)) 1e-5) as [L|L]; cbn [bind].
    + eexists. exists [m; j]. split; [reflexivity|]. cbn [a_conv a_tops a_tamps fst snd length repeat]. rewrite <- !app_assoc. repeat split. intros B. exfalso. lra.
    + eexists. exists [m]. split; [reflexivity|]. cbn [a_conv a_tops a_tamps fst snd length repeat]. repeat split. intros B. exfalso. lra.
  - rewrite I2. split; [intros _; reflexivity|]. intros j HN _. exfalso. apply HN. apply exists_nonzero. exact EX.
Qed.
Print Assumptions C47_equivalent_operators_partial.
(** an operator of the same gradient after the largest one is not added *)
Theorem C47_later_equivalent_refuted : exists o g s s', cumulative o = false /\ add_equiv o = true /\ Rabs (nth 1 g 0) = Rabs (nth 2 g 0) /\ Largest g 1 /\ update_ansatz o g s = Ok s' /\ a_conv s' = false /\ a_tops s' = (a_tops s ++ [1%N])%list.
Proof.
  set (g := [1; 2; 2]). set (o := mkAO 0 5 false true false). assert (HL : Largest g 1).
  { exists 1%nat. repeat split; [cbn; lia| |]; intros [|[|[|j]]] Hj; cbn [length nth g] in *; try lia; rewrite ?(Rabs_right 1), ?(Rabs_right 2) by lra; lra. }
  assert (HJ : Largest (firstn (N.to_nat 1) g) 0).
  { change (firstn (N.to_nat 1) g) with [1]. exists 0%nat. split; [reflexivity|]. split; [cbn; lia|]. split; intros [|j] Hj; cbn [length nth] in *; try lia. apply Rle_refl. }
  destruct (C47_equivalent_operators_partial o g adapt_init 1 eq_refl eq_refl) as (_ & H).
  - cbn. rewrite Rabs_R0. apply norm_nonneg.
  - exact HL.
  - change (2 <> 0). intros Q. lra.
  - destruct (H 0%N) as (s' & new & E & C & T & _ & _ & N).
    + cbn. intros Q. inversion Q; subst. lra.
    + exact HJ.
    + exists o, g, adapt_init, s'. split; [reflexivity|]. split; [reflexivity|]. split; [reflexivity|]. split; [exact HL|]. split; [exact E|]. split; [exact C|]. rewrite T, N; [reflexivity|]. change (Rabs 1 + / 10 ^ 5 <= Rabs 2). rewrite (Rabs_right 1), (Rabs_right 2) by lra. lra.
Qed.
Print Assumptions C47_later_equivalent_refuted.

(** ---- the order in cumulative mode ---- *)
Definition lex (p q : R * N) : Prop := fst p < fst q \/ fst p = fst q /\ (snd p < snd q)%N.
Lemma tuple_ltb_lex a b : tuple_ltb a b = true <-> lex a b.
Proof.
  unfold tuple_ltb, lex. destruct (Rltb_spec (fst a) (fst b)) as [L|L]; cbn [orb]; [split; [now left|reflexivity]|]. destruct (Rltb_spec (fst b) (fst a)) as [K|K]; cbn [negb andb].
  - split; [discriminate|]. intros [Q|(Q & _)]; lra.
  - rewrite N.ltb_lt. split; [intros Q; right; split; [lra|exact Q]|]. intros [Q|(_ & Q)]; [lra|exact Q].
Qed.
Lemma lex_trans a b c : lex a b -> lex b c -> lex a c.
Proof. unfold lex. intros [A|(A & A')] [B|(B & B')]; [left; lra|left; lra|left; lra|right; split; [lra|lia]]. Qed.
Lemma lex_total a b : snd a <> snd b -> tuple_ltb a b = false -> lex b a.
Proof.
  intros HN H. unfold lex. destruct (Rtotal_order (fst a) (fst b)) as [L|[L|L]].
  - exfalso. rewrite (proj2 (tuple_ltb_lex a b)) in H; [discriminate|now left].
  - destruct (N.lt_trichotomy (snd a) (snd b)) as [K|[K|K]]; [|contradiction|right; split; [lra|exact K]]. exfalso. rewrite (proj2 (tuple_ltb_lex a b)) in H; [discriminate|now right].
  - now left.
Qed.
Lemma ins_lex x l : StronglySorted lex l -> ~ In (snd x) (map snd l) -> StronglySorted lex (tuple_ins x l).
Proof.
  induction 1 as [|y l HS IH HF]; intros HN; cbn [tuple_ins]; [repeat constructor|]. cbn [map In] in HN. destruct (tuple_ltb y x) eqn:E.
  - apply tuple_ltb_lex in E. constructor; [apply IH; tauto|]. eapply Permutation_Forall; [symmetry; apply tuple_ins_perm|]. constructor; [exact E|exact HF].
  - apply lex_total in E; [|tauto]. constructor; [now constructor|]. constructor; [exact E|]. eapply Forall_impl; [|exact HF]. intros a. now apply lex_trans.
Qed.
Lemma sort_lex l : NoDup (map snd l) -> StronglySorted lex (tuple_sort l).
Proof.
  induction l as [|x l IH]; intros H; [constructor|]. cbn [map] in H. inversion H as [|? ? H1 H2]; subst. unfold tuple_sort in *. cbn [fold_right]. apply ins_lex; [exact (IH H2)|].
  intros Q. apply H1. eapply Permutation_in; [|exact Q]. apply Permutation_map. apply tuple_sort_perm.
Qed.
Lemma runsel_lex T l : forall acc, StronglySorted lex l -> StronglySorted lex (runsel T acc l).
Proof.
  assert (IN : forall l acc x, In x (runsel T acc l) -> In x l).
  { clear l. induction l as [|y l IH]; intros acc x H; [exact H|]. cbn [runsel] in H. destruct (Rltb T (acc + fst y)); [destruct H as [->|H]; [now left|right; exact (IH _ _ H)]|right; exact (IH _ _ H)]. }
  induction l as [|x l IH]; intros acc H; cbn [runsel]; [constructor|]. inversion H as [|? ? H1 H2]; subst. destruct (Rltb T (acc + fst x)); [|exact (IH _ H1)]. constructor; [exact (IH _ H1)|]. rewrite Forall_forall in *. intros y Hy. apply H2. exact (IN _ _ _ Hy).
Qed.

Lemma cumulative_list T grads tamps : snd (fst (adapt_cumulative T grads tamps)) = rev (map snd (runsel (T * T) 0 (tuple_sort (map (fun mg => (snd mg * snd mg, fst mg)) (enumerate grads))))).
Proof.
  unfold adapt_cumulative. set (srt := tuple_sort _).
  assert (GF : forall l acc sel t, snd (fst (fold_left (fun s g => let total := fst (fst s) + fst g in if Rltb (T * T) total then (total, snd g :: snd (fst s), (snd s ++ [0])%list) else (total, snd (fst s), snd s)) l (acc, sel, t))) =
     (rev (map snd (runsel (T * T) acc l)) ++ sel)%list).
  { induction l as [|x l IH]; intros acc sel t; cbn [fold_left runsel]; [reflexivity|]. cbn [fst snd]. destruct (Rltb (T * T) (acc + fst x)); rewrite IH; cbn [map rev]; rewrite <- ?app_assoc; reflexivity. }
  rewrite GF. apply app_nil_r.
Qed.
Lemma enumerate_weight grads x : In x (map (fun mg : N * R => (snd mg * snd mg, fst mg)) (enumerate grads)) -> fst x = nth (N.to_nat (snd x)) grads 0 * nth (N.to_nat (snd x)) grads 0.
Proof.
  induction grads as [|g grads IH] using rev_ind; intros H; [destruct H|]. rewrite enumerate_snoc, map_app in H. apply in_app_iff in H. destruct H as [H|[<-|[]]].
  - pose proof (IH H) as E. rewrite E. apply in_map_iff in H. destruct H as ((i & y) & <- & H). cbn [fst snd] in *. unfold enumerate in H. apply in_combine_l in H. apply in_map_iff in H. destruct H as (k & <- & H). apply in_seq in H. rewrite Nat2N.id. rewrite app_nth1 by lia. reflexivity.
  - cbn [fst snd]. rewrite Nat2N.id, app_nth2, Nat.sub_diag by lia. reflexivity.
Qed.
(** the operators added in one cumulative step stand in descending order of |g|, and of two operators
    with the same |g| the later one of the pool comes first *)
Theorem C47_cumulative_order : forall o g s s', cumulative o = true -> update_ansatz o g s = Ok s' -> a_conv s' = false ->
  exists new, a_tops s' = (a_tops s ++ new)%list /\ StronglySorted (fun a b : N => Rabs (nth (N.to_nat b) g 0) < Rabs (nth (N.to_nat a) g 0) \/ Rabs (nth (N.to_nat b) g 0) = Rabs (nth (N.to_nat a) g 0) /\ (b < a)%N) new.
Proof.
  intros o g s s' HC E EC. unfold update_ansatz in E. destruct (foreach _ _ _) as [sc|]; [|discriminate]. cbn [bind] in E. destruct (adapt_conv _ _ _) as [cv|]; [|discriminate]. cbn [bind] in E. destruct (fst cv) eqn:F; [injection E as <-; cbn in EC; congruence|].
  rewrite HC in E. cbn [bind fst snd] in E. injection E as <-. cbn [a_tops]. eexists. split; [reflexivity|]. rewrite cumulative_list. set (l := map _ (enumerate g)).
  assert (ND : NoDup (map snd l)).
  { unfold l. rewrite map_map. cbn [snd]. unfold enumerate. replace (map (fun x : N * R => fst x) (combine (map N.of_nat (seq 0 (length g))) g)) with (map N.of_nat (seq 0 (length g))).
    - apply FinFun.Injective_map_NoDup; [intros a b Q; now apply Nat2N.inj|apply seq_NoDup].
    - generalize (seq 0 (length g)) (seq_length (length g) 0). clear. intros q. revert g. induction q as [|k q IH]; intros [|y g] H; try discriminate; [reflexivity|]. cbn. f_equal. apply IH. injection H as H. exact H. }
  pose proof (runsel_lex (avqe_thresh o * avqe_thresh o) _ 0 (sort_lex l ND)) as HS. set (sel := runsel _ _ _) in *.
  assert (HW : Forall (fun x => fst x = nth (N.to_nat (snd x)) g 0 * nth (N.to_nat (snd x)) g 0) sel).
  { apply Forall_forall. intros x Hx. apply enumerate_weight. fold l. assert (IN : forall l acc x, In x (runsel (avqe_thresh o * avqe_thresh o) acc l) -> In x l) by (clear; induction l as [|y l IH]; intros acc x H; [exact H|]; cbn [runsel] in H; destruct (Rltb _ (acc + fst y)); [destruct H as [->|H]; [now left|right; exact (IH _ _ H)]|right; exact (IH _ _ H)]).
    eapply Permutation_in; [apply tuple_sort_perm|]. exact (IN _ _ _ Hx). }
  clearbody sel. clear - HS HW. set (P := fun a b : N => Rabs (nth (N.to_nat b) g 0) < Rabs (nth (N.to_nat a) g 0) \/ Rabs (nth (N.to_nat b) g 0) = Rabs (nth (N.to_nat a) g 0) /\ (b < a)%N).
  assert (SQ : forall x y, x * x < y * y -> Rabs x < Rabs y) by (intros x y Q; apply Rsqr_lt_abs_0; exact Q).
  assert (SE : forall x y, x * x = y * y -> Rabs x = Rabs y) by (intros x y Q; apply Rsqr_eq_abs_0; exact Q).
  induction HS as [|x l HS IH HF]; [constructor|]. inversion HW as [|? ? W1 W2]; subst. specialize (IH W2). cbn [map rev].
  assert (L : Forall (fun b => P b (snd x)) (rev (map snd l))).
  { apply Forall_rev. rewrite Forall_map. rewrite Forall_forall in *. intros y Hy. specialize (HF y Hy). specialize (W2 y Hy). unfold P. destruct HF as [Q|(Q & Q')]; rewrite W1, W2 in Q; [left; now apply SQ|right; split; [now apply SE|exact Q']]. }
  clear - IH L. induction IH as [|b r HS2 IH2 HF2]; cbn [app]; [repeat constructor|]. inversion L; subst. constructor; [apply IH2; assumption|]. apply Forall_app. split; [exact HF2|]. constructor; [assumption|constructor].
Qed.
Print Assumptions C47_cumulative_order.
Example C47_order_nonvacuous : exists s', update_ansatz (mkAO 0 5 true false false) [1; 2; 2] adapt_init = Ok s' /\ a_conv s' = false /\ a_tops s' = [2; 1; 0]%N.
Proof.
  pose proof (update_ok (mkAO 0 5 true false false) [1; 2; 2] adapt_init (or_introl eq_refl)) as H. cbn [avqe_thresh cumulative] in H. rewrite Rabs_R0 in H. destruct (Rltb_spec (norm [1; 2; 2]) 0) as [Q|_]; [pose proof (norm_nonneg [1; 2; 2]); lra|].
  destruct H as (H & _). destruct (H (or_introl eq_refl)) as (s' & new & E & EC & (HA & _) & ET & _). exists s'. split; [exact E|]. split; [exact EC|].
  unfold update_ansatz in E. destruct (foreach _ _ _) as [sc|]; [|discriminate]. cbn [bind] in E. destruct (adapt_conv _ _ _) as [cv|]; [|discriminate]. cbn [bind] in E. destruct (fst cv) eqn:F; [injection E as <-; cbn in EC; congruence|].
  cbn [cumulative bind fst snd avqe_thresh] in E. injection E as <-. cbn [a_tops adapt_init app]. rewrite cumulative_list. unfold enumerate. cbn [length seq map combine fst snd N.of_nat]. unfold tuple_sort. cbn [fold_right tuple_ins].
  assert (T : forall a b, lex a b -> tuple_ltb a b = true) by (intros; now apply tuple_ltb_lex). assert (F' : forall a b, ~ lex a b -> tuple_ltb a b = false) by (intros a b HN; destruct (tuple_ltb a b) eqn:Q; [apply tuple_ltb_lex in Q; contradiction|reflexivity]).
  rewrite (F' (2 * 2, _) (2 * 2, _)) by (unfold lex; cbn; intros [L|(_ & L)]; [lra|lia]). cbn [tuple_ins]. rewrite (F' (2 * 2, _) (1 * 1, _)) by (unfold lex; cbn; intros [L|(L & _)]; lra).
  cbn [runsel fst snd]. repeat (match goal with |- context [Rltb ?a ?b] => destruct (Rltb_spec a b); [|lra] end). reflexivity.
Qed.
