(** The loops of QITE: overlap matrix, right-hand side, selection, the operator A. *)
From Coq Require Import Reals String List Arith ZArith Bool Lia Lra.
From Verif Require Import CBase Result Bits Spec OpSpec GateModel ComputerModel SafeProofs LibProofs CleanProofs SimProofs CircuitModel PauliProofs OperatorModel PoolProofs MeasureModel MeasureProofs PyModel PyApply ExpSpec ExpProofs ExpCircuit FermiProofs EigModel GradModel GradSpec GradProofs QkModel QkProofs PropOperator PropMeasure PropGrad QpeProofs QpeDist SparseNorm QiteModel QiteNorm QiteLin.
From Verif Require TrotterProofs PropPy PropRes SymmProofs.
Import ListNotations.
Local Open Scope nat_scope.

Definition st_on (o : qite_options) (q : computer) : Prop := wf_computer q /\ nqubit q = qi_nqb o.
Lemma with_ok o q : st_on o q -> st_on o (computer_with o (coeff q)) /\ psi_of (computer_with o (coeff q)) = psi_of q.
Proof. intros (W & N). split; [|reflexivity]. split; [|reflexivity]. destruct W as (W1 & W2). split; [|reflexivity]. unfold nbasis in W1. rewrite N in W1. exact W1. Qed.
Lemma set_ok o q q' : st_on o q -> st_on o q' -> st_on o (set_coeff_vec q' (coeff q)) /\ psi_of (set_coeff_vec q' (coeff q)) = psi_of q /\ coeff (set_coeff_vec q' (coeff q)) = coeff q.
Proof.
  intros ((W1 & _) & N) ((W1' & W2') & N'). split; [|split; reflexivity]. split; [|exact N']. unfold wf_computer, set_coeff_vec, set_coeff, nbasis in *. destruct q'. cbn in *. subst. rewrite N in W1. split; [assumption|reflexivity].
Qed.
Lemma apply_string o q gs : st_on o q -> StringOn (qi_nqb o) gs -> exists q', apply_operator q [(C1, gs)] = Ok q' /\ st_on o q' /\ psi_of q' == circ_act gs (psi_of q).
Proof.
  intros (W & N) H. destruct (C18_apply_operator_partial q [(C1, gs)] W) as (q' & E & W' & N' & A).
  - constructor; [|constructor]. cbn [snd]. rewrite N. apply string_applicable, H.
  - exists q'. split; [exact E|]. split; [split; [exact W'|congruence]|]. eapply seq_trans; [exact A|]. intros I. unfold op_act. rewrite Csum_cons, Csum_nil. cbn [fst snd]. ring.
Qed.
Lemma apply_ham o q h : st_on o q -> Hamiltonian (qi_nqb o) h -> exists q', apply_operator q h = Ok q' /\ st_on o q' /\ psi_of q' == op_act h (psi_of q).
Proof.
  intros (W & N) H. destruct (C18_apply_operator_partial q h W) as (q' & E & W' & N' & A).
  - rewrite N. eapply Forall_impl; [|exact H]. intros t (Ht & _). apply string_applicable, Ht.
  - exists q'. split; [exact E|]. split; [split; [exact W'|congruence]|exact A].
Qed.
Lemma pool_get strs I : I < length strs -> py_get (pool_of strs) I = Ok (C1, [(C1, nth I strs [])]).
Proof. intros H. unfold py_get, pool_of. rewrite nth_error_map, (nth_error_nth' strs []) by exact H. reflexivity. Qed.
Lemma py_get_nth {A} (l : list A) i d : i < length l -> py_get l i = Ok (nth i l d).
Proof. intros H. unfold py_get. rewrite (nth_error_nth' l d) by exact H. reflexivity. Qed.

Section Overlap.
Variables (o : qite_options) (strs : list (list gate)) (qc : computer) (idx : list nat).
Hypotheses (HQ : st_on o qc) (HS : Forall (StringOn (qi_nqb o)) strs) (HI : Forall (fun I => I < length strs) idx).
Let n := qi_nqb o.
Let v (i : nat) : state := circ_act (nth (nth i idx 0) strs []) (psi_of qc).
Definition sym_entry (i j : nat) : C := if Nat.eqb i j then C1 else if Nat.ltb j i then inner n (v i) (v j) else inner n (v j) (v i).
Lemma str_at i : i < length idx -> StringOn n (nth (nth i idx 0) strs []) /\ nth i idx 0 < length strs.
Proof.
  intros H. rewrite Forall_forall in HS, HI. assert (L : nth i idx 0 < length strs) by (apply HI, nth_In, H). split; [apply HS, nth_In, L|exact L].
Qed.
Record ov_inv (m : nat) (st : mat * list (list C) * computer) : Prop := {
  ov_len : length (snd (fst st)) = m;
  ov_C : forall i, i < m -> exists q, nth_error (snd (fst st)) i = Some (coeff q) /\ st_on o q /\ psi_of q == v i;
  ov_q : st_on o (snd st) /\ psi_of (snd st) = psi_of qc;
  ov_S : forall i j, i < m -> j < m -> fst (fst st) i j = sym_entry i j }.
Lemma overlap_ok : exists Sm, overlap_loop o (pool_of strs) qc idx = Ok Sm /\ forall i j, i < length idx -> j < length idx -> Sm i j = sym_entry i j.
Proof.
  unfold overlap_loop. match goal with |- context [foreach (seq 0 (length idx)) ?bd ?s0] => set (body := bd); set (start := s0) end.
  enough (G : forall m, m <= length idx -> exists st, foreach (seq 0 m) body start = Ok st /\ ov_inv m st).
  { destruct (G (length idx) (le_n _)) as (st & E & [_ _ _ HE]). rewrite E. cbn [bind]. eexists. split; [reflexivity|]. exact HE. }
  induction m as [|m IH]; intros Hm.
  - eexists. split; [reflexivity|]. unfold start. split; cbn [fst snd]; [reflexivity|intros; lia| |intros; lia]. apply with_ok, HQ.
  - destruct IH as ([[M CI] q] & E & [I1 I2 (I3 & I4) I5]); [lia|]. cbn [fst snd] in *. rewrite seq_S, foreach_app', E. cbn [bind Nat.add foreach]. unfold body at 1. cbn [fst snd].
    destruct (str_at m ltac:(lia)) as (Hs & Hl). rewrite (py_get_nth idx m 0) by lia. cbn [bind]. rewrite pool_get by exact Hl. cbn [bind snd].
    destruct (apply_string o q _ I3 Hs) as (q1 & E1 & S1 & A1). rewrite E1. cbn [bind]. rewrite I4 in A1. fold (v m) in A1.
    set (CI' := CI ++ [coeff q1]).
    assert (HC : forall i, i < S m -> exists q, nth_error CI' i = Some (coeff q) /\ st_on o q /\ psi_of q == v i).
    { intros i Hi. unfold CI'. destruct (Nat.eq_dec i m) as [->|Ne].
      - exists q1. split; [|auto]. rewrite nth_error_app2 by lia. rewrite I1, Nat.sub_diag. reflexivity.
      - destruct (I2 i) as (q2 & E2 & R); [lia|]. exists q2. split; [|exact R]. rewrite nth_error_app1 by lia. exact E2. }
    match goal with |- context [foreach (seq 0 m) ?bd _] => set (inner_body := bd) end.
    assert (HL : forall k, k <= m -> exists M', foreach (seq 0 k) inner_body (mset M m m C1) = Ok M' /\
      forall a b, M' a b = if (Nat.eqb a m && Nat.ltb b k)%bool then inner n (v m) (v b) else if (Nat.eqb b m && Nat.ltb a k)%bool then inner n (v m) (v a) else mset M m m C1 a b).
    { induction k as [|k IHk]; intros Hk.
      - eexists. split; [reflexivity|]. intros a b. destruct (Nat.ltb_spec b 0), (Nat.ltb_spec a 0); try lia. rewrite !andb_false_r. reflexivity.
      - destruct IHk as (M' & EM & HM); [lia|]. rewrite seq_S, foreach_app', EM. cbn [bind Nat.add foreach]. unfold inner_body at 1.
        destruct (HC m ltac:(lia)) as (qa & Ea & (Wa & Na) & Aa). destruct (HC k ltac:(lia)) as (qb & Eb & (Wb & Nb) & Ab). unfold py_get. rewrite Ea, Eb. cbn [bind].
        rewrite (vdot_inner n qa qb) by assumption. cbn [bind]. rewrite (inner_ext n _ _ _ _ Aa Ab). eexists. split; [reflexivity|]. intros a b. unfold mset at 1 2. rewrite HM. unfold mset.
        destruct (Nat.eqb_spec a m), (Nat.eqb_spec b m), (Nat.eqb_spec a k), (Nat.eqb_spec b k), (Nat.ltb_spec b k), (Nat.ltb_spec a k), (Nat.ltb_spec b (S k)), (Nat.ltb_spec a (S k)); cbn [andb orb]; subst; try lia; try reflexivity. }
    destruct (HL m (le_n _)) as (M' & EM & HM). rewrite EM. cbn [bind]. eexists. split; [reflexivity|]. split; cbn [fst snd].
    + unfold CI'. rewrite app_length, I1. cbn. lia.
    + exact HC.
    + destruct (set_ok o qc q1 HQ S1) as (R1 & R2 & _). split; assumption.
    + intros i j Hi Hj. rewrite HM. unfold mset, sym_entry. destruct (Nat.eqb_spec i m), (Nat.eqb_spec j m), (Nat.ltb_spec j m), (Nat.ltb_spec i m), (Nat.eqb_spec i j), (Nat.ltb_spec j i); cbn [andb]; subst; try lia; try reflexivity; rewrite I5 by lia; unfold sym_entry; repeat (match goal with |- context[Nat.eqb ?x ?y] => destruct (Nat.eqb_spec x y) | |- context [Nat.ltb ?x ?y] => destruct (Nat.ltb_spec x y) end); subst; try lia; reflexivity.
Qed.
Lemma overlap_real Sm : inner n (psi_of qc) (psi_of qc) = C1 -> (forall i j, i < length idx -> j < length idx -> Sm i j = sym_entry i j) ->
  forall i j, i < length idx -> j < length idx -> mreal Sm i j = Re (inner n (v i) (v j)).
Proof.
  intros H1 HM i j Hi Hj. unfold mreal. rewrite HM by assumption. unfold sym_entry. destruct (Nat.eqb_spec i j) as [<-|Ne].
  - destruct (string_applicable n _ (proj1 (str_at i Hi))) as (G1 & _ & G3). unfold v. rewrite circ_preserves_inner by assumption. rewrite H1. reflexivity.
  - destruct (Nat.ltb_spec j i); [reflexivity|]. rewrite inner_conj. reflexivity.
Qed.
End Overlap.

(** build_b *)
Lemma build_b_neg o pool st : (1 - 2 * qi_db o * last (qs_Ekb st) 0 < 0)%R -> build_b o pool st = Ok None.
Proof. intros H. unfold build_b. cbv zeta. rewrite Rltb_true by exact H. reflexivity. Qed.
Lemma build_b_ok o strs st : st_on o (qs_qc st) -> Hamiltonian (qi_nqb o) (qi_ham o) -> Forall (StringOn (qi_nqb o)) strs -> (0 < 1 - 2 * qi_db o * last (qs_Ekb st) 0)%R ->
  build_b o (pool_of strs) st = Ok (Some (map (fun gs => Im (inner (qi_nqb o) (circ_act gs (psi_of (qs_qc st))) (op_act (qi_ham o) (psi_of (qs_qc st)))) / sqrt (1 - 2 * qi_db o * last (qs_Ekb st) 0))%R strs)).
Proof.
  intros HQ HH HS Hd. unfold build_b. cbv zeta. set (d := (1 - 2 * qi_db o * last (qs_Ekb st) 0)%R) in *. rewrite Rltb_false, Rltb_true by lra. set (psi := psi_of (qs_qc st)). set (n := qi_nqb o) in *.
  destruct (with_ok o _ HQ) as (HQ' & EP). destruct (apply_ham o _ _ HQ' HH) as (Hp & E1 & S1 & A1). rewrite E1. cbn [bind]. rewrite EP in A1. fold psi in A1.
  match goal with |- context [foreach _ ?bd _] => set (body := bd) end.
  enough (G : forall l out q, Forall (StringOn n) l -> st_on o q -> psi_of q = psi_of Hp -> exists q', foreach (pool_of l) body (out, q) = Ok ((out ++ map (fun gs => (Im (inner n (circ_act gs psi) (op_act (qi_ham o) psi)) / sqrt d)%R) l)%list, q')).
  { destruct (G strs [] Hp HS S1 eq_refl) as (q' & E). rewrite E. cbn [bind fst app]. reflexivity. }
  induction l as [|gs l IH]; intros out q HF Sq Pq; [exists q; cbn; now rewrite app_nil_r|]. inversion HF as [|? ? Hg Hl]; subst. cbn [pool_of map foreach]. fold (pool_of l). unfold body at 1. cbn [fst snd].
  destruct (apply_string o q gs Sq Hg) as (q1 & E2 & S2 & A2). rewrite E2. cbn [bind]. destruct HQ as (WQ & NQ). destruct S2 as (W2 & N2). rewrite (vdot_inner n (qs_qc st) q1) by assumption. cbn [bind]. fold psi.
  destruct (set_ok o Hp q1 S1 (conj W2 N2)) as (R1 & R2 & _). destruct (IH (out ++ [(Im (inner n (circ_act gs psi) (op_act (qi_ham o) psi)) / sqrt d)%R]) (set_coeff_vec q1 (coeff Hp)) Hl R1 R2) as (q' & E3). exists q'. rewrite <- app_assoc in E3. cbn [app] in E3. rewrite <- E3. do 4 f_equal.
  rewrite Pq in A2. assert (EI : inner n psi (psi_of q1) = inner n (circ_act gs psi) (op_act (qi_ham o) psi)).
  { destruct (string_on n gs Hg) as (H1 & H2 & H3). rewrite <- (RealOps.string_inner n gs H1 H2 H3 psi _). rewrite (inner_ext n _ _ _ _ (seq_refl psi) A2). apply inner_ext; [apply seq_refl|]. apply circ_act_ext, A1. }
  rewrite EI. f_equal. cbn. unfold Rdiv. ring.
Qed.
(** sparse_b *)
Lemma sparse_b_ok o b : let idx := filter (fun I => Rltb (qi_bthr o) (Rabs (nth I b 0%R))) (seq 0 (length b)) in sparse_b o b = (idx, map (fun I => nth I b 0%R) idx).
Proof.
  cbv zeta. unfold sparse_b.
  enough (G : forall l k a0 b0, (forall i, i < length l -> nth i l 0%R = nth (k + i) b 0%R) ->
    fold_left (fun a ib => if Rltb (qi_bthr o) (Rabs (snd ib)) then ((fst a ++ [fst ib])%list, (snd a ++ [snd ib])%list) else a) (combine (seq k (length l)) l) (a0, b0) =
    (a0 ++ filter (fun I => Rltb (qi_bthr o) (Rabs (nth I b 0%R))) (seq k (length l)), b0 ++ map (fun I => nth I b 0%R) (filter (fun I => Rltb (qi_bthr o) (Rabs (nth I b 0%R))) (seq k (length l))))%list) by (apply (G b 0 [] []); reflexivity).
  induction l as [|x l IH]; intros k a0 b0 H; [cbn; now rewrite !app_nil_r|]. cbn [length seq combine fold_left filter fst snd]. pose proof (H 0 ltac:(cbn; lia)) as H0. cbn [nth] in H0. rewrite Nat.add_0_r in H0. rewrite <- H0.
  assert (HT : forall i, i < length l -> nth i l 0%R = nth (S k + i) b 0%R) by (intros i Hi; specialize (H (S i) ltac:(cbn; lia)); cbn [nth] in H; rewrite H; f_equal; lia).
  destruct (Rltb (qi_bthr o) (Rabs x)); [|apply (IH _ _ _ HT)]. cbn [fst snd]. rewrite (IH (S k) _ _ HT). rewrite <- !app_assoc. cbn [app map]. rewrite H0. reflexivity.
Qed.
(** build_A: the angles and strings *)
Definition kept (o : qite_options) (strs : list (list gate)) (idx : list nat) (x : list R) : list (R * list gate) :=
  map (fun i => (- (qi_db o * nth i x 0%R), nth (nth i idx 0%nat) strs []))%R (filter (fun i => Rltb (qi_xthr o) (Rabs (nth i x 0%R))) (seq 0 (length idx))).
Lemma build_A_ok o strs idx x : length x = length idx -> Forall (fun I => I < length strs) idx ->
  build_A o (pool_of strs) idx x = Ok (TrotterProofs.opened (kept o strs idx x), length (kept o strs idx x)).
Proof.
  intros LX HI. unfold build_A, kept. match goal with |- context [foreach _ ?bd _] => set (body := bd) end.
  enough (G : forall l k A c, k + length l = length idx -> (forall i, i < length l -> nth i l 0 = nth (k + i) idx 0) ->
    foreach (combine (seq k (length l)) l) body (A, c) = Ok ((A ++ TrotterProofs.opened (map (fun i => (- (qi_db o * nth i x 0), nth (nth i idx 0%nat) strs []))%R (filter (fun i => Rltb (qi_xthr o) (Rabs (nth i x 0%R))) (seq k (length l)))))%list,
       c + length (map (fun i => (- (qi_db o * nth i x 0), nth (nth i idx 0%nat) strs []))%R (filter (fun i => Rltb (qi_xthr o) (Rabs (nth i x 0%R))) (seq k (length l)))))) by (apply (G idx 0 [] 0); reflexivity).
  induction l as [|I l IH]; intros k A c Hk H; [cbn; rewrite app_nil_r, Nat.add_0_r; reflexivity|]. cbn [length] in Hk. cbn [length seq combine foreach filter]. unfold body at 1. cbn [fst snd]. rewrite (py_get_nth x k 0%R) by lia. cbn [bind].
  pose proof (H 0 ltac:(cbn; lia)) as H0. cbn [nth] in H0. rewrite Nat.add_0_r in H0.
  assert (HT : forall i, i < length l -> nth i l 0 = nth (S k + i) idx 0) by (intros i Hi; specialize (H (S i) ltac:(cbn; lia)); cbn [nth] in H; rewrite H; f_equal; lia).
  destruct (Rltb (qi_xthr o) (Rabs (nth k x 0%R))); [|cbn [bind]; apply IH; [lia|exact HT]].
  rewrite pool_get by (rewrite Forall_forall in HI; rewrite H0; apply HI, nth_In; lia). cbn [bind snd]. unfold py_get at 1. cbn [nth_error bind snd]. rewrite IH by (lia || exact HT). cbn [map length TrotterProofs.opened fst snd]. rewrite <- app_assoc. cbn [app]. rewrite H0. do 2 f_equal; [|lia]. do 3 f_equal. apply C_ext; cbn; ring.
Qed.
Lemma kept_strings o strs idx x n : Forall (StringOn n) strs -> Forall (fun I => I < length strs) idx -> Forall (fun u => StringOn n (snd u)) (kept o strs idx x).
Proof.
  intros HS HI. unfold kept. apply Forall_forall. intros u Hu. apply in_map_iff in Hu. destruct Hu as (i & <- & Hi). apply filter_In in Hi. destruct Hi as (Hi & _). apply in_seq in Hi. cbn [snd]. rewrite Forall_forall in HS, HI. apply HS, nth_In, HI, nth_In. lia.
Qed.
(** the Trotter circuit of A *)
Definition repeated (L : list (R * list gate)) (r : nat) : list (R * list gate) := concat (repeat (map (fun u => (fst u * / INR r, snd u))%R L) r).
Lemma repeated_strings n L r : Forall (fun u => StringOn n (snd u)) L -> Forall (fun u => StringOn n (snd u)) (repeated L r).
Proof.
  intros H. apply Forall_forall. intros u Hu. unfold repeated in Hu. apply in_concat in Hu. destruct Hu as (b & Hb & Hu). apply repeat_spec in Hb. subst b. apply in_map_iff in Hu. destruct Hu as (w & <- & Hw). rewrite Forall_forall in H. apply (H w Hw).
Qed.
Lemma repeated_sum (f : list gate -> R) (g : R -> R -> R) L r : 1 <= r -> (forall a k y, (0 < k)%R -> g a (y * k) = (k * g a y))%R ->
  Rsum (fun u => g (f (snd u)) (fst u)) (repeated L r) = Rsum (fun u => g (f (snd u)) (fst u)) L.
Proof.
  intros Hr Hg. unfold repeated. assert (HR : (0 < INR r)%R) by (apply lt_0_INR; lia). set (L' := map _ L).
  assert (E : Rsum (fun u => g (f (snd u)) (fst u)) L' = (/ INR r * Rsum (fun u => g (f (snd u)) (fst u)) L)%R).
  { unfold L'. clear L'. induction L as [|u L IH]; [unfold Rsum; cbn; ring|]. cbn [map]. rewrite !Rsum_cons, IH. cbn [fst snd]. rewrite Hg by (apply Rinv_0_lt_compat, HR). ring. }
  assert (G : forall k, Rsum (fun u => g (f (snd u)) (fst u)) (concat (repeat L' k)) = (INR k * Rsum (fun u => g (f (snd u)) (fst u)) L')%R).
  { induction k as [|k IH]; [unfold Rsum; cbn; ring|]. cbn [repeat concat]. rewrite Rsum_app, IH, S_INR. ring. }
  rewrite G, E. field. lra.
Qed.
Lemma repeated_angle L r : 1 <= r -> total_angle (repeated L r) = total_angle L.
Proof. intros Hr. apply (repeated_sum (fun _ => 0%R) (fun _ y => Rabs y) L r Hr). intros _ k y Hk. rewrite Rabs_mult, (Rabs_right k) by lra. ring. Qed.
Lemma repeated_linear f L r : 1 <= r -> Rsum (fun u => fst u * f (snd u))%R (repeated L r) = Rsum (fun u => fst u * f (snd u))%R L.
Proof. intros Hr. apply (repeated_sum f (fun a y => y * a)%R L r Hr). intros a k y _. ring. Qed.
Lemma trotterize_A n L r : Forall (fun u => StringOn n (snd u)) L -> 1 <= r -> exists gs ph,
  trotterize (TrotterProofs.opened L) C1 r 1 = Ok (gs, ph) /\ applicable n gs /\ (forall psi, sscale ph (circ_act gs psi) == TrotterProofs.eulers (repeated L r) psi).
Proof.
  intros HL Hr. unfold trotterize. rewrite TrotterProofs.trotter_scaled by exact Hr.
  assert (E : TrotterProofs.scaled C1 r (TrotterProofs.opened L) = TrotterProofs.opened (repeated L r)).
  { unfold TrotterProofs.scaled, repeated, TrotterProofs.opened. rewrite concat_repeat_map, !map_map. do 2 f_equal. apply map_ext. intros u. cbn [fst snd]. f_equal. apply C_ext; cbn; ring. }
  rewrite E. destruct (TrotterProofs.plain_terms (repeated L r)) with (g0 := @nil gate) (p0 := C1) as (gs & ph & EF & L' & A & F).
  { eapply Forall_impl; [|exact (repeated_strings n L r HL)]. intros t Ht. exact (string_term n _ Ht). }
  unfold exp_terms. rewrite EF. exists gs, (C1 * ph)%C. split; [reflexivity|]. split.
  - apply F. eapply Forall_impl; [|exact (repeated_strings n L r HL)]. intros t (_ & Ht). rewrite Forall_forall in Ht. exact Ht.
  - intros psi. eapply seq_trans; [|apply A]. intros I. unfold sscale. ring.
Qed.
