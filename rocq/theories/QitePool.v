(** The expansion pools of QITE. *)
From Coq Require Import Reals String List Arith ZArith Bool Lia Lra Sorted Permutation.
From Verif Require Import CBase Result Bits Spec OpSpec GateModel ComputerModel SafeProofs LibProofs CleanProofs SimProofs CircuitModel CircuitProofs PauliProofs OperatorModel OperatorProofs OrderProofs PoolProofs SQModel SQProofs SQPoolModel SQPoolOps GsdModel JWProofs PyModel AnsatzModel AnsatzSpec AnsatzJW AnsatzProofs PropOperator PropMeasure QiteModel.
Import ListNotations.
Local Open Scope nat_scope.

Lemma simplify_false_true o k : pauli_op o -> op_simplify false o = Ok k -> op_simplify true k = op_simplify true o.
Proof.
  intros H E. pose proof (simplify_sorted false o k H E) as HS. destruct (simplify_small false o H) as (k' & d & E' & HC & _). rewrite E in E'. injection E' as <-.
  unfold op_simplify in *. rewrite (canonical_order_fixed k HC). destruct (canonical_order o) as [o1|e]; cbn [bind] in *; [|discriminate]. injection E as E. f_equal. f_equal. f_equal.
  pose proof (unique_sorted k [] HC HS (Forall_nil _)) as HU. cbn [map app] in HU. fold (unique_terms k) in HU. rewrite <- E in HU at 2. unfold swapt in HU.
  assert (INJ : forall a b : list (list gate * C), map (fun kv => (snd kv, fst kv)) a = map (fun kv => (snd kv, fst kv)) b -> a = b).
  { induction a as [|[x1 x2] a IH]; intros [|[y1 y2] b] EQ; try discriminate; [reflexivity|]. cbn [map fst snd] in EQ. injection EQ as -> -> EQ. f_equal. apply IH, EQ. }
  apply INJ, HU.
Qed.
(** T - T^dagger with sorted index lists *)
Lemma child_false srt sort n x : legal_sort srt -> legal_term_sort sort -> trotter_ok x -> Forall (fun p => p < n) (up_ x) -> Forall (fun p => p < n) (dn_ x) ->
  exists o' c, jw_transform srt false (Antihermitian (co_ x) (up_ x) (dn_ x)) = Ok (o', c) /\
    exists c1 c2, op_simplify false (op_mult_coeffs c (RtoC (amp_ x))) = Ok c1 /\ order_terms sort c1 = Ok c2 /\ child_ok false x c2.
Proof.
  intros HS HT HX _ _. destruct (one_child srt sort false x HS HT HX) as (o' & c & E & c1 & c2 & E1 & E2 & HC). exists o', c. split; [exact E|].
  assert (PC : pauli_op (op_mult_coeffs c (RtoC (amp_ x)))).
  { apply mult_pauli. destruct HX as (HE & L & Ba & _). pose proof HE as (_ & LL & DP & DH & _). destruct (jw_transform_spec srt false (Antihermitian (co_ x) (up_ x) (dn_ x)) HS) as (kept & fd & q & dr & EJ & _ & _ & _ & HQ & _).
    - intros kept EK. rewrite (simplify_pair srt _ _ _ HS DP DH (excitable_ne _ _ HE)) in EK.
      + injection EK as <-. assert (T1 : term_ok false (up_ x) (dn_ x)) by (apply distinct_term_ok; [exact L|apply dsorted_nodup, DP|apply dsorted_nodup, DH]). assert (T2 : term_ok false (dn_ x) (up_ x)) by (apply distinct_term_ok; [lia|apply dsorted_nodup, DH|apply dsorted_nodup, DP]).
        destruct (pair_ltb _ _); (apply Forall_cons; [first [exact T1|exact T2]|apply Forall_cons; [first [exact T1|exact T2]|apply Forall_nil]]).
      + unfold big_enough in Ba. pose proof (pow_ge1 (length (up_ x) + length (dn_ x))). lra.
    - rewrite E in EJ. injection EJ as _ <-. apply canonical_pauli_op, HQ. }
  destruct (simplify_small false _ PC) as (k & d & EF & _). exists k, c2. split; [exact EF|]. split; [|exact HC].
  unfold order_terms. rewrite (simplify_false_true _ _ PC EF), E1. unfold order_terms in E2. rewrite (simplify_idem _ _ PC E1) in E2. exact E2.
Qed.
Lemma children_false srt sort n : legal_sort srt -> legal_term_sort sort -> forall items, Forall trotter_ok items -> Forall (fun x => Forall (fun p => p < n) (up_ x) /\ Forall (fun p => p < n) (dn_ x)) items ->
  forall s, exists pool' cs, foreach (map item_entry items) (fun term s => do r <- jw_transform srt false (snd term); do child <- op_simplify false (op_mult_coeffs (snd r) (fst term)); do child <- order_terms sort child;
      Ok ((fst s ++ [(fst term, fst r)])%list, op_add_op (snd s) child)) s = Ok ((fst s ++ pool')%list, (snd s ++ concat cs)%list) /\ Forall2 (child_ok false) items cs.
Proof.
  intros HS HT. induction 1 as [|x items Hx _ IH]; intros HR s; cbn [map foreach].
  - exists [], []. cbn [concat]. rewrite !app_nil_r. destruct s. split; [reflexivity|constructor].
  - inversion HR as [|? ? (R1 & R2) HR']; subst. destruct (child_false srt sort n x HS HT Hx R1 R2) as (o' & c & E1 & c1 & c2 & E2 & E3 & HC). unfold item_entry at 1 2 3. cbn [fst snd]. rewrite E1. cbn [bind fst snd]. rewrite E2. cbn [bind]. rewrite E3. cbn [bind].
    destruct (IH HR' ((fst s ++ [(RtoC (amp_ x), o')])%list, op_add_op (snd s) c2)) as (pool' & cs & E & HF). exists ((RtoC (amp_ x), o') :: pool'), (c2 :: cs). split; [|now constructor].
    cbn [fst snd] in E. rewrite E. unfold op_add_op. cbn [concat]. now rewrite <- !app_assoc.
Qed.
Lemma qubit_operator_strings srt sort n (pool : sqpool) : legal_sort srt -> legal_term_sort sort ->
  Forall (fun e => fst e = C1 /\ exists a P H, (a = 1 \/ a = -1)%R /\ snd e = Antihermitian a P H /\ Excitable P H /\ length P <= 6 /\ Forall (fun p => p < n) P /\ Forall (fun p => p < n) H) pool ->
  exists pool' Q, get_qubit_operator srt sort "commuting_grp_lex" false false pool = Ok (pool', Q) /\ Terms (StringOn n) Q /\ Forall (fun t => Re (fst t) = 0%R) Q.
Proof.
  intros HS HT HP.
  assert (X : exists items, pool = map item_entry items /\ Forall trotter_ok items /\ Forall (fun x => Forall (fun p => p < n) (up_ x) /\ Forall (fun p => p < n) (dn_ x)) items).
  { clear HS HT srt sort. induction HP as [|[c o] pool (E1 & a & P & H & Ha & E2 & HE & L & R1 & R2) _ (items & -> & I1 & I2)]; [exists []; split; [reflexivity|split; constructor]|]. cbn [fst snd] in *. subst c o. exists (mkItem 1 a P H :: items). split; [reflexivity|]. split; constructor; try assumption.
    - pose proof HE as (_ & LL & _). assert (B : big_enough P H a). { unfold big_enough. rewrite <- LL. assert (A1 : Rabs a = 1%R) by (destruct Ha as [-> | ->]; [apply Rabs_R1|rewrite Rabs_left; lra]). rewrite A1. assert (2 ^ (length P + length P) <= 2 ^ 12)%R by (apply Rle_pow; [lra|lia]). assert (2 ^ 12 = 4096)%R by (cbn; ring). lra. }
      unfold trotter_ok. cbn [amp_ co_ up_ dn_]. split; [exact HE|]. split; [lia|]. split; [exact B|right]. rewrite Rmult_1_l. exact B.
    - split; assumption. }
  destruct X as (items & -> & I1 & I2). clear HP. unfold get_qubit_operator. cbn [String.eqb Ascii.eqb Bool.eqb]. destruct (children_false srt sort n HS HT items I1 I2 ([], [])) as (pool' & cs & E & HF). rewrite E. cbn [fst snd app]. exists pool', (concat cs). split; [reflexivity|]. split.
  - clear E. unfold Terms. revert I1 I2. induction HF as [|x c items cs HC _ IH]; intros I1 I2; [constructor|]. pose proof (Forall_inv_tail I1) as J1. pose proof (Forall_inv_tail I2) as J2. destruct (Forall_inv I2) as (R1 & R2). cbn [concat]. apply Forall_app. split; [|idtac; exact (IH J1 J2)]. pose proof (ch_reg _ _ _ HC n R1 R2) as HR. pose proof (ch_word _ _ _ HC) as HW. unfold in_reg in HR. rewrite Forall_forall in *. intros t Ht. destruct (HW t Ht) as ((W1 & W2) & _). split; [split; [apply circuit_iff, W1|apply (increasing_nodup _ W2)]|apply HR, Ht].
  - clear E I1 I2. induction HF as [|x c items cs HC _ IH]; [constructor|]. cbn [concat]. apply Forall_app. split; [exact (ch_im _ _ _ HC)|exact IH].
Qed.
(** the filter keeps the strings with oddly many Y *)
Lemma rebuild gs : Forall pauli_gate gs -> forall out y, foreach gs (fun g s => do g' <- py_gate2 (glabel g) (gtarget g) (gcontrol g); Ok ((fst s ++ [g'])%list, if String.eqb (glabel g) "Y" then (snd s + 1)%nat else snd s)) (out, y) = Ok ((out ++ gs)%list, y + count_Y gs).
Proof.
  induction 1 as [|g gs Hg _ IH]; intros out y; [cbn; now rewrite app_nil_r, Nat.add_0_r|]. cbn [foreach]. assert (EG : py_gate2 (glabel g) (gtarget g) (gcontrol g) = Ok g).
  { pose proof (pauli_gate_1q g Hg) as EQ. destruct Hg as (HL & HM). unfold py_gate2. rewrite <- EQ, Nat.eqb_refl. destruct (pauli_label_cases _ HL) as [E|[E|E]]; rewrite E in *; cbn [existsb String.eqb Ascii.eqb Bool.eqb orb andb]; exact HM. }
  rewrite EG. cbn [bind fst snd]. rewrite IH, <- app_assoc. cbn [app]. do 2 f_equal. unfold count_Y. cbn [filter]. destruct (String.eqb (glabel g) "Y"); cbn [length]; lia.
Qed.
Lemma filter_pool Q : Terms PauliCircuit Q -> filter_odd_Y Q = Ok (pool_of (filter (fun gs => Nat.odd (count_Y gs)) (map snd Q))).
Proof.
  intros H. unfold filter_odd_Y. match goal with |- foreach Q ?bd _ = _ => set (body := bd) end.
  enough (G : forall p, foreach Q body p = Ok (p ++ pool_of (filter (fun gs => Nat.odd (count_Y gs)) (map snd Q)))%list) by apply (G []).
  induction H as [|[c gs] Q Hg _ IH]; intros p; [cbn; now rewrite app_nil_r|]. cbn [foreach map snd filter]. unfold body at 1. cbn [snd]. rewrite rebuild by (apply circuit_iff; exact Hg). cbn [bind fst snd app Nat.add].
  assert (EO : Nat.eqb (count_Y gs mod 2) 1 = Nat.odd (count_Y gs)). { rewrite <- (Nat.bit0_mod (count_Y gs)), Nat.bit0_odd. destruct (Nat.odd (count_Y gs)); reflexivity. }
  rewrite EO. destruct (Nat.odd (count_Y gs)); rewrite IH; [|reflexivity]. unfold pool_add_term. cbn [pool_of map]. rewrite <- app_assoc. reflexivity.
Qed.
