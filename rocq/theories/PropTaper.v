(** Property theorems C44: the symmetries found by find_Z2_symmetries. *)
From Coq Require Import Reals String List Arith Lia Bool Lra Permutation Sorted ZArith.
From Verif Require Import CBase Result Bits Spec GateModel OpSpec ComputerModel SafeProofs GateProofs LibProofs CircuitModel PauliProofs OperatorModel OperatorProofs PauliIndep OrderProofs PropOperator PropAccess SQModel PropSQ
  TaperModel TaperSpec TaperAlg TaperKernel TaperGS TaperAbel TaperPauli TaperSym TaperFind.
Import ListNotations.
Local Open Scope nat_scope.

Lemma f2_length {A B} (R : A -> B -> Prop) l l' : Forall2 R l l' -> length l = length l'.
Proof. induction 1; cbn; congruence. Qed.
Lemma terms_below h : forall t, In t h -> below (op_num_qubits h) (snd t).
Proof. intros [c gs] Ht g Hg. apply (proj1 (C56_operator_width h (op_num_qubits h)) (le_n _) c gs Ht g Hg). Qed.
Lemma uop_distinct g x : canonical_pauli g -> pauli_gate x -> distinct_op (uop g x).
Proof.
  intros Hg Hx. destruct (canonical_str g Hg) as [H1 H2]. constructor; [split; assumption|]. constructor; [|constructor]. cbn [snd map]. split; [constructor; [exact Hx|constructor]|].
  constructor; [intros []|constructor].
Qed.
Lemma products_ok us : Forall distinct_op us -> forall acc, distinct_op acc -> exists v, foreach us (fun op acc => operator_product acc op true true) acc = Ok v /\ distinct_op v.
Proof.
  induction us as [|u us IH]; intros HU acc HA; cbn [foreach]; [exists acc; auto|]. inversion HU; subst.
  destruct (product_op acc u true true HA H1) as (p & _ & _ & E & HC & _). rewrite E. cbn [bind]. apply IH; [assumption|apply canonical_distinct, HC].
Qed.
(** what find_Z2_symmetries returns *)
Lemma find_result argsort h b : legal_argsort argsort -> distinct_op h ->
  exists gens sigma, sym_facts (op_num_qubits h) h gens sigma /\
    (gens = [] -> find_Z2_symmetries argsort h b = Throw (PyError "IndexError")) /\
    (gens <> [] -> exists us v, find_Z2_symmetries argsort h b = Ok {| sy_generators := gens; sy_sigma := sigma; sy_unitaries := us; sy_unitary := v |}).
Proof.
  intros HA HD. destruct (find_spec argsort h b HA HD (terms_below h)) as (gens & sigma & us & HF & HU & E). exists gens, sigma. split; [exact HF|].
  assert (DU : Forall distinct_op us).
  { apply Forall_forall. intros u Hu. apply (In_nth _ _ []) in Hu. destruct Hu as (i & Hi & <-).
    pose proof (f2_length _ _ _ HU) as L. assert (Hi' : i < length (combine gens sigma)) by (rewrite L; exact Hi). clear Hi. rename Hi' into Hi. pose proof (Forall2_nth _ _ _ ([], 0) [] HU i Hi) as (x & Ex & ->). rewrite combine_length in Hi.
    apply uop_distinct.
    - pose proof (sf_len _ _ _ _ HF) as LL. rewrite (combine_nth gens sigma i [] 0) by lia. cbn [fst]. pose proof (sf_canon _ _ _ _ HF) as HC. rewrite Forall_forall in HC. apply HC, nth_In. lia.
    - destruct (pauli_make "X" (snd (nth i (combine gens sigma) ([], 0))) eq_refl) as (x' & Ex' & HP & _). congruence. }
  split.
  - intros ->. cbn [combine] in HU. inversion HU; subst. exact E.
  - intros HN. destruct us as [|u us].
    + exfalso. apply HN. pose proof (f2_length _ _ _ HU) as L. rewrite combine_length in L. pose proof (sf_len _ _ _ _ HF). destruct gens; [reflexivity|]. cbn [length] in *. lia.
    + inversion DU; subst. destruct (products_ok us H2 u H1) as (v & Ev & _). rewrite Ev in E. cbn [bind] in E. exists (u :: us), v. exact E.
Qed.
Lemma find_facts argsort h b s : legal_argsort argsort -> distinct_op h -> find_Z2_symmetries argsort h b = Ok s ->
  sym_facts (op_num_qubits h) h (sy_generators s) (sy_sigma s) /\ sy_generators s <> [].
Proof.
  intros HA HD E. destruct (find_result argsort h b HA HD) as (gens & sigma & HF & H1 & H2).
  destruct gens as [|g gens]; [rewrite H1 in E by reflexivity; discriminate|]. destruct H2 as (us & v & E'); [discriminate|]. rewrite E' in E. injection E as <-. split; [exact HF|discriminate].
Qed.

(** ---- C44 ---- *)
(** every generator is a Pauli string on the qubits of the Hamiltonian; it commutes with every
    term of the Hamiltonian and with every other generator.  The order np.argsort gives to equal
    values is arbitrary. *)
Theorem C44_generators_are_symmetries : forall argsort h from_least s, legal_argsort argsort -> Terms PauliString h ->
  find_Z2_symmetries argsort h from_least = Ok s ->
  (forall g, In g (sy_generators s) -> Canonical g /\ Within (op_num_qubits h) g /\ g <> []) /\
  (forall g t, In g (sy_generators s) -> In t h -> Commute g (snd t)) /\
  (forall g g', In g (sy_generators s) -> In g' (sy_generators s) -> Commute g g').
Proof.
  intros argsort h b s HA HT E. apply terms_string in HT. destruct (find_facts argsort h b s HA HT E) as [HF _]. clear E. set (gens := sy_generators s) in *. set (n := op_num_qubits h) in *.
  assert (HC : forall g, In g gens -> canonical_pauli g) by (apply Forall_forall, (sf_canon _ _ _ _ HF)).
  assert (HB : forall g, In g gens -> below n g) by (apply Forall_forall, (sf_below _ _ _ _ HF)).
  assert (HS : forall t, In t h -> str (snd t)) by (intros t Ht; unfold distinct_op in HT; rewrite Forall_forall in HT; exact (HT t Ht)).
  split; [|split].
  - intros g Hg. split; [apply canonical_iff, HC, Hg|]. split; [exact (HB g Hg)|]. intros ->.
    apply (In_nth _ _ []) in Hg. destruct Hg as (i & Hi & Ei).
    assert (HI : Independent gens) by (apply (independent_of n); [apply Forall_forall; intros; apply canonical_str, HC; assumption|apply (sf_indep _ _ _ _ HF)]).
    set (sel := map (Nat.eqb i) (seq 0 (length gens))).
    assert (Hf : Forall (eq false) sel).
    { apply HI; [unfold sel; rewrite map_length, seq_length; reflexivity|]. exists C1. intros psi.
      assert (EP : product sel gens = []); [|rewrite EP; apply seq_sym, sscale_1].
      unfold product, sel. assert (HP : forall a, In a (map snd (filter fst (combine (map (Nat.eqb i) (seq 0 (length gens))) gens))) -> a = []).
      { intros a Ha. apply in_map_iff in Ha. destruct Ha as ([b0 a0] & <- & Ha). apply filter_In in Ha. destruct Ha as [Ha Hb]. cbn in Hb. subst b0. cbn [snd].
        apply (In_nth _ _ (Nat.eqb i (length gens), [])) in Ha. destruct Ha as (k & Hk & Ek). rewrite combine_length, map_length, seq_length in Hk.
        rewrite combine_nth in Ek by (rewrite map_length, seq_length; reflexivity). injection Ek as Ek1 Ek2. rewrite (nth_map_in _ _ k 0) in Ek1 by (rewrite seq_length; lia). rewrite seq_nth in Ek1 by lia.
        apply Nat.eqb_eq in Ek1. cbn in Ek1. subst k. congruence. }
      revert HP. generalize (map snd (filter fst (combine (map (Nat.eqb i) (seq 0 (length gens))) gens))). induction l as [|a l IH]; intros HP; [reflexivity|]. cbn [concat]. rewrite (HP a (or_introl eq_refl)).
      apply IH. intros a' Ha'. apply HP. right; exact Ha'. }
    rewrite Forall_forall in Hf. specialize (Hf true). discriminate Hf. unfold sel. apply in_map_iff. exists i. split; [apply Nat.eqb_refl|apply in_seq; lia].
  - intros g t Hg Ht. apply (In_nth _ _ []) in Hg. destruct Hg as (i & Hi & <-). pose proof (HC _ (nth_In gens [] Hi)) as HCi.
    apply commute_iff; [apply canonical_str, HCi|apply (HS t Ht)|]. rewrite (anti_str_sf n); [|apply canonical_str, HCi|apply (HS t Ht)|apply terms_below, Ht].
    rewrite sf_sym. exact (sf_terms _ _ _ _ HF i Hi t Ht).
  - intros g g' Hg Hg'. apply (In_nth _ _ []) in Hg. destruct Hg as (i & Hi & <-). apply (In_nth _ _ []) in Hg'. destruct Hg' as (j & Hj & <-).
    pose proof (HC _ (nth_In gens [] Hi)) as HCi. pose proof (HC _ (nth_In gens [] Hj)) as HCj.
    apply commute_iff; [apply canonical_str, HCi|apply HCj|]. rewrite (anti_str_sf n); [|apply canonical_str, HCi|apply canonical_str, HCj|apply HB, nth_In, Hj].
    exact (sf_mutual _ _ _ _ HF i j Hi Hj).
Qed.
Print Assumptions C44_generators_are_symmetries.
(** no product of (at least one of) the generators is a multiple of the identity *)
Theorem C44_generators_independent : forall argsort h from_least s, legal_argsort argsort -> Terms PauliString h ->
  find_Z2_symmetries argsort h from_least = Ok s -> Independent (sy_generators s).
Proof.
  intros argsort h b s HA HT E. apply terms_string in HT. destruct (find_facts argsort h b s HA HT E) as [HF _].
  apply (independent_of (op_num_qubits h)); [|apply (sf_indep _ _ _ _ HF)]. apply Forall_forall. intros g Hg. apply canonical_str. pose proof (sf_canon _ _ _ _ HF) as HC. rewrite Forall_forall in HC. apply HC, Hg.
Qed.
Print Assumptions C44_generators_independent.
(** the group they generate is maximal: every Pauli string that commutes with the terms and with
    the generators is, up to a factor, a product of generators *)
Theorem C44_generators_maximal : forall argsort h from_least s, legal_argsort argsort -> Terms PauliString h ->
  find_Z2_symmetries argsort h from_least = Ok s ->
  forall g, PauliString g -> Within (op_num_qubits h) g -> (forall t, In t h -> Commute g (snd t)) -> (forall g', In g' (sy_generators s) -> Commute g g') ->
  Generated (sy_generators s) g.
Proof.
  intros argsort h b s HA HT E g [HP HN] HB HCt HCg. apply circuit_iff in HP. apply terms_string in HT. destruct (find_facts argsort h b s HA HT E) as [HF _]. clear E. set (gens := sy_generators s) in *. set (n := op_num_qubits h) in *.
  assert (Hg : str g) by (split; assumption).
  assert (HC : forall g, In g gens -> canonical_pauli g) by (apply Forall_forall, (sf_canon _ _ _ _ HF)).
  assert (HBg : forall g, In g gens -> below n g) by (apply Forall_forall, (sf_below _ _ _ _ HF)).
  assert (HS : forall t, In t h -> str (snd t)) by (intros t Ht; unfold distinct_op in HT; rewrite Forall_forall in HT; exact (HT t Ht)).
  apply (generated_of n); [apply Forall_forall; intros; apply canonical_str, HC; assumption|apply (sf_below _ _ _ _ HF)|exact Hg|exact HB|].
  apply (sf_max _ _ _ _ HF).
  - intros k Hk. apply vec_above, Hk.
  - intros t Ht. rewrite sf_sym. rewrite <- (anti_str_sf n g (snd t) Hg (HS t Ht) (terms_below h t Ht)). apply commute_iff; [exact Hg|apply (HS t Ht)|apply HCt, Ht].
  - intros i Hi. pose proof (HC _ (nth_In gens [] Hi)) as HCi. unfold genf. rewrite <- (anti_str_sf n g _ Hg (canonical_str _ HCi) (HBg _ (nth_In gens [] Hi))).
    apply commute_iff; [exact Hg|apply HCi|apply HCg, nth_In, Hi].
Qed.
Print Assumptions C44_generators_maximal.
(** it raises exactly when only the identity commutes with all the terms *)
Theorem C44_outcome : forall argsort h from_least, legal_argsort argsort -> Terms PauliString h ->
  (exists s, find_Z2_symmetries argsort h from_least = Ok s /\ sy_generators s <> [] /\ length (sy_sigma s) = length (sy_generators s)) \/
  (find_Z2_symmetries argsort h from_least = Throw (PyError "IndexError") /\
   forall g, PauliString g -> Within (op_num_qubits h) g -> (forall t, In t h -> Commute g (snd t)) -> g = []).
Proof.
  intros argsort h b HA HT. apply terms_string in HT. destruct (find_result argsort h b HA HT) as (gens & sigma & HF & H1 & H2).
  destruct gens as [|g0 gens].
  - right. split; [apply H1; reflexivity|]. intros g [HP HN] HB HCt. apply circuit_iff in HP. assert (Hg : str g) by (split; assumption). set (n := op_num_qubits h) in *.
    assert (HS : forall t, In t h -> str (snd t)) by (intros t Ht; unfold distinct_op in HT; rewrite Forall_forall in HT; exact (HT t Ht)).
    assert (HI : inspan 0 (genf n []) (vec_of n g)).
    { apply (sf_max _ _ _ _ HF); [intros k Hk; apply vec_above, Hk| |intros i Hi; inversion Hi].
      intros t Ht. rewrite sf_sym. rewrite <- (anti_str_sf n g (snd t) Hg (HS t Ht) (terms_below h t Ht)). apply commute_iff; [exact Hg|apply (HS t Ht)|apply HCt, Ht]. }
    destruct HI as [c Hc]. assert (HZ : forall A, pauli_gate A -> anti (glabel A) (gtarget A) g = false).
    { intros A HPA. destruct (lt_dec (gtarget A) n) as [Ht|Ht]; [|apply (below_anti n); [exact HB|lia]]. rewrite (vec_anti n g A HPA Hg HB Ht), !Hc. reflexivity. }
    destruct g as [|a g]; [reflexivity|]. exfalso. inversion HP; subst.
    set (l := if String.eqb (glabel a) "X" then "Y"%string else "X"%string). assert (Hl : is_pauli_label l = true) by (unfold l; destruct (String.eqb _ _); reflexivity).
    destruct (pauli_make l (gtarget a) Hl) as (A & EA & HPA & HL & HTA & _). specialize (HZ A HPA). rewrite HL, HTA in HZ. unfold anti in HZ. cbn [existsb] in HZ. rewrite Nat.eqb_refl in HZ.
    assert (NL : String.eqb (glabel a) l = false) by (unfold l; destruct (String.eqb_spec (glabel a) "X") as [EE|NE]; [rewrite EE; reflexivity|apply String.eqb_neq, NE]). rewrite NL in HZ. discriminate.
  - left. destruct H2 as (us & v & E); [discriminate|]. eexists. split; [exact E|]. split; [discriminate|exact (sf_len _ _ _ _ HF)].
Qed.
Print Assumptions C44_outcome.
(** the qubit paired with a generator that contains a Y or a Z: sigma_x on it anticommutes with
    that generator and commutes with all the others; the paired qubits are listed in
    descending order *)
Theorem C44_paired_qubits : forall argsort h from_least s, legal_argsort argsort -> Terms PauliString h ->
  find_Z2_symmetries argsort h from_least = Ok s ->
  (forall i j, i < j < length (sy_sigma s) -> nth j (sy_sigma s) 0 <= nth i (sy_sigma s) 0) /\
  forall i x, i < length (sy_generators s) -> (exists g, In g (nth i (sy_generators s) []) /\ (glabel g = "Y" \/ glabel g = "Z")%string) ->
    make_gate "X" (nth i (sy_sigma s) 0) (nth i (sy_sigma s) 0) 0 = Ok x ->
    nth i (sy_sigma s) 0 < op_num_qubits h /\ Anticommute (nth i (sy_generators s) []) [x] /\
    (forall j, j < length (sy_generators s) -> j <> i -> Commute (nth j (sy_generators s) []) [x] /\
       ((exists g, In g (nth j (sy_generators s) []) /\ (glabel g = "Y" \/ glabel g = "Z")%string) -> nth j (sy_sigma s) 0 <> nth i (sy_sigma s) 0)).
Proof.
  intros argsort h b s HA HT E. apply terms_string in HT. destruct (find_facts argsort h b s HA HT E) as [HF _]. clear E. set (gens := sy_generators s) in *. set (sigma := sy_sigma s) in *.
  assert (HC : forall i, i < length gens -> canonical_pauli (nth i gens [])).
  { intros i Hi. pose proof (sf_canon _ _ _ _ HF) as HC. rewrite Forall_forall in HC. apply HC, nth_In, Hi. }
  split; [intros i j Hij; apply (sf_desc _ _ _ _ HF); rewrite <- (sf_len _ _ _ _ HF); exact Hij|].
  intros i x Hi Hyz Ex. destruct (sf_pair _ _ _ _ HF i Hi Hyz) as (H1 & H2 & H3). split; [exact H1|].
  destruct (pauli_make "X" (nth i sigma 0) eq_refl) as (x' & Ex' & HPx & HLx & HTx & _). assert (x' = x) by congruence. subst x'.
  assert (AX : forall j, j < length gens -> anti_str (nth j gens []) [x] = zb (nth j gens []) (nth i sigma 0)).
  { intros j Hj. unfold anti_str. cbn [fold_right]. rewrite xorb_false_r, HLx, HTx. rewrite (anti_xz "X" _ _ eq_refl (canonical_str _ (HC j Hj))). cbn. rewrite andb_false_r, andb_true_r. apply xorb_false_l. }
  split; [apply anticommute_iff; [apply canonical_str, HC, Hi|constructor; [exact HPx|constructor]|rewrite AX by exact Hi; exact H2]|].
  intros j Hj Nj. split.
  - apply commute_iff; [apply canonical_str, HC, Hj|constructor; [exact HPx|constructor]|rewrite AX by exact Hj; apply H3; assumption].
  - intros Hyzj Es. destruct (sf_pair _ _ _ _ HF j Hj Hyzj) as (_ & H2j & _). rewrite Es, H3 in H2j by assumption. discriminate.
Qed.
Print Assumptions C44_paired_qubits.

(** ---- the hypotheses are met ---- *)
Definition index_sort (s : list nat) : list nat := isort (fun i j => nth i s 0 <? nth j s 0)%nat (seq 0 (length s)).
Lemma index_sort_legal : legal_argsort index_sort.
Proof.
  intros s. unfold index_sort. set (lt := fun i j => (nth i s 0 <? nth j s 0)%nat). destruct (isort_legal lt (seq 0 (length s))) as [HP HS].
  - unfold lt. split; [intros x; apply Nat.ltb_irrefl|]. split; intros x y z; rewrite ?Nat.ltb_lt, ?Nat.ltb_ge; lia.
  - split; [exact HP|]. intros i j Hij. specialize (HS i j 0). rewrite seq_length in HS. specialize (HS Hij). unfold lt in HS. apply Nat.ltb_ge in HS. exact HS.
Qed.
Lemma pauli_circuit_xyz gs : Forall (fun g => exists t, g = gX t \/ g = gY t \/ g = gZ t) gs -> PauliCircuit gs.
Proof.
  apply Forall_impl. intros g (t & [-> | [-> | ->]]).
  - exists "X"%string, t. split; [auto|]. apply gX_pauli.
  - exists "Y"%string, t. split; [auto|]. apply gY_pauli.
  - exists "Z"%string, t. split; [auto|]. apply gZ_pauli.
Qed.
(** Z0 Z1 + X0 X1 *)
Definition ex_zzxx : qop := [(C1, [gZ 0; gZ 1]); (C1, [gX 0; gX 1])].
Lemma ex_zzxx_terms : Terms PauliString ex_zzxx.
Proof.
  assert (HD : forall a b : gate, gtarget a <> gtarget b -> DistinctQubits [a; b]).
  { intros a b N. constructor; [intros [E|[]]; congruence|constructor; [intros []|constructor]]. }
  constructor; [|constructor; [|constructor]]; cbn [snd]; (split; [apply pauli_circuit_xyz; constructor; [|constructor; [|constructor]]; eexists; eauto|apply HD; discriminate]).
Qed.
Example C44_nonvacuous : legal_argsort index_sort /\ Terms PauliString ex_zzxx /\ exists s, find_Z2_symmetries index_sort ex_zzxx false = Ok s /\ sy_generators s <> [].
Proof.
  split; [exact index_sort_legal|]. split; [exact ex_zzxx_terms|].
  destruct (C44_outcome index_sort ex_zzxx false index_sort_legal ex_zzxx_terms) as [(s & E & HN & _)|[_ H]]; [exists s; auto|]. exfalso.
  assert (HS : str [gZ 0; gZ 1]) by (split; [repeat constructor; apply gZ_pauli|repeat constructor; cbn; intuition discriminate]).
  assert (E : [gZ 0; gZ 1] = []); [|discriminate]. apply H.
  - split; [apply circuit_iff, HS|exact (proj2 HS)].
  - intros g [<-|[<-|[]]]; cbn; lia.
  - intros t [<-|[<-|[]]]; cbn [snd]; (apply commute_iff; [exact HS| |reflexivity]); repeat constructor; try apply gZ_pauli; apply gX_pauli.
Qed.
(** a run: one qubit, H = Z0 *)
Example C44_run : find_Z2_symmetries index_sort [(C1, [gZ 0])] false =
  Ok {| sy_generators := [[gZ 0]]; sy_sigma := [0]; sy_unitaries := [uop [gZ 0] (gX 0)]; sy_unitary := uop [gZ 0] (gX 0) |}.
Proof. reflexivity. Qed.

(** ---- the claim fails when a term mentions a qubit twice (circuits of Pauli gates that are not
    Pauli strings): X0 then Y0 is taken for Y0, and the "symmetry" Y0 does not commute with it *)
Theorem C44_repeated_qubit_refuted : exists h s g t, Terms PauliCircuit h /\ find_Z2_symmetries index_sort h false = Ok s /\
  In g (sy_generators s) /\ In t h /\ ~ Commute g (snd t).
Proof.
  exists [(C1, [gX 0; gY 0])]. eexists. exists [gY 0], (C1, [gX 0; gY 0]).
  split; [constructor; [|constructor]; cbn [snd]; apply pauli_circuit_xyz; constructor; [|constructor; [|constructor]]; eexists; eauto|].
  split; [reflexivity|]. cbn [sy_generators]. split; [left; reflexivity|]. split; [left; reflexivity|].
  assert (HS : str [gY 0]) by (split; [repeat constructor; apply gY_pauli|repeat constructor; intros []]).
  intros HC. apply commute_iff in HC; [discriminate HC|exact HS|]. cbn [snd]. constructor; [apply gX_pauli|constructor; [apply gY_pauli|constructor]].
Qed.
Print Assumptions C44_repeated_qubit_refuted.

(** ---- taper_reference ---- *)
(** the entries of l whose position is not listed, in their order *)
Definition others (removed : list nat) (l : list nat) : list nat :=
  map snd (filter (fun p => negb (existsb (Nat.eqb (fst p)) removed)) (combine (seq 0 (length l)) l)).
Definition others_from (k : nat) (removed : list nat) (l : list nat) : list nat :=
  map snd (filter (fun p => negb (existsb (Nat.eqb (fst p)) removed)) (combine (seq k (length l)) l)).
Lemma others_app r a : forall k b, others_from k r (a ++ b) = (others_from k r a ++ others_from (k + length a) r b)%list.
Proof.
  induction a as [|x a IH]; intros k b; unfold others_from; cbn [app length seq combine filter]; [rewrite Nat.add_0_r; reflexivity|].
  specialize (IH (S k) b). unfold others_from in IH. cbn [fst]. replace (k + S (length a)) with (S k + length a) by lia. destruct (negb _); cbn [map app]; rewrite IH; reflexivity.
Qed.
Lemma others_none r l : forall k, (forall q, In q r -> q < k) -> others_from k r l = l.
Proof.
  induction l as [|x l IH]; intros k H; [reflexivity|]. unfold others_from. cbn [length seq combine filter fst].
  destruct (existsb (Nat.eqb k) r) eqn:E; [apply existsb_exists in E; destruct E as (q & Hq & Eq); apply Nat.eqb_eq in Eq; subst q; specialize (H k Hq); lia|].
  cbn [negb map snd]. f_equal. apply IH. intros q Hq. specialize (H q Hq). lia.
Qed.
Lemma others_ext r r' l : forall k, (forall i, k <= i < k + length l -> existsb (Nat.eqb i) r = existsb (Nat.eqb i) r') -> others_from k r l = others_from k r' l.
Proof.
  induction l as [|x l IH]; intros k H; [reflexivity|]. unfold others_from. cbn [length seq combine filter fst]. rewrite (H k) by (cbn [length]; lia).
  specialize (IH (S k)). unfold others_from in IH. destruct (negb _); cbn [map snd]; rewrite IH; try reflexivity; intros i Hi; apply H; cbn [length]; lia.
Qed.
(** indices in strictly descending order: exactly those positions disappear *)
Theorem C58_taper_reference : forall tapered ref, StronglySorted gt tapered -> (forall q, In q tapered -> q < length ref) ->
  taper_reference tapered ref = Ok (others tapered ref).
Proof.
  unfold taper_reference. induction tapered as [|q tapered IH]; intros ref HS HB; cbn [foreach].
  - f_equal. symmetry. exact (others_none [] ref 0 (fun q H => match H with end)).
  - inversion HS; subst. assert (Hq := HB q (or_introl eq_refl)). unfold del_at at 1. rewrite (proj2 (Nat.ltb_lt _ _) Hq). cbn [bind].
    destruct (nth_split ref 0 Hq) as (a & b & E & La). assert (EA : firstn q ref = a) by (rewrite E, <- La, firstn_app, firstn_all, Nat.sub_diag; apply app_nil_r).
    assert (EB : skipn (S q) ref = b) by (rewrite E, <- La; replace (a ++ nth (length a) ref 0 :: b)%list with ((a ++ [nth (length a) ref 0]) ++ b)%list by (rewrite <- app_assoc; reflexivity); rewrite skipn_app, skipn_all2 by (rewrite app_length; cbn; lia); rewrite app_length; cbn [length]; replace (S (length a) - (length a + 1)) with 0 by lia; reflexivity).
    rewrite EA, EB. rewrite Forall_forall in H2. rewrite IH; [|assumption|intros r Hr; rewrite app_length; specialize (H2 r Hr); unfold gt in H2; lia].
    f_equal. transitivity (others_from 0 (q :: tapered) ref); [|reflexivity]. change (others tapered (a ++ b)) with (others_from 0 tapered (a ++ b)). rewrite E. rewrite !others_app.
    assert (HA : others_from 0 tapered a = others_from 0 (q :: tapered) a).
    { apply others_ext. intros i Hi. cbn [existsb]. destruct (Nat.eqb_spec i q); [lia|reflexivity]. }
    rewrite HA. f_equal. cbn [Nat.add]. rewrite La. rewrite others_none by (intros r Hr; specialize (H2 r Hr); unfold gt in H2; lia).
    unfold others_from. cbn [length seq combine filter fst existsb]. rewrite Nat.eqb_refl. cbn [orb negb]. symmetry. apply (others_none (q :: tapered) b (S q)). intros r [<-|Hr]; [lia|]. specialize (H2 r Hr). unfold gt in H2. lia.
Qed.
Print Assumptions C58_taper_reference.
Example C58_taper_reference_nonvacuous : StronglySorted gt [4; 1] /\ taper_reference [4; 1] [1; 0; 1; 1; 0; 0] = Ok [1; 1; 1; 0].
Proof. split; [repeat constructor|reflexivity]. Qed.
(** an index beyond the end raises *)
Theorem C58_taper_reference_raises : forall q tapered ref, length ref <= q -> taper_reference (q :: tapered) ref = Throw (PyError "IndexError").
Proof. intros q tapered ref H. unfold taper_reference. cbn [foreach]. unfold del_at. rewrite (proj2 (Nat.ltb_ge _ _) H). reflexivity. Qed.
(** in another order different entries are removed (the documented warning) *)
Theorem C58_taper_reference_ascending_refuted : exists tapered ref, NoDup tapered /\ (forall q, In q tapered -> q < length ref) /\ taper_reference tapered ref <> Ok (others tapered ref).
Proof.
  exists [0; 1], [0; 1; 2]. split; [repeat constructor; cbn; intuition discriminate|]. split; [intros q [<-|[<-|[]]]; cbn; lia|]. vm_compute. discriminate.
Qed.
