(** Property theorems C15, C16, C17, C33, C34, C51 (Pauli circuits, operators, pools). *)
From Coq Require Import Reals String List Arith Lia Bool Lra Permutation.
From Verif Require Import CBase Result Bits Spec GateModel OpSpec ComputerModel SafeProofs GateProofs LibProofs InteractProofs CircuitModel PauliProofs OperatorModel OperatorProofs OrderProofs PoolProofs.
Import ListNotations.
Local Open Scope C_scope.

(** ---- vocabulary of the statements ---- *)
(** circuit of gates gate("X"|"Y"|"Z", t) *)
Definition PauliCircuit (gs : list gate) : Prop :=
  Forall (fun g => exists l t, (l = "X" \/ l = "Y" \/ l = "Z")%string /\ make_gate l t t 0 = Ok g) gs.
(** no qubit occurs twice *)
Definition DistinctQubits (gs : list gate) : Prop := NoDup (map gtarget gs).
(** strictly increasing qubits *)
Definition IncreasingQubits (gs : list gate) : Prop :=
  forall i j d, (i < j < length gs)%nat -> (gtarget (nth i gs d) < gtarget (nth j gs d))%nat.
Definition Canonical (gs : list gate) : Prop := PauliCircuit gs /\ IncreasingQubits gs.
(** operators: every term satisfies P *)
Definition Terms (P : list gate -> Prop) (o : list (C * list gate)) : Prop := Forall (fun t => P (snd t)) o.
Definition PauliString (gs : list gate) : Prop := PauliCircuit gs /\ DistinctQubits gs.

Lemma pauli_iff g : pauli_gate g <-> exists l t, (l = "X" \/ l = "Y" \/ l = "Z")%string /\ make_gate l t t 0 = Ok g.
Proof.
  split.
  - intros H. exists (glabel g), (gtarget g). split; [apply pauli_label_cases, H|apply H].
  - intros (l & t & H & E). assert (HL : is_pauli_label l = true) by (destruct H as [-> | [-> | ->]]; reflexivity).
    destruct (pauli_make l t HL) as (g' & E' & HP & _). congruence.
Qed.
Lemma circuit_iff gs : PauliCircuit gs <-> Forall pauli_gate gs.
Proof. split; apply Forall_impl; intros g; apply pauli_iff. Qed.
Lemma increasing_iff gs : IncreasingQubits gs <-> increasing (map gtarget gs).
Proof.
  induction gs as [|g r IH]; cbn [map increasing].
  - split; [intros _; exact I|intros _ i j d H; cbn in H; lia].
  - split.
    + intros H. split.
      * intros y Hy. apply in_map_iff in Hy. destruct Hy as (h & <- & Hh). apply (In_nth _ _ g) in Hh. destruct Hh as (k & Hk & <-).
        apply (H 0%nat (S k) g). cbn; lia.
      * apply IH. intros i j d Hij. apply (H (S i) (S j) d). cbn; lia.
    + intros [H1 H2] i j d Hij. destruct j as [|j]; [lia|]. cbn [length] in Hij. destruct i as [|i]; cbn [nth].
      * apply H1, in_map, nth_In. lia.
      * apply (proj2 IH H2). lia.
Qed.
Lemma canonical_iff gs : Canonical gs <-> canonical_pauli gs.
Proof. unfold Canonical, canonical_pauli. rewrite circuit_iff, increasing_iff. reflexivity. Qed.
Lemma terms_pauli o : Terms PauliCircuit o <-> pauli_op o.
Proof. split; apply Forall_impl; intros t; apply circuit_iff. Qed.
Lemma terms_canonical o : Terms Canonical o <-> canonical_op o.
Proof. split; apply Forall_impl; intros t; apply canonical_iff. Qed.
Lemma terms_string o : Terms PauliString o <-> distinct_op o.
Proof. split; apply Forall_impl; intros t; unfold PauliString, DistinctQubits; rewrite circuit_iff; auto. Qed.

(** ---- C15 ---- *)
(** full statement: new circuit canonical, and prefactor * new circuit = old circuit *)
Definition C15_claim (gs : list gate) : Prop := exists c gs',
  canonicalize_pauli_circuit gs = Ok (c, gs') /\ Canonical gs' /\ forall psi, circ_act gs psi == sscale c (circ_act gs' psi).
(** proved when no qubit repeats *)
Theorem C15_canonicalize_distinct_qubits_partial : forall gs, PauliCircuit gs -> DistinctQubits gs -> C15_claim gs.
Proof.
  intros gs H Hn. apply circuit_iff in H. destruct (canon_circuit gs H) as (c & gs' & E & HC & _ & _ & HW).
  pose proof (canon_distinct gs H Hn) as E'. assert (c = C1) by congruence. subst c. exists C1, gs'.
  split; [exact E|]. split; [apply canonical_iff, HC|]. rewrite Cconj_C1 in HW. exact HW.
Qed.
Print Assumptions C15_canonicalize_distinct_qubits_partial.
(** in general the circuit is right, but the prefactor returned is the complex conjugate of
    the one that is needed (equivalently: it is right for the gates applied last to first) *)
Theorem C15_canonicalize_conjugate_prefactor_partial : forall gs, PauliCircuit gs ->
  exists c gs', canonicalize_pauli_circuit gs = Ok (c, gs') /\ Canonical gs' /\ Cnorm2 c = 1%R /\
    (forall t, In t (map gtarget gs') -> In t (map gtarget gs)) /\
    (forall psi, circ_act gs psi == sscale (Cconj c) (circ_act gs' psi)) /\
    (forall psi, circ_act (rev gs) psi == sscale c (circ_act gs' psi)).
Proof.
  intros gs H. apply circuit_iff in H. destruct (canon_circuit gs H) as (c & gs' & E & HC & HN & HT & HW).
  exists c, gs'. split; [exact E|]. split; [apply canonical_iff, HC|]. do 3 (split; [assumption|]).
  destruct (canon_word gs H) as (c2 & gs2 & E2 & _ & _ & _ & HW2). assert (c2 = c /\ gs2 = gs') as [-> ->] by (split; congruence).
  intros psi. rewrite <- wact_rev. eapply seq_trans; [apply HW2|]. apply sscale_ext, canonical_circ, HC.
Qed.
Print Assumptions C15_canonicalize_conjugate_prefactor_partial.
(** X then Y on one qubit: the prefactor i is returned, -i would be right *)
Theorem C15_repeated_qubit_refuted : exists gs, PauliCircuit gs /\ ~ C15_claim gs.
Proof.
  exists [gX 0; gY 0]. split.
  - apply circuit_iff. constructor; [apply gX_pauli|constructor; [apply gY_pauli|constructor]].
  - intros (c & gs' & E & _ & HW).
    assert (E' : canonicalize_pauli_circuit [gX 0; gY 0] = Ok (C1 * Ci, [gZ 0])) by reflexivity.
    rewrite E in E'. assert (c = C1 * Ci /\ gs' = [gZ 0]) as [-> ->] by (split; congruence).
    specialize (HW (ket 0) 0%nat). revert HW. unfold circ_act, sscale; cbn [fold_left]. unfold gate_act; cbn [gtarget gcontrol gX gY gZ Nat.eqb gmat].
    unfold act1; cbn. intros HW. apply (f_equal Im) in HW. cbn in HW. lra.
Qed.
Print Assumptions C15_repeated_qubit_refuted.
Theorem C15_non_pauli_raises : forall gs, gs <> [] -> ~ Forall (fun g => glabel g = "X" \/ glabel g = "Y" \/ glabel g = "Z")%string gs ->
  canonicalize_pauli_circuit gs = Throw RuntimeErr.
Proof.
  intros gs Hne H. apply canon_throws; [exact Hne|]. destruct (is_pauli gs) eqn:E; [|reflexivity]. exfalso; apply H.
  apply is_pauli_forall in E. eapply Forall_impl; [|exact E]. intros g Hg. apply pauli_label_cases, Hg.
Qed.
Print Assumptions C15_non_pauli_raises.
Example C15_nonvacuous : PauliCircuit [gZ 2; gX 0] /\ DistinctQubits [gZ 2; gX 0] /\ canonicalize_pauli_circuit [gZ 2; gX 0] = Ok (C1, [gX 0; gZ 2]).
Proof.
  split; [apply circuit_iff; constructor; [apply gZ_pauli|constructor; [apply gX_pauli|constructor]]|]. split; [|reflexivity].
  constructor; [cbn; lia|constructor; [intros []|constructor]].
Qed.

(** ---- C16 ---- *)
(** operators whose terms are Pauli strings (no repeated qubit in a term): the result is a
    list of pairwise different canonical strings, all above 1e-12 when combining, and it
    differs from the original by terms of modulus at most 1e-12 on further, different strings *)
Theorem C16_simplify_preserves_operator_partial : forall o combine, Terms PauliString o ->
  exists kept dropped, op_simplify combine o = Ok kept /\
    Terms Canonical (kept ++ dropped) /\ NoDup (map snd (kept ++ dropped)) /\
    (combine = true -> Forall (fun t => 1e-12 < Cabs (fst t))%R kept) /\
    (combine = false -> dropped = []) /\
    Forall (fun t => Cabs (fst t) <= 1e-12)%R dropped /\
    forall psi, op_act o psi == sadd (op_act kept psi) (op_act dropped psi).
Proof.
  intros o combine H. apply terms_string in H. destruct (simplify_spec combine o (distinct_pauli o H)) as (k & d & E & HC & HN & HB & HD & HS & _ & HW).
  exists k, d. split; [exact E|]. split; [apply terms_canonical, HC|]. do 4 (split; [assumption|]).
  apply Forall_app in HC. destruct HC as [HC1 HC2]. intros psi J. rewrite <- (wop_op o psi H J), (HW psi J). unfold sadd.
  rewrite (wop_op k psi (canonical_distinct k HC1) J), (wop_op d psi (canonical_distinct d HC2) J). reflexivity.
Qed.
Print Assumptions C16_simplify_preserves_operator_partial.
(** terms with repeated qubits: same statement with each circuit read last gate first *)
Theorem C16_simplify_any_pauli_reversed_partial : forall o combine, Terms PauliCircuit o ->
  exists kept dropped, op_simplify combine o = Ok kept /\ Terms Canonical kept /\ NoDup (map snd kept) /\ negligible dropped /\
    forall psi, op_act (map (fun t => (fst t, rev (snd t))) o) psi == sadd (op_act kept psi) (op_act dropped psi).
Proof.
  intros o combine H. apply terms_pauli in H. destruct (simplify_small combine o H) as (k & d & E & HC1 & HN & HC2 & HS & _ & _ & _ & _ & HW).
  exists k, d. split; [exact E|]. split; [apply terms_canonical, HC1|]. do 2 (split; [assumption|]).
  intros psi J. unfold sadd. rewrite <- (wop_op k psi (canonical_distinct k HC1) J), <- (wop_op d psi (canonical_distinct d HC2) J).
  change (wop k psi J + wop d psi J) with (sadd (wop k psi) (wop d psi) J). rewrite <- (HW psi J). unfold op_act, wop. rewrite Csum_map. apply Csum_ext. intros t _.
  cbn [fst snd]. rewrite wact_rev. reflexivity.
Qed.
Print Assumptions C16_simplify_any_pauli_reversed_partial.
Theorem C16_repeated_qubit_refuted : exists o kept, Terms PauliCircuit o /\ op_simplify true o = Ok kept /\
  op_act o (ket 0) 0%nat = (- Ci) /\ op_act kept (ket 0) 0%nat = Ci.
Proof.
  exists [(C1, [gX 0; gY 0])], [(C1 * (C1 * Ci), [gZ 0])]. split; [|split; [|split]].
  - apply terms_pauli. constructor; [|constructor]. constructor; [apply gX_pauli|constructor; [apply gY_pauli|constructor]].
  - unfold op_simplify. change (canonical_order [(C1, [gX 0; gY 0])]) with (Ok [(C1 * (C1 * Ci), [gZ 0])] : res qop). cbn [bind unique_terms fold_left map_accumulate fst snd filter map].
    rewrite Rltb_true; [reflexivity|]. rewrite !Cabs_mul, Cabs_C1. unfold Cabs, Cnorm2; cbn. replace (0 * 0 + 1 * 1)%R with 1%R by ring. rewrite sqrt_1. lra.
  - unfold op_act, Csum, circ_act; cbn [fold_left fold_right map fst snd]. unfold gate_act; cbn [gtarget gcontrol gX gY gZ Nat.eqb gmat]. unfold act1; cbn. csolve.
  - unfold op_act, Csum, circ_act; cbn [fold_left fold_right map fst snd]. unfold gate_act; cbn [gtarget gcontrol gX gY gZ Nat.eqb gmat]. unfold act1; cbn. csolve.
Qed.
Print Assumptions C16_repeated_qubit_refuted.
Theorem C16_simplify_idempotent : forall o o', Terms PauliCircuit o -> op_simplify true o = Ok o' -> op_simplify true o' = Ok o'.
Proof. intros o o' H. apply terms_pauli in H. exact (simplify_idem o o' H). Qed.
Print Assumptions C16_simplify_idempotent.
Example C16_nonvacuous : Terms PauliString [(C1, [gZ 1; gX 0]); (Ci, [gX 0; gZ 1])] /\
  op_simplify false [(C1, [gZ 1; gX 0]); (Ci, [gX 0; gZ 1])] = Ok [(C1 * C1 + Ci * C1, [gX 0; gZ 1])].
Proof.
  split; [|reflexivity]. apply terms_string. repeat constructor; cbn [snd map gtarget gX gZ In]; try apply gX_pauli; try apply gZ_pauli; try lia; try tauto.
Qed.

(** ---- C17 ---- *)
Theorem C17_product_of_operators_partial : forall a b pre post, Terms PauliString a -> Terms PauliString b ->
  exists p d1 d2, operator_product a b pre post = Ok p /\ Terms Canonical p /\ negligible d1 /\ negligible d2 /\
    (pre = false -> d1 = []) /\ (post = false -> d2 = []) /\
    forall psi, op_act a (op_act b psi) == sadd (op_act p psi) (sadd (op_act d2 psi) (op_act d1 (op_act b psi))).
Proof.
  intros a b pre post Ha Hb. apply terms_string in Ha, Hb. destruct (product_op a b pre post Ha Hb) as (p & d1 & d2 & E & HC & H).
  exists p, d1, d2. split; [exact E|]. split; [apply terms_canonical, HC|exact H].
Qed.
Print Assumptions C17_product_of_operators_partial.
(** without simplification the product is exact *)
Theorem C17_lazy_product_exact_partial : forall a b, Terms PauliString a -> Terms PauliString b ->
  exists p, operator_product a b false false = Ok p /\ length p = (length a * length b)%nat /\ forall psi, op_act p psi == op_act a (op_act b psi).
Proof.
  intros a b Ha Hb. apply terms_string in Ha, Hb. destruct (product_op a b false false Ha Hb) as (p & d1 & d2 & E & HC & _ & _ & H1 & H2 & HW).
  exists p. split; [exact E|]. split.
  - unfold operator_product in E; cbn [bind] in E.
    destruct (canonical_order_spec _ (raw_product_pauli a b (distinct_pauli a Ha) (distinct_pauli b Hb))) as (p' & E' & _ & HL & _).
    assert (p' = p) by congruence. subst p'. rewrite HL. unfold raw_product. clear. induction a as [|t a IH]; cbn [flat_map length]; [reflexivity|].
    rewrite app_length, map_length, IH. reflexivity.
  - intros psi J. symmetry. etransitivity; [exact (HW psi J)|]. rewrite (H1 eq_refl), (H2 eq_refl). unfold sadd.
    change (op_act [] psi J) with C0. change (op_act [] (op_act b psi) J) with C0. ring.
Qed.
Print Assumptions C17_lazy_product_exact_partial.
(** a factor with a repeated qubit gets the wrong phase *)
Theorem C17_repeated_qubit_refuted : exists a b p, Terms PauliCircuit a /\ Terms PauliCircuit b /\ operator_product a b false false = Ok p /\
  op_act a (op_act b (ket 0)) 0%nat = - Ci /\ op_act p (ket 0) 0%nat = Ci.
Proof.
  exists [(C1, [gX 0; gY 0])], [(C1, [])], [(C1 * C1 * (C1 * Ci), [gZ 0])]. split; [|split; [|split; [reflexivity|split]]].
  - apply terms_pauli. constructor; [|constructor]. constructor; [apply gX_pauli|constructor; [apply gY_pauli|constructor]].
  - apply terms_pauli. constructor; [|constructor]. constructor.
  - unfold op_act, Csum, circ_act; cbn [fold_left fold_right map fst snd]. unfold gate_act; cbn [gtarget gcontrol gX gY gZ Nat.eqb gmat]. unfold act1; cbn. csolve.
  - unfold op_act, Csum, circ_act; cbn [fold_left fold_right map fst snd]. unfold gate_act; cbn [gtarget gcontrol gX gY gZ Nat.eqb gmat]. unfold act1; cbn. csolve.
Qed.
Print Assumptions C17_repeated_qubit_refuted.
Example C17_nonvacuous : Terms PauliString [(Ci, [gX 0])] /\ Terms PauliString [(C1, [gY 0]); (C1, [gZ 3])] /\
  operator_product [(Ci, [gX 0])] [(C1, [gY 0]); (C1, [gZ 3])] false false = Ok [(Ci * C1 * (C1 * Ci), [gZ 0]); (Ci * C1 * C1, [gX 0; gZ 3])].
Proof.
  split; [|split; [|reflexivity]]; apply terms_string; repeat constructor; cbn [snd map gtarget gX gZ In]; try apply gX_pauli; try apply gY_pauli; try apply gZ_pauli; tauto.
Qed.

(** ---- C33 ---- *)
(** every Pauli string on n >= 1 qubits exactly once *)
Theorem C33_complete_pool : forall p n, (1 <= n)%nat -> exists l,
  fill_pool p "complete_qubit" n = Ok (p ++ map (fun gs => (C1, [(C1, gs)])) l) /\ length l = (4 ^ n)%nat /\ NoDup l /\
  forall gs, In gs l <-> Canonical gs /\ Forall (fun g => gtarget g < n)%nat gs.
Proof.
  intros p n Hn. exists (strings n). split; [exact (fill_complete p n Hn)|]. split; [apply strings_length|]. split; [apply strings_nodup|].
  intros gs. rewrite canonical_iff. apply strings_all.
Qed.
Print Assumptions C33_complete_pool.
Theorem C33_odd_y_pool : forall p n, (1 <= n)%nat -> exists l,
  fill_pool p "cqoy" n = Ok (p ++ map (fun gs => (C1, [(C1, gs)])) l) /\ NoDup l /\
  forall gs, In gs l <-> Canonical gs /\ Forall (fun g => gtarget g < n)%nat gs /\
    Nat.Odd (length (filter (fun g => String.eqb (glabel g) "Y") gs)).
Proof.
  intros p n Hn. eexists. split; [exact (fill_cqoy p n Hn)|]. split; [apply NoDup_filter, strings_nodup|].
  intros gs. rewrite filter_In, strings_all, canonical_iff, Nat.odd_spec. unfold ycount. tauto.
Qed.
Print Assumptions C33_odd_y_pool.
Theorem C33_unknown_type_raises : forall p t n, t <> "complete_qubit"%string -> t <> "cqoy"%string -> fill_pool p t n = Throw InvalidArg.
Proof. exact fill_unknown. Qed.
Print Assumptions C33_unknown_type_raises.
(** zero qubits: the pool should be the identity alone; the code overflows instead *)
Theorem C33_zero_qubits_refuted : fill_pool [] "complete_qubit" 0 = Throw UB_oob.
Proof. exact fill_zero. Qed.
Print Assumptions C33_zero_qubits_refuted.
Example C33_nonvacuous : fill_pool [] "complete_qubit" 1 = Ok [(C1, [(C1, [])]); (C1, [(C1, [gX 0])]); (C1, [(C1, [gY 0])]); (C1, [(C1, [gZ 0])])].
Proof. reflexivity. Qed.

(** ---- C34 ---- *)
Definition StringPool (p : list (C * list (C * list gate))) : Prop := Forall (fun t => Terms PauliString (snd t)) p.
Lemma F2_impl {A B} (P Q : A -> B -> Prop) l l' : (forall a b, P a b -> Q a b) -> Forall2 P l l' -> Forall2 Q l l'.
Proof. induction 2; constructor; auto. Qed.
Lemma pool_iff p : StringPool p <-> pauli_pool p.
Proof. split; apply Forall_impl; intros t; apply terms_string. Qed.
Theorem C34_join_from_right_partial : forall p h, StringPool p -> Terms PauliString h ->
  exists p', join_op_from_right p h = Ok p' /\ Forall2 (fun t t' => fst t' = fst t /\ Terms Canonical (snd t') /\ exists d, negligible d /\
    forall psi, op_act (snd t) (op_act h psi) == sadd (op_act (snd t') psi) (op_act d psi)) p p'.
Proof.
  intros p h Hp Hh. apply pool_iff in Hp. apply terms_string in Hh. destruct (join_right p h Hp Hh) as (p' & E & HF). exists p'. split; [exact E|].
  eapply F2_impl; [|exact HF]. intros t t' (H1 & H2 & H3). split; [exact H1|]. split; [apply terms_canonical, H2|exact H3].
Qed.
Print Assumptions C34_join_from_right_partial.
Theorem C34_join_from_right_lazy_partial : forall p h, StringPool p -> Terms PauliString h ->
  exists p', join_op_from_right_lazy p h = Ok p' /\ Forall2 (fun t t' => fst t' = fst t /\ Terms Canonical (snd t') /\
    forall psi, op_act (snd t) (op_act h psi) == op_act (snd t') psi) p p'.
Proof.
  intros p h Hp Hh. apply pool_iff in Hp. apply terms_string in Hh. destruct (join_right_lazy p h Hp Hh) as (p' & E & HF). exists p'. split; [exact E|].
  eapply F2_impl; [|exact HF]. intros t t' (H1 & H2 & H3). split; [exact H1|]. split; [apply terms_canonical, H2|exact H3].
Qed.
Print Assumptions C34_join_from_right_lazy_partial.
Theorem C34_join_from_left_partial : forall p h, StringPool p -> Terms PauliString h ->
  exists p', join_op_from_left p h = Ok p' /\ Forall2 (fun t t' => fst t' = fst t /\ Terms Canonical (snd t') /\ exists d, negligible d /\
    forall psi, op_act h (op_act (snd t) psi) == sadd (op_act (snd t') psi) (op_act d psi)) p p'.
Proof.
  intros p h Hp Hh. apply pool_iff in Hp. apply terms_string in Hh. destruct (join_left p h Hp Hh) as (p' & E & HF). exists p'. split; [exact E|].
  eapply F2_impl; [|exact HF]. intros t t' (H1 & H2 & H3). split; [exact H1|]. split; [apply terms_canonical, H2|exact H3].
Qed.
Print Assumptions C34_join_from_left_partial.
Theorem C34_commutator_partial : forall p h, StringPool p -> Terms PauliString h ->
  exists p', join_as_commutator p h = Ok p' /\ Forall2 (fun t t' => fst t' = fst t /\ Terms Canonical (snd t') /\
    exists d1 d2 d3, negligible d1 /\ negligible d2 /\ negligible d3 /\ forall psi,
    ssub (op_act h (op_act (snd t) psi)) (op_act (snd t) (op_act h psi))
      == sadd (op_act (snd t') psi) (sadd (op_act d3 psi) (ssub (op_act d1 psi) (op_act d2 psi)))) p p'.
Proof.
  intros p h Hp Hh. apply pool_iff in Hp. apply terms_string in Hh. destruct (commutator_spec p h Hp Hh) as (p' & E & HF). exists p'. split; [exact E|].
  eapply F2_impl; [|exact HF]. intros t t' (H1 & H2 & H3). split; [exact H1|]. split; [apply terms_canonical, H2|exact H3].
Qed.
Print Assumptions C34_commutator_partial.
(** pairs (I,J) with J >= I, in order, or all pairs *)
Definition index_pairs (upper : bool) (n : nat) : list (nat * nat) :=
  filter (fun IJ => if upper then Nat.leb (fst IJ) (snd IJ) else true) (list_prod (seq 0 n) (seq 0 n)).
Lemma all_pairs_index {A} (d : A) l : all_pairs l = map (fun IJ => (nth (fst IJ) l d, nth (snd IJ) l d)) (index_pairs false (length l)).
Proof.
  assert (HF : forall {X} (xs : list X), filter (fun _ => true) xs = xs) by (intros X xs; induction xs as [|x xs IH]; cbn; congruence).
  unfold index_pairs. rewrite HF. unfold all_pairs.
  assert (HM : map (fun i => nth i l d) (seq 0 (length l)) = l).
  { clear. apply (list_ext d); [rewrite map_length, seq_length; reflexivity|]. intros i Hi. rewrite map_length, seq_length in Hi.
    rewrite (nth_indep _ d (nth 0 l d)) by (rewrite map_length, seq_length; exact Hi).
    rewrite (map_nth (fun i => nth i l d)). rewrite seq_nth by exact Hi. reflexivity. }
  set (s := seq 0 (length l)) in *. clearbody s.
  assert (HG : forall a : list nat, flat_map (fun x => map (fun y => (x, y)) l) (map (fun i => nth i l d) a) = map (fun IJ => (nth (fst IJ) l d, nth (snd IJ) l d)) (list_prod a s)).
  { induction a as [|i a IH]; cbn [map flat_map list_prod]; [reflexivity|]. rewrite map_app, <- IH. f_equal. rewrite map_map. cbn [fst snd].
    rewrite <- HM at 1. rewrite map_map. reflexivity. }
  specialize (HG s). rewrite HM in HG. exact HG.
Qed.
Lemma filter_prod_snoc (f : nat * nat -> bool) a s : filter f (list_prod a s) = flat_map (fun i => filter f (map (fun j => (i, j)) s)) a.
Proof. induction a as [|i a IH]; cbn [list_prod flat_map]; [reflexivity|]. rewrite filter_app, IH. reflexivity. Qed.
Lemma filter_leb_seq i n m : (i <= n)%nat -> filter (fun IJ : nat * nat => Nat.leb (fst IJ) (snd IJ)) (map (fun j => (n, j)) (seq i m)) = map (fun j => (n, j)) (seq n (i + m - n)).
Proof.
  revert i; induction m as [|m IH]; intros i H; cbn [seq map filter].
  - replace (i + 0 - n)%nat with 0%nat by lia. reflexivity.
  - cbn [fst snd]. destruct (Nat.leb_spec n i).
    + assert (i = n) by lia. subst i. replace (n + S m - n)%nat with (S m) by lia. cbn [seq map]. f_equal.
      assert (HH : forall k l, (n <= k)%nat -> filter (fun IJ : nat * nat => Nat.leb (fst IJ) (snd IJ)) (map (fun j => (n, j)) (seq k l)) = map (fun j => (n, j)) (seq k l)).
      { intros k l; revert k; induction l as [|l IHl]; intros k Hk; cbn [seq map filter fst snd]; [reflexivity|]. destruct (Nat.leb_spec n k); [|lia]. f_equal. apply IHl; lia. }
      apply HH; lia.
    + rewrite IH by lia. f_equal. f_equal. lia.
Qed.
Lemma upper_pairs_index {A} (d : A) l : upper_pairs l = map (fun IJ => (nth (fst IJ) l d, nth (snd IJ) l d)) (index_pairs true (length l)).
Proof.
  unfold index_pairs. rewrite filter_prod_snoc.
  assert (HG : forall k, (k <= length l)%nat -> upper_pairs (skipn k l) = map (fun IJ => (nth (fst IJ) l d, nth (snd IJ) l d))
     (flat_map (fun i => filter (fun IJ : nat * nat => Nat.leb (fst IJ) (snd IJ)) (map (fun j => (i, j)) (seq 0 (length l)))) (seq k (length l - k)))).
  { intros k Hk. remember (length l - k)%nat as m eqn:Em. revert k Hk Em. induction m as [|m IH]; intros k Hk Em.
    - rewrite skipn_all2 by lia. reflexivity.
    - assert (HS : skipn k l = nth k l d :: skipn (S k) l).
      { clear - Em. revert k Em. induction l as [|x r IHl]; intros k Em; [cbn in Em; lia|]. destruct k; [reflexivity|]. cbn [skipn nth]. apply IHl. cbn in Em; lia. }
      rewrite HS. cbn [upper_pairs seq flat_map]. rewrite map_app. f_equal.
      + rewrite filter_leb_seq by lia. rewrite map_map. cbn [fst snd Nat.add].
        rewrite <- HS. rewrite <- (map_map (fun j => nth j l d) (fun y => (nth k l d, y))). f_equal.
        clear - Em. replace (length l - k)%nat with (S m) by lia. clear IH || idtac.
        apply (list_ext d); [rewrite skipn_length, map_length, seq_length; lia|]. intros i Hi. rewrite skipn_length in Hi.
        rewrite (nth_indep (map _ _) d (nth 0 l d)) by (rewrite map_length, seq_length; lia).
        rewrite (map_nth (fun i => nth i l d)). rewrite seq_nth by lia.
        assert (HN : forall k l, nth i (skipn k l) d = nth (k + i) l d).
        { clear. induction k as [|k IHk]; intros l; [reflexivity|]. destruct l; [cbn; destruct i; reflexivity|]. cbn. apply IHk. }
        apply HN.
      + apply IH; lia. }
  specialize (HG 0%nat (Nat.le_0_l _)). rewrite Nat.sub_0_r in HG. exact HG.
Qed.
(** square(upper): one term per index pair, conj(c_I) c_J and the operator product A_I A_J *)
Theorem C34_square_partial : forall p upper, StringPool p ->
  exists p', pool_square p upper = Ok p' /\
   Forall2 (fun IJ t' => let tI := nth (fst IJ) p (C0, []) in let tJ := nth (snd IJ) p (C0, []) in
       fst t' = Cconj (fst tI) * fst tJ /\ Terms Canonical (snd t') /\ exists d, negligible d /\
       forall psi, op_act (snd tI) (op_act (snd tJ) psi) == sadd (op_act (snd t') psi) (op_act d psi)) (index_pairs upper (length p)) p'.
Proof.
  intros p upper Hp. apply pool_iff in Hp. destruct (square_spec p upper Hp) as (p' & E & HF). exists p'. split; [exact E|].
  assert (HP : (if upper then upper_pairs p else all_pairs p) = map (fun IJ => (nth (fst IJ) p (C0, []), nth (snd IJ) p (C0, []))) (index_pairs upper (length p))).
  { destruct upper; [apply upper_pairs_index|apply all_pairs_index]. }
  unfold qpool, qop in *. rewrite HP in HF. clear - HF. remember (index_pairs upper (length p)) as l eqn:El. clear El. revert p' HF. induction l as [|IJ l IH]; intros p' HF; cbn [map] in HF; inversion HF; subst; constructor; [|auto].
  cbn [fst snd] in *. destruct H1 as (A & B & D). split; [exact A|]. split; [apply terms_canonical, B|exact D].
Qed.
Print Assumptions C34_square_partial.
Example C34_nonvacuous : StringPool [(C1, [(Ci, [gX 0])]); (Ci, [(C1, [gZ 1])])] /\ Terms PauliString [(C1, [gY 0; gZ 1])].
Proof.
  split; [apply pool_iff; repeat constructor|apply terms_string; repeat constructor]; cbn [snd map gtarget gX gY gZ In]; try apply gX_pauli; try apply gY_pauli; try apply gZ_pauli; try lia; tauto.
Qed.

(** ---- C51 ---- *)
(** the comparator handed to std::sort is not a strict weak ordering: a~b, b~c, yet c<a *)
Theorem C51_comparator_refuted : exists a b c : C * list gate, Terms Canonical [a; b; c] /\ NoDup (map snd [a; b; c]) /\
  term_less a b = false /\ term_less b a = false /\ term_less b c = false /\ term_less c b = false /\ term_less c a = true.
Proof. destruct comparator_bad as (a & b & c & H & H'). exists a, b, c. split; [apply terms_canonical, H|exact H']. Qed.
Print Assumptions C51_comparator_refuted.
(** nevertheless, for every deterministic sort, the order of the terms given does not matter *)
Theorem C51_initial_order_irrelevant_partial : forall sort o o', Terms PauliCircuit o -> Permutation o o' -> order_terms sort o = order_terms sort o'.
Proof. intros sort o o' H. apply terms_pauli in H. exact (order_terms_perm sort o o' H). Qed.
Print Assumptions C51_initial_order_irrelevant_partial.
Theorem C51_equivalence_of_reordered_partial : forall sort o o', Terms PauliCircuit o -> Permutation o o' -> check_op_equivalence sort o o' true = Ok true.
Proof. intros sort o o' H. apply terms_pauli in H. exact (check_perm sort o o' H). Qed.
Print Assumptions C51_equivalence_of_reordered_partial.
Theorem C51_equivalence_without_reordering : forall sort a b, Terms PauliCircuit a -> Terms PauliCircuit b ->
  exists r, check_op_equivalence sort a b false = Ok r /\
   (r = true <-> Forall2 (fun s t => Cabs (fst s - fst t) <= 1e-10 /\ snd s = snd t)%R a b).
Proof. intros sort a b Ha Hb. apply terms_pauli in Ha, Hb. exact (check_no_reorder sort a b Ha Hb). Qed.
Print Assumptions C51_equivalence_without_reordering.
Example C51_nonvacuous : Terms PauliCircuit [(C1, [gX 0]); (Ci, [gZ 1; gY 1])] /\ Permutation [(C1, [gX 0]); (Ci, [gZ 1; gY 1])] [(Ci, [gZ 1; gY 1]); (C1, [gX 0])].
Proof. split; [apply terms_pauli; repeat constructor; try apply gX_pauli; try apply gY_pauli; try apply gZ_pauli|apply perm_swap]. Qed.
