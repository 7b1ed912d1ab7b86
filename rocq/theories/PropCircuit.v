(** Property theorems C09, C10, C12, C13, C14, C50 (circuits). *)
From Coq Require Import Reals String List Arith Lia Bool Lra.
From Verif Require Import CBase Result Bits Spec GateModel ComputerModel SafeProofs GateProofs LibProofs SimProofs InteractProofs CircuitModel SimplifyProofs SimplifyLoop CircuitProofs CompareProofs.
Import ListNotations.

(** A gate obtained from gate(...) or by taking adjoints of such gates: no controlled-U. *)
Inductive plain_gate : gate -> Prop :=
| pg_make type t c p g : make_gate type t c p = Ok g -> plain_gate g
| pg_adjoint g : plain_gate g -> plain_gate (gate_adjoint g).
Lemma plain_std g : plain_gate g -> stdg g.
Proof.
  induction 1 as [type t c p g H|g H (ty & p & HS)].
  - destruct (make_gate_std _ _ _ _ _ H) as (p' & HS & _). exists (mapLabelToType type), p'; exact HS.
  - destruct (std_adjoint ty p g HS) as (ty' & p' & HS'). exists ty', p'; exact HS'.
Qed.
Lemma plain_all_std gs : Forall plain_gate gs -> Forall stdg gs.
Proof. intros H. eapply Forall_impl; [|exact H]. exact plain_std. Qed.
Lemma lib_all gs : Forall library_gate gs -> Forall lib_shape gs.
Proof. intros H. eapply Forall_impl; [|exact H]. exact library_shape. Qed.
Lemma plain_lib gs : Forall plain_gate gs -> Forall lib_shape gs.
Proof. intros H. eapply Forall_impl; [|exact H]. intros g Hg. left. exact (plain_std g Hg). Qed.

(** C09 *)
Theorem C09_simplify_preserves_action : forall gs, Forall plain_gate gs ->
  exists gs', simplify gs = (gs', None) /\ length gs' <= length gs /\ forall psi, circ_act gs' psi == circ_act gs psi.
Proof.
  intros gs H. pose proof (simplify_core gs (plain_lib gs H)) as HC. destruct (simplify gs) as [gs' o].
  destruct HC as [H1 H2]. rewrite (H2 (plain_all_std gs H)) in *. exists gs'. destruct (H1 eq_refl) as [H3 H4]. auto.
Qed.
Print Assumptions C09_simplify_preserves_action.
(** with controlled-U gates: preserved whenever simplify returns normally *)
Theorem C09_simplify_any_library_gates_partial : forall gs gs', Forall library_gate gs -> simplify gs = (gs', None) ->
  length gs' <= length gs /\ forall psi, circ_act gs' psi == circ_act gs psi.
Proof.
  intros gs gs' H E. pose proof (simplify_core gs (lib_all gs H)) as HC. rewrite E in HC. destruct HC as [H1 _].
  destruct (H1 eq_refl); auto.
Qed.
Print Assumptions C09_simplify_any_library_gates_partial.
(** ... but when it raises, the circuit left behind means something else *)
Theorem C09_exception_changes_circuit_refuted : exists gs gs' e,
  Forall library_gate gs /\ simplify gs = (gs', Some e) /\
  circ_act gs (ket 0) 2 = (- C1)%C /\ circ_act gs' (ket 0) 2 = Ci.
Proof. exact simplify_exception_changes. Qed.
Print Assumptions C09_exception_changes_circuit_refuted.
Example C09_nonvacuous : exists g1 g2 g3, make_gate "T" 0 0 0 = Ok g1 /\ make_gate "cZ" 1 0 0 = Ok g2 /\ make_gate "T" 0 0 0 = Ok g3 /\
  Forall plain_gate [g1; g2; g3] /\ exists g4, make_gate "S" 0 0 0 = Ok g4 /\ simplify [g1; g2; g3] = ([g2; g4], None).
Proof.
  do 3 eexists. do 3 (split; [reflexivity|]). split.
  - constructor; [apply (pg_make "T" 0 0 0); reflexivity|]. constructor; [apply (pg_make "cZ" 1 0 0); reflexivity|].
    constructor; [apply (pg_make "T" 0 0 0); reflexivity|constructor].
  - eexists. split; reflexivity.
Qed.

(** C10 *)
Theorem C10_reported_commutation_is_real : forall g1 g2 k, library_gate g1 -> library_gate g2 ->
  evaluate_gate_interaction g1 g2 = Ok (true, k) ->
  forall psi, gate_act g1 (gate_act g2 psi) == gate_act g2 (gate_act g1 psi).
Proof. intros g1 g2 k H1 H2. exact (interaction_commute g1 g2 k (library_shape g1 H1) (library_shape g2 H2)). Qed.
Print Assumptions C10_reported_commutation_is_real.
Theorem C10_evaluation_total : forall g1 g2, plain_gate g1 -> plain_gate g2 ->
  exists c k, evaluate_gate_interaction g1 g2 = Ok (c, k).
Proof. intros g1 g2 H1 H2. exact (interaction_total g1 g2 (plain_std g1 H1) (plain_std g2 H2)). Qed.
Print Assumptions C10_evaluation_total.
Example C10_nonvacuous : exists g1 g2, make_gate "cX" 1 0 0 = Ok g1 /\ make_gate "cV" 1 2 0 = Ok g2 /\
  library_gate g1 /\ library_gate g2 /\ evaluate_gate_interaction g1 g2 = Ok (true, 0).
Proof.
  do 2 eexists. do 2 (split; [reflexivity|]). split; [apply (lib_make "cX" 1 0 0); reflexivity|].
  split; [|reflexivity]. apply (lib_make "cV" 1 2 0); reflexivity.
Qed.

(** C12: every editing operation, described gate by gate *)
Theorem C12_insert_gate : forall gs pos g,
  match insert_gate gs pos g with
  | Ok gs' => pos <= length gs /\ length gs' = S (length gs) /\
      forall i, nth_error gs' i = if i <? pos then nth_error gs i else if i =? pos then Some g else nth_error gs (i - 1)
  | Throw e => length gs < pos /\ e = RuntimeErr
  end.
Proof. exact insert_gate_spec. Qed.
Print Assumptions C12_insert_gate.
Theorem C12_remove_gate : forall gs pos,
  match remove_gate gs pos with
  | Ok gs' => pos < length gs /\ forall i, nth_error gs' i = if i <? pos then nth_error gs i else nth_error gs (S i)
  | Throw e => length gs <= pos /\ e = RuntimeErr
  end.
Proof. exact remove_gate_spec. Qed.
Print Assumptions C12_remove_gate.
Theorem C12_replace_gate : forall gs pos g,
  match replace_gate gs pos g with
  | Ok gs' => pos < length gs /\ forall i, nth_error gs' i = if i =? pos then Some g else nth_error gs i
  | Throw e => length gs <= pos /\ e = RuntimeErr
  end.
Proof. exact replace_gate_spec. Qed.
Print Assumptions C12_replace_gate.
Theorem C12_swap_gates : forall gs p1 p2,
  match swap_gates gs p1 p2 with
  | Ok gs' => p1 < length gs /\ p2 < length gs /\
      forall i, nth_error gs' i = if i =? p1 then nth_error gs p2 else if i =? p2 then nth_error gs p1 else nth_error gs i
  | Throw e => (length gs <= p1 \/ length gs <= p2) /\ e = RuntimeErr
  end.
Proof. exact swap_gates_spec. Qed.
Print Assumptions C12_swap_gates.
Theorem C12_add_circuit : forall gs c, add_circuit gs c = gs ++ c.
Proof. exact add_circuit_spec. Qed.
Print Assumptions C12_add_circuit.
Theorem C12_insert_circuit : forall gs pos c,
  match insert_circuit gs pos c with
  | Ok gs' => pos <= length gs /\
      forall i, nth_error gs' i = if i <? pos then nth_error gs i
                                  else if i <? pos + length c then nth_error c (i - pos) else nth_error gs (i - length c)
  | Throw e => length gs < pos /\ e = RuntimeErr
  end.
Proof. exact insert_circuit_spec. Qed.
Print Assumptions C12_insert_circuit.
(** remove_gates removes [p1,p2) if p2 is a valid position ... *)
Theorem C12_remove_gates_partial : forall gs p1 p2, p1 <= p2 ->
  match remove_gates gs p1 p2 with
  | Ok gs' => p2 < length gs /\ forall i, nth_error gs' i = if i <? p1 then nth_error gs i else nth_error gs (i + (p2 - p1))
  | Throw e => length gs <= p2 /\ e = RuntimeErr
  end.
Proof. exact remove_gates_spec. Qed.
Print Assumptions C12_remove_gates_partial.
(** ... hence no range that includes the last gate can be removed, and a reversed range is undefined behaviour *)
Theorem C12_remove_tail_refuted : forall gs p1, remove_gates gs p1 (length gs) = Throw RuntimeErr.
Proof. exact remove_gates_tail. Qed.
Print Assumptions C12_remove_tail_refuted.
Theorem C12_reversed_range_refuted : forall gs p1 p2, p2 < p1 < length gs -> remove_gates gs p1 p2 = Throw UB_oob.
Proof. exact remove_gates_reversed. Qed.
Print Assumptions C12_reversed_range_refuted.

(** C13 *)
Theorem C13_set_parameters_partial : forall gs ps, Forall plain_gate gs -> length ps = length (filter has_parameter gs) ->
  exists gs', set_parameters gs ps = (gs', None) /\ params_assigned gs ps gs' /\
    length (get_parameters gs') = length ps /\ length gs' = length gs /\
    forall i, i < length ps -> exists g, In g gs /\ angle_matches g (nth i (get_parameters gs') 0%R) (nth i ps 0%R).
Proof.
  intros gs ps H HL. destruct (set_parameters_spec gs ps (plain_all_std gs H) HL) as (gs' & E & HA & _).
  exists gs'. split; [exact E|]. split; [exact HA|]. exact (params_assigned_get gs ps gs' HA).
Qed.
Print Assumptions C13_set_parameters_partial.
Theorem C13_too_many_values_raise : forall gs ps, Forall plain_gate gs -> length (filter has_parameter gs) < length ps ->
  exists gs', set_parameters gs ps = (gs', Some RuntimeErr).
Proof. intros gs ps H. exact (set_parameters_too_many gs ps (plain_all_std gs H)). Qed.
Print Assumptions C13_too_many_values_raise.
Theorem C13_too_many_values_modify_refuted :
  exists g g', make_gate "Rz" 0 0 0 = Ok g /\ set_parameters [g] [1%R; 2%R] = ([g'], Some RuntimeErr) /\
    parameter g = Some 0%R /\ parameter g' = Some 1%R.
Proof. exact set_parameters_not_atomic. Qed.
Print Assumptions C13_too_many_values_modify_refuted.
Theorem C13_too_few_values_refuted : forall gs ps, Forall plain_gate gs -> length ps < length (filter has_parameter gs) ->
  exists gs', set_parameters gs ps = (gs', Some UB_oob).
Proof. intros gs ps H. exact (set_parameters_too_few gs ps (plain_all_std gs H)). Qed.
Print Assumptions C13_too_few_values_refuted.
Example C13_nonvacuous : exists g1 g2 g3, make_gate "Rz" 0 0 1 = Ok g1 /\ make_gate "H" 1 1 0 = Ok g2 /\ make_gate "A" 1 0 2 = Ok g3 /\
  Forall plain_gate [g1; g2; g3] /\ length [5%R; 6%R] = length (filter has_parameter [g1; g2; g3]).
Proof.
  do 3 eexists. do 3 (split; [reflexivity|]). split; [|reflexivity].
  constructor; [apply (pg_make "Rz" 0 0 1); reflexivity|]. constructor; [apply (pg_make "H" 1 1 0); reflexivity|].
  constructor; [apply (pg_make "A" 1 0 2); reflexivity|constructor].
Qed.

(** C14 *)
Theorem C14_cnot_count : forall gs, get_num_cnots gs =
  length (filter (fun g => existsb (String.eqb (glabel g)) ["CNOT"; "cX"; "aCNOT"; "acX"]%string) gs)
  + 3 * length (filter (fun g => existsb (String.eqb (glabel g)) ["A"; "SWAP"]%string) gs).
Proof. exact num_cnots_count. Qed.
Print Assumptions C14_cnot_count.
Theorem C14_additive : forall a b, get_num_cnots (a ++ b) = get_num_cnots a + get_num_cnots b.
Proof. exact num_cnots_app. Qed.
Print Assumptions C14_additive.
Theorem C14_adjoint : forall gs, Forall library_gate gs -> get_num_cnots (circuit_adjoint gs) = get_num_cnots gs.
Proof. exact num_cnots_adjoint. Qed.
Print Assumptions C14_adjoint.
Example C14_nonvacuous : exists g1 g2, make_gate "CNOT" 1 0 0 = Ok g1 /\ make_gate "A" 2 1 1 = Ok g2 /\ get_num_cnots [g1; g2; g1] = 5.
Proof. do 2 eexists. do 2 (split; [reflexivity|]). reflexivity. Qed.

(** C50: < is a strict total order (up to identity) on circuits without controlled-U *)
Theorem C50_strict_order_partial : forall a b c, Forall plain_gate a -> Forall plain_gate b -> Forall plain_gate c ->
  circuit_ltb a a = false /\
  (circuit_ltb a b = true -> circuit_ltb b c = true -> circuit_ltb a c = true) /\
  (circuit_ltb a b = false -> circuit_ltb b a = false -> a = b).
Proof.
  intros a b c Ha Hb Hc. apply plain_all_std in Ha, Hb, Hc. split; [apply circuit_ltb_irrefl|].
  split; [apply circuit_ltb_trans; assumption|apply circuit_ltb_total; assumption].
Qed.
Print Assumptions C50_strict_order_partial.
Theorem C50_equality_reflexive_symmetric : forall a b, circuit_eqb a a = true /\ circuit_eqb a b = circuit_eqb b a.
Proof. intros a b. split; [apply circuit_eqb_refl|apply circuit_eqb_sym]. Qed.
Print Assumptions C50_equality_reflexive_symmetric.
Theorem C50_equality_without_parameters_partial : forall a b, plain_gate a -> plain_gate b -> has_parameter a = false ->
  gate_eqb a b = true -> a = b.
Proof. intros a b Ha Hb. apply gate_eqb_exact; apply plain_std; assumption. Qed.
Print Assumptions C50_equality_without_parameters_partial.
Theorem C50_equality_not_transitive_refuted : exists a b c, library_gate a /\ library_gate b /\ library_gate c /\
  gate_eqb a b = true /\ gate_eqb b c = true /\ gate_eqb a c = false.
Proof. exact gate_eqb_not_trans. Qed.
Print Assumptions C50_equality_not_transitive_refuted.
Theorem C50_less_and_equal_refuted : exists a b, library_gate a /\ library_gate b /\ gate_eqb a b = true /\ gate_ltb a b = true.
Proof. exact gate_ltb_eqb_clash. Qed.
Print Assumptions C50_less_and_equal_refuted.
(** controlled-U gates with different matrices are equal *)
Theorem C50_controlled_U_equal_refuted : exists a b, library_gate a /\ library_gate b /\ gate_eqb a b = true /\
  gate_act a (ket 2) 3 = C1 /\ gate_act b (ket 2) 3 = C0.
Proof. exact cU_eqb_clash. Qed.
Print Assumptions C50_controlled_U_equal_refuted.
